From Coq Require Import List Arith Reals Lra Lia Bool.
From Verif.Base Require Import Num Instances Vec.
From Verif.Model Require Import Updates.
From Verif.Spec Require Import UpdatesSpec.
Import ListNotations.

(** ** Vectors: every coordinate evolves by itself *)
Section Lift.
  Context {N : Num} {S : Type} (up : S -> N -> N -> N -> S * N).

  Lemma vec_up_length : forall ss xs h gs,
    length ss = length xs -> length gs = length xs ->
    length (fst (vec_up up ss xs h gs)) = length xs /\
    length (snd (vec_up up ss xs h gs)) = length xs.
  Proof.
    induction ss as [|s ss IH]; intros [|x xs] h [|g gs] H1 H2; simpl in *; try discriminate; [auto|].
    destruct (up s x h g) as [s1 x1].
    destruct (IH xs h gs) as [A B]; [congruence|congruence|].
    destruct (vec_up up ss xs h gs); simpl in *. auto.
  Qed.

  Lemma vec_up_nth : forall ss xs h gs j s x g,
    length ss = length xs -> length gs = length xs ->
    nth_error ss j = Some s -> nth_error xs j = Some x -> nth_error gs j = Some g ->
    nth_error (fst (vec_up up ss xs h gs)) j = Some (fst (up s x h g)) /\
    nth_error (snd (vec_up up ss xs h gs)) j = Some (snd (up s x h g)).
  Proof.
    induction ss as [|s0 ss IH]; intros [|x0 xs] h [|g0 gs] j s x g H1 H2 Hs Hx Hg; simpl in *; try discriminate.
    - destruct j; discriminate.
    - destruct (up s0 x0 h g0) as [s1 x1] eqn:E.
      destruct (vec_up up ss xs h gs) as [ss1 xs1] eqn:E1.
      destruct j as [|j]; simpl in *.
      + injection Hs as <-. injection Hx as <-. injection Hg as <-. rewrite E. auto.
      + specialize (IH xs h gs j s x g). rewrite E1 in IH. apply IH; auto.
  Qed.

  Lemma vec_run_nth : forall l ss xs j s x,
    length ss = length xs ->
    Forall (fun hg => length (snd hg) = length xs) l ->
    nth_error ss j = Some s -> nth_error xs j = Some x ->
    nth_error (snd (vec_run up ss xs l)) j =
      Some (snd (run up s x (map (fun hg => (fst hg, nth j (snd hg) n0)) l))).
  Proof.
    unfold vec_run, run.
    induction l as [|[h gs] l IH]; intros ss xs j s x L F Hs Hx; simpl; [auto|].
    inversion F as [|? ? F1 F2]; subst. simpl in F1.
    destruct (vec_up_length ss xs h gs L F1) as [A B].
    assert (J : j < length gs).
    { rewrite F1. apply nth_error_Some. congruence. }
    pose proof (nth_error_nth' gs n0 J) as G.
    destruct (vec_up_nth ss xs h gs j s x _ L F1 Hs Hx G) as [P Q].
    destruct (vec_up up ss xs h gs) as [ss1 xs1]; simpl in *.
    destruct (up s x h (nth j gs n0)) as [s1 x1]; simpl in *.
    apply IH; auto; [congruence|]. rewrite B. auto.
  Qed.
End Lift.

Lemma run_snoc : forall (N : Num) S (up : S -> N -> N -> N -> S * N) s x l h g,
  run up s x (l ++ [(h, g)]) = up (fst (run up s x l)) (snd (run up s x l)) h g.
Proof. intros. unfold run. rewrite fold_left_app. reflexivity. Qed.
Lemma run_cons : forall (N : Num) S (up : S -> N -> N -> N -> S * N) s x l h g,
  run up s x ((h, g) :: l) = run up (fst (up s x h g)) (snd (up s x h g)) l.
Proof. intros. unfold run. simpl. destruct (up s x h g). reflexivity. Qed.

Local Open Scope R_scope.
(* a goal at type [RNum mx] as a goal at type R *)
Ltac eqR := match goal with |- @eq _ ?a ?b => change (@eq R a b) end.
(* goals about the carrier of [RNum mx] as goals about R *)
Ltac toR := match goal with |- @eq _ ?a ?b => let a' := eval cbn -[geom pow] in a in let b' := eval cbn -[geom pow] in b in change (@eq R a' b') end.
Ltac rring := toR; ring.

(** ** C30 *)
Lemma geom_S : forall mu k, geom mu (S k) = 1 + mu * geom mu k.
Proof.
  intros. unfold geom. induction k as [|k IH].
  - simpl. ring.
  - rewrite (tech5 _ (S k)). rewrite IH at 1. rewrite (tech5 _ k). cbn [pow]. ring.
Qed.
Lemma geom_0 : forall mu, geom mu 0 = 1. Proof. reflexivity. Qed.

Lemma vanilla_moves : forall (mx : R) (l : list (R * R)) (x : R),
  snd (run (N := RNum mx) (vanilla_up (N := RNum mx)) tt x l) = x - weighted (fun _ => 1) l.
Proof.
  intros mx. induction l as [|[h g] l IH]; intros x.
  - rring.
  - rewrite run_cons. simpl fst; simpl snd.
    etransitivity; [apply IH|]. rring.
Qed.

Lemma momentum_moves : forall (mx mu : R) (l : list (R * R)) (v x : R),
  snd (run (N := RNum mx) (momentum_up (N := RNum mx) mu) v x l) =
  x + (match length l with O => 0 | S k => mu * geom mu k end) * v - weighted (geom mu) l.
Proof.
  intros mx mu. induction l as [|[h g] l IH]; intros v x.
  - rring.
  - rewrite run_cons. unfold momentum_up at 2 3. simpl fst; simpl snd.
    etransitivity; [apply IH|]. cbn [length weighted].
    destruct l as [|p l']; cbn [length].
    + rewrite geom_0. rring.
    + rewrite geom_S. rring.
Qed.

Lemma nesterov_moves : forall (mx mu : R) (l : list (R * R)) (v x : R),
  snd (run (N := RNum mx) (nesterov_up (N := RNum mx) mu) v x l) =
  x + (match length l with O => 0 | S k => mu * mu * geom mu k end) * v
    - weighted (fun k => geom mu (S k)) l.
Proof.
  intros mx mu. induction l as [|[h g] l IH]; intros v x.
  - rring.
  - rewrite run_cons. unfold nesterov_up at 2 3. simpl fst; simpl snd.
    etransitivity; [apply IH|]. cbn [length weighted].
    destruct l as [|p l']; cbn [length].
    + rewrite geom_S, geom_0. rring.
    + rewrite !geom_S. rring.
Qed.

Lemma qh_moves : forall (mx mu nu : R) (l : list (R * R)) (v x : R),
  snd (run (N := RNum mx) (qh_up (N := RNum mx) mu nu) v x l) =
  x - nu * mu * discounted mu (map fst l) * v - qh_sum mu nu l.
Proof.
  intros mx mu nu. induction l as [|[h g] l IH]; intros v x.
  - rring.
  - rewrite run_cons. unfold qh_up at 2 3. simpl fst; simpl snd.
    etransitivity; [apply IH|]. cbn [qh_sum map fst discounted]. rring.
Qed.

Lemma momentum_moves0 : forall (mx mu x : R) (l : list (R * R)),
  snd (run (N := RNum mx) (momentum_up (N := RNum mx) mu) 0 x l) = x - weighted (geom mu) l.
Proof. intros. etransitivity; [apply momentum_moves|]. rring. Qed.
Lemma nesterov_moves0 : forall (mx mu x : R) (l : list (R * R)),
  snd (run (N := RNum mx) (nesterov_up (N := RNum mx) mu) 0 x l) = x - weighted (fun k => geom mu (S k)) l.
Proof. intros. etransitivity; [apply nesterov_moves|]. rring. Qed.
Lemma qh_moves0 : forall (mx mu nu x : R) (l : list (R * R)),
  snd (run (N := RNum mx) (qh_up (N := RNum mx) mu nu) 0 x l) = x - qh_sum mu nu l.
Proof. intros. etransitivity; [apply qh_moves|]. rring. Qed.

Lemma weighted_ext : forall w w' l, (forall k, w k = w' k) -> weighted w l = weighted w' l.
Proof. induction l as [|[h g] l IH]; intros E; simpl; [auto|]. rewrite E, IH; auto. Qed.
Lemma geom_zero : forall k, geom 0 k = 1.
Proof. induction k; [reflexivity|]. rewrite geom_S. ring. Qed.

Lemma zero_momentum : forall (mx x : R) (l : list (R * R)),
  let van := snd (run (N := RNum mx) (vanilla_up (N := RNum mx)) tt x l) in
  snd (run (N := RNum mx) (momentum_up (N := RNum mx) 0) 0 x l) = van /\
  snd (run (N := RNum mx) (nesterov_up (N := RNum mx) 0) 0 x l) = van /\
  (forall mu, snd (run (N := RNum mx) (qh_up (N := RNum mx) mu 0) 0 x l) = van) /\
  (forall nu, snd (run (N := RNum mx) (qh_up (N := RNum mx) 0 nu) 0 x l) = van).
Proof.
  intros mx x l van.
  assert (V : van = x - weighted (fun _ => 1) l) by apply vanilla_moves.
  split; [|split; [|split]]; intros; rewrite V.
  - etransitivity; [apply momentum_moves0|]. unfold Rminus. f_equal. f_equal. apply weighted_ext, geom_zero.
  - etransitivity; [apply nesterov_moves0|]. unfold Rminus. f_equal. f_equal. apply weighted_ext; intros; apply geom_zero.
  - etransitivity; [apply qh_moves0|]. unfold Rminus. f_equal. f_equal. clear V van.
    induction l as [|[h g] l IH]; [reflexivity|]. cbn [qh_sum weighted]. rewrite IH. ring.
  - etransitivity; [apply qh_moves0|]. unfold Rminus. f_equal. f_equal. clear V van.
    induction l as [|[h g] l IH]; [reflexivity|]. cbn [qh_sum weighted discounted]. rewrite IH. ring.
Qed.
