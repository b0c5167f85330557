From Coq Require Import List Arith Bool ZArith Reals Lra Lia Permutation.
From Verif.Base Require Import Num Instances Size.
From Verif.Model Require Import Common SA ParallelSgd.
From Verif.Spec Require Import ParSpec LpSpec.
From Verif.Proof Require Import SAProof ParProof.
Import ListNotations.

Section R.
  Context {N : Num}.
  Lemma subs_nth : forall (us : list (nat * N)) x p,
    nth_error (subs us x) p = option_map (fun b => fold_left nsub (amounts p us) b) (nth_error x p).
  Proof.
    unfold subs, amounts. induction us as [|[q a] us IH]; intros x p; simpl; [destruct (nth_error x p); reflexivity|].
    rewrite IH. unfold sub_at. destruct (nth_error x q) as [b|] eqn:E.
    - destruct (Nat.eqb_spec q p) as [->|NE].
      + rewrite set_nth_same by (apply nth_error_Some; congruence). rewrite E. reflexivity.
      + rewrite set_nth_other by congruence. reflexivity.
    - destruct (Nat.eqb_spec q p) as [->|NE]; [rewrite E|]; reflexivity.
  Qed.
  Lemma amounts_perm p (us ws : list (nat * N)) : Permutation us ws -> Permutation (amounts p us) (amounts p ws).
  Proof.
    unfold amounts. induction 1 as [|[q a] us ws H IH|[q a] [q' a'] us|us vs ws H1 IH1 H2 IH2]; simpl.
    - reflexivity.
    - apply Permutation_app_head. exact IH.
    - rewrite !app_assoc. apply Permutation_app_tail. apply Permutation_app_comm.
    - etransitivity; eauto.
  Qed.

  Variables (maxIterations : nat) (tolerance : N) (shuffle : bool) (T share n : nat).
  Variable f : list N -> N.
  Variable step : nat -> N.
  Variable perm : list (oev N) -> list nat -> list nat.
  Variable cbE : list (oev N) -> bool.
  Variable grad : list (oev N) -> list (pev N) -> nat -> list (nat * N).
  Variables (cbG cbS : list (oev N) -> list (pev N) -> bool).
  Variable sched : list (oev N) -> list nat.
  Hypothesis PERM : forall h l, Permutation (perm h l) l.
  Notation loop := (psgd_loop maxIterations tolerance shuffle T share f step perm cbE grad cbG cbS sched).
  Notation rnd := (rounds (bound maxIterations) tolerance n T share f step cbE).

  Lemma loop_rounds : forall fuel i order x last term tr v xf full,
    loop fuel i order x last term tr = Ret (v, xf, full) -> i <= bound maxIterations -> Permutation order (seq 0 n) ->
    forall a, (term = true -> a = true) ->
    exists body, full = rev tr ++ body ++ [OEnd xf] /\ rnd i tr a x last body xf v.
  Proof.
    induction fuel as [|fuel IH]; intros i order x last term tr v xf full E LI PO a TA; simpl in E; [discriminate|].
    destruct ((i =? bound maxIterations) || term) eqn:ST.
    - injection E as <- <- <-. exists []. split; [reflexivity|constructor].
      apply orb_true_iff in ST. destruct ST as [ST|ST]; [left; apply Nat.eqb_eq; exact ST|right; auto].
    - apply orb_false_iff in ST. destruct ST as [NI _]. apply Nat.eqb_neq in NI.
      destruct (nisnan (f x) || nisinf (f x)) eqn:NN.
      { injection E as <- <- <-. exists [OEval x (f x)]. split; [simpl; rewrite <- !app_assoc; reflexivity|].
        apply rounds_end; [lia|reflexivity|]. apply orb_true_iff in NN. tauto. }
      apply orb_false_iff in NN. destruct NN as [NN NF].
      destruct (nlt (nabs (nsub last (f x))) tolerance) eqn:TO.
      { injection E as <- <- <-. exists [OEval x (f x)]. split; [simpl; rewrite <- !app_assoc; reflexivity|].
        apply rounds_end; [lia|reflexivity|tauto]. }
      set (tr1 := OEval x (f x) :: tr) in *. set (order1 := if shuffle then perm tr1 order else order) in *.
      assert (PO1 : Permutation order1 (seq 0 n)) by (unfold order1; destruct shuffle; [rewrite PERM|]; exact PO).
      destruct (pexec _ _ _ _ _ _ _ _ _) as [s ls] eqn:PE.
      destruct (finished share order1 ls) eqn:FI; [|discriminate].
      destruct (epoch_ok share order1 (step i) _ _ _ T _ _ _ _ _ PE FI) as (E1 & _ & E2 & E3).
      apply IH with (a := (cbE tr1 || par_asked (rev (s_log s)))%bool) in E; [|lia|exact PO1|].
      2: { intros TS. destruct (cbE tr1) eqn:CE; [reflexivity|]. simpl. destruct (par_asked (rev (s_log s))) eqn:PA; [reflexivity|].
           rewrite (term_source share order1 (step i) _ _ _ _ _ _ _ _ PE PA eq_refl) in TS; [discriminate|].
           intros l I. unfold start in I. apply in_map_iff in I. destruct I as (t & <- & _). exact Logic.I. }
      destruct E as (body & EF & RB).
      exists (OEval x (f x) :: OEpoch i order1 (step i) (rev (s_log s)) (s_it s) :: body). split.
      + rewrite EF. simpl. rewrite <- !app_assoc. reflexivity.
      + apply rounds_go; auto; try lia.
  Qed.

  Lemma rounds_facts : forall i h a x last body xf v, rnd i h a x last body xf v -> i <= bound maxIterations ->
    v = List.last (objectives body) last /\ length (objectives body) + i <= bound maxIterations /\
    (forall o es, In (o, es) (epochs body) -> Permutation o (seq 0 n) /\
       Permutation (map snd (computed es)) (firstn (T * share) o)) /\
    length (epochs body) <= length (objectives body) <= S (length (epochs body)).
  Proof.
    induction 1 as [i h a x last S0|i h a x last v L F S0|i h a x last v order es x' body xf vf L F N1 N2 N3 P1 P2 P3 X R IH]; intros LI.
    - simpl. split; [reflexivity|]. split; [lia|]. split; [intros o es []|lia].
    - simpl. split; [reflexivity|]. split; [lia|]. split; [intros o es []|lia].
    - destruct (IH ltac:(lia)) as (A & B & C & D). unfold objectives, epochs in *. simpl. split; [|split; [|split]].
      + destruct (flat_map _ body) as [|y r] eqn:Q; [exact A|]. rewrite A. clear. revert y. induction r as [|z r IH]; intros y; [reflexivity|]. apply IH.
      + lia.
      + intros o e [Q|I]; [injection Q as <- <-; auto|auto].
      + simpl in *. lia.
  Qed.
End R.

Local Open Scope R_scope.
Lemma fold_nsub mx : forall (l : list R) (b : R), fold_left (nsub (n := RNum mx)) l b = b - sumR l.
Proof. induction l as [|x l IH]; intros b; cbn [fold_left sumR]; [lra|]. rewrite IH. cbn. lra. Qed.
Lemma sumR_perm' a b : Permutation a b -> sumR a = sumR b.
Proof. induction 1; cbn; lra. Qed.
Lemma real_sum mx (us ws : list (nat * R)) (x : list R) p : Permutation us ws ->
  nth_error (fold_left (fun y '(p, a) => sub_at (N := RNum mx) p a y) us x) p
  = option_map (fun b => b - sumR (amounts (N := RNum mx) p ws)) (nth_error x p).
Proof.
  intros H. pose proof (subs_nth (N := RNum mx) us x p) as E. unfold subs in E. refine (eq_trans E _).
  cbn [T RNum]. destruct (nth_error x p) as [b|]; [|reflexivity]. cbn [option_map]. f_equal.
  refine (eq_trans (fold_nsub mx _ b) _). f_equal. apply sumR_perm'. apply (amounts_perm (N := RNum mx)). exact H.
Qed.

(** ** ExponentialBackoff *)
Local Close Scope R_scope.
Section B.
  Context {N : Num}.
  Variables (q first : nat) (beta step : N).
  (** the policy after the calls for epochs 1..n *)
  Fixpoint backed (n : nat) : nat * N :=
    match n with O => (first, step) | S n' => snd (backoff q beta (backed n') (S n')) end.
  Fixpoint times (k : nat) : N := match k with O => step | S k' => nmul (times k') beta end.
  Lemma backed_ok : 1 <= q -> 1 <= first -> forall n, exists k,
    backed n = (first + k * q, times k) /\ n < first + k * q /\ (k = 0 \/ first + (k - 1) * q <= n).
  Proof.
    intros Q F. induction n as [|n (k & E & L & H)]; [exists 0; simpl; split; [f_equal; lia|split; [lia|auto]]|].
    cbn [backed]. rewrite E. unfold backoff. destruct (Nat.leb_spec (first + k * q) (S n)) as [K|K].
    - exists (S k). cbn [snd times]. split; [f_equal; lia|]. split; [simpl; lia|]. right. simpl. rewrite Nat.sub_0_r. exact K.
    - exists k. cbn [snd]. split; [reflexivity|]. split; [lia|]. destruct H; [auto|right; lia].
  Qed.
End B.
