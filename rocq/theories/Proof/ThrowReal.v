(** SPSA in real arithmetic, and what SPSA and simulated annealing leave behind. *)
From Coq Require Import List Arith Bool Reals Lra Lia.
From Verif.Base Require Import Num Vec Loop Size Instances.
From Verif.Model Require Import Common SPSA SA Throw.
From Verif.Spec Require Import ThrowSpec SPSASpec.
From Verif.Proof Require Import ThrowProof SPSAProof.
Import ListNotations.
Local Open Scope R_scope.

Section SPSA.
  Variable mx : R.
  Notation N := (RNum mx).
  Notation vec := (list R).
  Variables (alpha gamma stepSize ess ak : R) (maxIterations : nat) (tolerance : R) (pw : R -> R -> R)
            (f : vec -> R) (coin : nat -> list bool) (cb : CB N vec vec).
  Notation log := (spsa_log (N := N) alpha gamma stepSize ess ak maxIterations tolerance pw f coin cb).
  Notation c_ := (c_ gamma ess pw).
  Notation s_ := (s_ coin).
  Definition lnear (n : nat) (m : vec) (s : vec * nat) (c : act vec (ev N vec vec)) : Prop :=
    length (fst s) = n /\ near (N := N) gamma ess pw coin m s c.
  Lemma spsa_ok_len n (HC : forall k, length (coin k) = n) : forall fuel k ov last term (x : vec) tr, length x = n ->
    ok (counted (N := N)) (lnear n) x (x, k) (spsa_calls (N := N) alpha gamma stepSize ess ak maxIterations tolerance pw f coin cb fuel k ov last term x tr).
  Proof.
    unfold lnear, near. induction fuel as [|fuel IH]; intros k ov last term x tr L; cbn [spsa_calls]; destruct (negb _); try (cbn; auto 10; fail).
    destruct (nisnan (n := N) ov || nisinf (n := N) ov); [cbn; auto|]. destruct (nlt (n := N) _ _); [cbn; auto|].
    cbn [ok]. cbn [counted snd fst]. split; [solve [auto 12]|]. split; [solve [auto 12]|]. split; [solve [auto 12]|]. split; [solve [auto 12]|].
    destruct (_ || _); cbn [ok counted snd fst]; [split; [solve [auto 12]|]; split; [solve [auto 12]|]; split; [solve [auto 12]|exact I]|].
    match goal with |- context [Fn ?z] => assert (LZ : length z = n) end.
    { unfold vsub, vscale, spsa_gradient. rewrite map2_length, !map_length, back_R by (rewrite HC; auto). unfold sp. rewrite map_length, HC. cbn in *. lia. }
    split; [solve [auto 12]|]. split; [solve [auto 12]|]. split; [solve [auto 12]|]. apply IH. exact LZ.
  Qed.
  Lemma nth_map2 (g : R -> R -> R) : forall (a b : vec) i, (i < length a)%nat -> (i < length b)%nat -> nth i (map2 g a b) 0 = g (nth i a 0) (nth i b 0).
  Proof. induction a as [|u a IH]; intros [|v b] [|i] H H0; cbn in *; try lia; auto. apply IH; lia. Qed.
  Lemma coin_sign k i : (i < length (coin k))%nat -> nth i (s_ k) 0 = 1 \/ nth i (s_ k) 0 = -1.
  Proof.
    unfold SPSAProof.s_. generalize (coin k). clear. intros l. revert i. induction l as [|b l IH]; intros [|i] H; cbn in *; try lia.
    - destruct b; auto.
    - apply IH. lia.
  Qed.
  Lemma up_off k (x : vec) : length (coin k) = length x -> off_by (c_ k) (up c_ s_ k x) x.
  Proof.
    intros H. unfold up. assert (L : length (s_ k) = length x) by (unfold SPSAProof.s_; rewrite map_length; auto). split; [rewrite map2_length; lia|].
    intros i Hi. rewrite nth_map2 by lia. destruct (coin_sign k i) as [->| ->]; [lia| |]; [left|right]; lra.
  Qed.
  Lemma down_off k (x : vec) : length (coin k) = length x -> off_by (c_ k) (down c_ s_ k x) x.
  Proof.
    intros H. unfold down. assert (L : length (s_ k) = length x) by (unfold SPSAProof.s_; rewrite map_length; auto). split; [rewrite map2_length; lia|].
    intros i Hi. rewrite nth_map2 by lia. destruct (coin_sign k i) as [->| ->]; [lia| |]; [right|left]; lra.
  Qed.
  Theorem spsa_throw_real fuel (x : vec) : (forall k, length (coin k) = length x) ->
    at_every_call x (log fuel x) (fun m h c => m = shown c /\
      (m = reached x h \/ off_by (ess / pw (INR (length (steps_in h) + 1)) gamma) m (reached x h))).
  Proof.
    intros HC a c b E C. pose proof (ok_all (counted (N := N)) (lnear (length x)) (log fuel x) x (x, O)) as H.
    assert (O : ok (counted (N := N)) (lnear (length x)) x (x, O) (log fuel x)).
    { split; [unfold lnear, near; cbn; auto|]. apply spsa_ok_len; auto. }
    specialize (H O a c b E C). pose proof (counted_fold (N := N) (told (a ++ [c])) x 0%nat) as CF. unfold lnear, near in H. change (T N) with R in *. rewrite CF in H. destruct H as (L & H0 & H). cbn in L, H. split; [exact H0|]. revert L H.
    generalize (reached x (told (a ++ [c]))) (length (steps_in (told (a ++ [c])))). intros y k L H.
    change (ess / pw (INR (k + 1)) gamma) with (c_ k).
    destruct H as [H|[H|[H|H]]].
    - auto.
    - right. rewrite plus_R in H. rewrite H. apply up_off. exact (eq_trans (HC k) (eq_sym L)).
    - right. rewrite minus_R in H. rewrite H. apply down_off. exact (eq_trans (HC k) (eq_sym L)).
    - left. rewrite back_R in H; [exact H|]. exact (eq_trans (HC k) (eq_sym L)).
  Qed.
  (** the first evaluation is at a point that is not the start *)
  Theorem spsa_leaves fuel (x : vec) : (forall k, length (coin k) = length x) -> x <> [] -> (0 < maxIterations)%nat -> (0 < fuel)%nat ->
    ess / pw 1 gamma <> 0 -> tolerance <= Rabs (mx - 0) ->
    ~ at_every_call x (log fuel x) (fun m h c => m = x \/ In m (steps_in h)).
  Proof.
    intros HC HX HM HF HE HT H. destruct fuel as [|fuel]; [lia|]. unfold spsa_log in H. cbn [spsa_calls] in H.
    destruct (Nat.ltb_spec 0 maxIterations) as [_|]; [|lia]. cbn [negb andb] in H.
    change (nisnan (n := N) (n0 (n := N)) || nisinf (n := N) (n0 (n := N))) with false in H. cbv iota in H.
    destruct (nlt (n := N) _ _) eqn:EL.
    { cbn in EL. unfold Rltb in EL. destruct (Rlt_dec _ _) in EL; [lra|discriminate]. }
    match type of H with at_every_call _ (?c1 :: Put ?p :: ?c2 :: ?r) _ => specialize (H [c1; Put p] c2 r eq_refl eq_refl) end.
    cbn [memory fold_left] in H. cbn in H. destruct H as [H|[]].
    rewrite plus_R in H. destruct (up_off 0 x (HC O)) as [_ U]. rewrite H in U. destruct x as [|x0 x]; [congruence|].
    specialize (U O). unfold SPSAProof.c_ in U. cbn in U. destruct U; [lia| |]; lra.
  Qed.
End SPSA.

(** the first move of simulated annealing is evaluated before it is accepted *)
Section SA.
  Context {N : Num}.
  Notation vec := (list N).
  Theorem sa_leaves maxIterations initMoves moveCtrlSweep maxToleranceSweep (tolerance maxMoveCoef initMoveCoef gain target : N) next lg ex f rnd cb t0 (x0 : N) (x : vec) :
    (0 < initMoves)%nat -> nadd x0 (laplace lg initMoveCoef (fst (rnd O))) <> x0 ->
    ~ at_every_call (x0 :: x) (sa_log maxIterations initMoves moveCtrlSweep maxToleranceSweep tolerance maxMoveCoef initMoveCoef gain target next lg ex f rnd cb t0 (x0 :: x))
        (fun m h c => m = x0 :: x \/ In m (steps_in h)).
  Proof.
    intros HI HL H. destruct initMoves as [|k]; [lia|]. unfold sa_log in H. cbn [init_calls] in H. unfold move_calls in H. cbn [sa_x sa_idx sa_size sa_acc sa_j nth_error map] in H.
    destruct (rnd O) as [u xi]. cbn [fst] in HL.
    match type of H with at_every_call _ (?c1 :: ?c2 :: ?c3 :: ((Put ?p :: ?c4 :: ?r) ++ ?q) ++ ?q') _ => specialize (H [c1; c2; c3; Put p] c4 ((r ++ q) ++ q') eq_refl eq_refl) end.
    cbn in H. destruct H as [H|[]]. congruence.
  Qed.
End SA.
