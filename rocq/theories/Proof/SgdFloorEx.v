(** Sums for the examples of C86: (x-1)^2/2 and (x+1)^2/2, which pull in opposite directions, and
    the two functions of C83 as a function for SGD. *)
From Coq Require Import List Arith Bool Reals Lra Lia Permutation.
From Verif.Base Require Import Num Vec Instances Loop Size.
From Verif.Model Require Import Common Sgd Updates SgdPolicies.
From Verif.Spec Require Import Gradient ConvergeSpec FWSpec VrRateSpec SgdRateSpec.
From Verif.Proof Require Import SgdRate SgdFloor VrRateEx.
Import ListNotations.
Local Open Scope R_scope.

Definition sep_of (mx : R) (n : nat) (order : nat -> list nat) (ev : nat -> list R -> nat -> nat -> R) (gr : nat -> list R -> list R)
    : SepFun (RNum mx) (list R) (list R) :=
  Build_SepFun (RNum mx) (list R) (list R) n ev
    (fun j x b c => (ev j x b c, sum_vec 1 (map (fun i => gr i x) (firstn c (skipn b (order j)))))).
Lemma two_sep_sum mx ev : sgd_sum mx 1 (sep_of mx 2 two_order ev two_grad) two_grad.
Proof.
  intros j. exists (two_order j). split; [|reflexivity]. unfold two_order. destruct (Nat.even j); [apply Permutation_refl|apply perm_swap].
Qed.

Definition pull_grad (i : nat) (x : list R) : list R := map (fun a => match i with O => a - 1 | _ => a + 1 end) x.
Definition pull_avg (x : list R) : R := match x with [a] => a * a / 2 + / 2 | _ => 0 end.
Definition pull (mx : R) (ev : nat -> list R -> nat -> nat -> R) := sep_of mx 2 (fun _ => [0; 1]%nat) ev pull_grad.
Lemma pull_sum mx ev : sgd_sum mx 1 (pull mx ev) pull_grad.
Proof. intros j. exists [0; 1]%nat. split; [apply Permutation_refl|reflexivity]. Qed.
Lemma pull_smooth : each_smooth 1 2 1 pull_grad.
Proof.
  intros i x y I Ex Ey. destruct (one_coord x Ex) as [a ->]. destruct (one_coord y Ey) as [b ->]. split; [reflexivity|].
  destruct i as [|[|i]]; [..|lia]; cbn; assert (0 <= (a - b) * (a - b)) by apply Rle_0_sqr; lra.
Qed.
Lemma pull_avg_grad a : avg_grad 1 2 pull_grad [a] = [a].
Proof. unfold avg_grad. cbn. f_equal. field. Qed.
Lemma pull_avg_smooth : smooth_on (space 1) 1 pull_avg (avg_grad 1 2 pull_grad).
Proof.
  split.
  - intros x Ex. destruct (one_coord x Ex) as [a ->]. rewrite pull_avg_grad. split; [reflexivity|].
    intros d Ed. destruct (one_coord d Ed) as [c ->]. cbn.
    pose (P := (fct_cte (a * a / 2 + / 2) + (mult_real_fct (a * c) id + mult_real_fct (c * c / 2) Rsqr))%F).
    assert (D : derivable_pt_lim P 0 (0 + (a * c * 1 + c * c / 2 * (2 * 0)))).
    { apply derivable_pt_lim_plus; [apply derivable_pt_lim_const|]. apply derivable_pt_lim_plus; apply derivable_pt_lim_scal.
      - apply derivable_pt_lim_id.
      - apply derivable_pt_lim_Rsqr. }
    replace (a * c + 0) with (0 + (a * c * 1 + c * c / 2 * (2 * 0))) by field.
    intros e He. destruct (D e He) as [dl H]. exists dl. intros h H0 H1. specialize (H h H0 H1).
    match type of H with Rabs ?u < _ => match goal with |- Rabs ?v < _ => replace v with u; [exact H|] end end.
    f_equal. f_equal. unfold P, plus_fct, mult_real_fct, fct_cte, id, Rsqr. field.
  - intros x y Ex Ey. destruct (one_coord x Ex) as [a ->]. destruct (one_coord y Ey) as [b ->]. rewrite !pull_avg_grad. cbn. lra.
Qed.
Lemma pull_avg_strong : strongly_convex_on (space 1) 1 pull_avg.
Proof.
  intros t x y T Ex Ey. destruct (one_coord x Ex) as [a ->]. destruct (one_coord y Ey) as [b ->]. unfold segment_pt, sqn. cbn. nra.
Qed.
Lemma pull_avg_min : forall z, length z = 1%nat -> pull_avg [0] <= pull_avg z.
Proof. intros z Ez. destruct (one_coord z Ez) as [a ->]. cbn. assert (0 <= a * a) by apply Rle_0_sqr. lra. Qed.
Lemma dist_one a : dist [a] [0] = Rabs a.
Proof. unfold dist. cbn. replace ((a - 0) * (a - 0) + 0) with (Rsqr a) by (unfold Rsqr; ring). apply sqrt_Rsqr_abs. Qed.

Section Away.
  Variable mx : R.
  Notation RN := (RNum mx).
  Variables (h : R) (ev : nat -> list R -> nat -> nat -> R) (max : nat) (tol : R) (shuffle exact : bool) (cb : Callbacks RN (list R) (list R)).
  Hypothesis HH : 0 < h <= / 16.
  Hypothesis W : watches cb.
  Notation c := (plain_sgd mx 1 max tol shuffle exact).
  Notation f := (pull mx ev).
  Definition away (tr : list (event RN (list R) (list R))) : Prop :=
    forall x e o, In (EndEpoch x e o) tr -> h * h <= dist x [0].
  Notation state := (st RN (list R) (list R) (list unit) unit).
  Definition pulled (s : state) : Prop :=
    away (s_tr s) /\ length (s_u s) = 1%nat /\ s_step s = h /\ (s_i s <= actual_max c)%nat /\
    ((s_i s < actual_max c)%nat -> (s_cf s = 0%nat /\ exists a, s_x s = [a] /\ a <= 0) \/ (s_cf s = 1%nat /\ exists a, s_x s = [a] /\ a <= h)).
  Definition pleft (r : exit (N := RN) (X := list R) (G := list R) (U := list unit) (D := unit)) : Prop :=
    match r with Xloop s | Xret s => away (s_tr s) | Xub => True end.
  Lemma body_pulled s : pulled s -> match body c f cb s with inl s' => pulled s' | inr r => pleft r end.
  Proof.
    intros (Aw & Lu & Es & Ei & Go). unfold body.
    destruct (s_i s <? actual_max c)%nat eqn:B1; cbn [andb negb]; [|exact Aw]. apply Nat.ltb_lt in B1.
    destruct (s_term s) eqn:B2; cbn [andb negb]; [exact Aw|]. specialize (Go B1).
    assert (EB : effective_batch c f s = 1%nat).
    { unfold effective_batch. cbn [c_batch plain_sgd pull sep_of sf_num]. destruct Go as [[Q _]|[Q _]]; rewrite Q; lia. }
    rewrite EB. cbn [sf_evalgrad pull sep_of].
    match goal with |- context [sum_vec 1 ?l] => set (g := sum_vec 1 l) end.
    set (tr1 := EvalGrad (s_x s) (s_cf s) 1 _ g :: s_tr s). rewrite (W tr1 g). cbn [c_up plain_sgd c_dp].
    assert (exists a b, s_x s = [a] /\ g = [b] /\ ((s_cf s = 0%nat /\ a <= 0 /\ b = a - 1) \/ (s_cf s = 1%nat /\ a <= h /\ b = a + 1))) as (a & b & Ea & Eg & Co).
    { destruct Go as [[Q [a [Ea Ba]]]|[Q [a [Ea Ba]]]]; exists a.
      - exists (a - 1). split; [exact Ea|]. split; [unfold g; rewrite Q, Ea; cbn; f_equal; lra|]. left. auto.
      - exists (a + 1). split; [exact Ea|]. split; [unfold g; rewrite Q, Ea; cbn; f_equal; lra|]. right. auto. }
    destruct (vanilla_along mx (s_u s) (s_x s) g (s_step s) ltac:(rewrite Ea; exact Lu) ltac:(rewrite Ea, Eg; reflexivity)) as [V1 V2].
    destruct (sgd_vanilla (N := RN) (s_u s) (s_x s) (s_step s) g) as [u' x'] eqn:EV. cbn [fst snd] in V1, V2. unfold sgd_no_decay.
    rewrite Es, Ea, Eg in V2. cbn in V2. rewrite Ea in V1. cbn [length] in V1.
    change (sf_num f) with 2%nat. cbn [Nat.eqb s_cf].
    destruct Co as [[Q [Ba Eb]]|[Q [Ba Eb]]]; rewrite Q.
    - replace ((0 + 1) mod 2 =? 0)%nat with false by reflexivity.
      unfold pulled. cbn [s_x s_epoch s_overall s_tr s_term s_i s_cf s_last s_u s_d s_step s_shuf].
      split. { intros z i o [K|[K|K]]; [discriminate|discriminate|exact (Aw z i o K)]. }
      split; [exact V1|]. split; [exact Es|]. split; [lia|]. intros _. right. split; [reflexivity|]. exists (a + - h * b). split; [exact V2|]. subst b. nra.
    - replace ((1 + 1) mod 2 =? 0)%nat with true by reflexivity.
      assert (Fa : a + - h * b <= - (h * h)) by (subst b; nra).
      assert (Aw' : forall e o, away (EndEpoch x' e o :: Step x' :: tr1)).
      { intros e o z i v [K|[K|[K|K]]]; [injection K as <- _ _|discriminate|discriminate|exact (Aw z i v K)].
        rewrite V2, dist_one, Rabs_left1; nra. }
      unfold epoch_end. cbn [s_x s_epoch s_overall s_tr s_term s_i s_cf s_last s_u s_d s_step s_shuf].
      destruct (_ || _); [exact (Aw' _ _)|]. destruct (nlt _ _); [exact (Aw' _ _)|].
      unfold pulled. cbn [s_x s_epoch s_overall s_tr s_term s_i s_cf s_last s_u s_d s_step s_shuf].
      split. { destruct (c_shuffle c); intros z i v; [intros [K|[K|K]]|intros [K|K]]; try discriminate; exact (Aw' _ _ z i v K). }
      split; [exact V1|]. split; [exact Es|]. split; [lia|]. intros Lt.
      replace (s_i s + 1 =? actual_max c)%nat with false by (symmetry; apply Nat.eqb_neq; lia). cbn [negb]. left. split; [reflexivity|].
      exists (a + - h * b). split; [exact V2|]. nra.
  Qed.
  Lemma exact_away : forall fuel shuf x i acc tr v tr', exact_loop c f fuel shuf x i acc tr = Some (v, tr') -> away tr -> away tr'.
  Proof.
    induction fuel as [|fuel IH]; intros shuf x i acc tr v tr' E Z; cbn [exact_loop] in E.
    - destruct (i <? sf_num f)%nat; [discriminate|]. injection E as _ <-. auto.
    - destruct (i <? sf_num f)%nat; [|injection E as _ <-; auto]. apply IH in E; [exact E|]. intros z j o [Q|Q]; [discriminate|exact (Z z j o Q)].
  Qed.
  Theorem never_there fuel r : optimize_with c f cb fuel [tt] tt h [0] = Return r -> away (r_trace r).
  Proof.
    intros Run. unfold optimize_with in Run.
    assert (I : pulled (init cb [0] [tt] tt h)).
    { unfold pulled, init. cbn [s_x s_epoch s_overall s_tr s_term s_i s_cf s_last s_u s_d s_step s_shuf length].
      split. { intros z i o [Q|[Q|[]]]; discriminate. }
      split; [reflexivity|]. split; [reflexivity|]. split; [lia|]. intros _. left. split; [reflexivity|]. exists 0. split; [reflexivity|lra]. }
    pose proof (loop_inv_done _ pulled pleft body_pulled fuel (init cb [0] [tt] tt h)) as LI.
    destruct (loop (body c f cb) fuel (init cb [0] [tt] tt h)) as [s|e] eqn:EL; [discriminate|]. specialize (LI e I eq_refl).
    assert (FN : forall s v tr, finish (U := list unit) (D := unit) s v tr = r -> away tr -> away (r_trace r)).
    { intros s v tr <- Z1. unfold finish. cbn [r_trace]. intros z i o Q. apply in_rev in Q. destruct Q as [Q|Q]; [discriminate|exact (Z1 z i o Q)]. }
    destruct e as [s|s|]; [| |discriminate].
    - destruct (c_exact c).
      + destruct (exact_loop c f fuel (s_shuf s) (s_x s) 0 n0 (s_tr s)) as [[v tr]|] eqn:EX; [|discriminate]. injection Run as Run.
        exact (FN s v tr Run (exact_away _ _ _ _ _ _ _ _ EX LI)).
      + injection Run as Run. exact (FN s _ _ Run LI).
    - injection Run as Run. exact (FN s _ _ Run LI).
  Qed.
End Away.
