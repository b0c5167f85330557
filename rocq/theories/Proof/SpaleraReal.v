(** The policy of SPALeRA SGD over the real numbers, and examples. *)
From Coq Require Import List Arith Bool Lia ZArith QArith Reals Lra.
From Verif.Base Require Import Num Vec Size Loop Instances QInst.
From Verif.Model Require Import Common VarRed Spalera.
From Verif.Spec Require Import SgdSpec VarRedSpec SpaleraSpec LpSpec.
From Verif.Proof Require Import SVRGProof SVRGReal LookaheadProof SpaleraProof.
Import ListNotations.
Local Open Scope nat_scope.

(** ---- the test ---- *)
Section PH.
  Local Open Scope R_scope.
  Lemma tails_len h : length (tails h) = length h.
  Proof. induction h; cbn; auto. Qed.
  Lemma mean_step e h : mean_relaxed (e :: h) = (INR (length h) * mean_relaxed h + relaxed (e :: h)) / (INR (length h) + 1).
  Proof.
    unfold mean_relaxed. cbn [tails map sumR]. rewrite <- S_INR. unfold Rdiv. f_equal. cbn [length].
    destruct h as [|e' h]; [cbn; lra|]. rewrite Rplus_comm. f_equal. rewrite (Rmult_comm (sumR _)), <- Rmult_assoc, Rinv_r, Rmult_1_l; [reflexivity|].
    apply not_0_INR. discriminate.
  Qed.
  Lemma drift_step e h : drift (e :: h) = drift h + (relaxed (e :: h) - mean_relaxed (e :: h)).
  Proof. unfold drift. cbn [tails map sumR]. lra. Qed.
  Lemma lowest_step e h : lowest (e :: h) = Rmin (drift (e :: h)) (lowest h).
  Proof. reflexivity. Qed.
  Lemma drift_one e : drift [e] = 0.
  Proof. rewrite drift_step, mean_step. cbn [length]. unfold drift, mean_relaxed. cbn [tails map sumR INR]. lra. Qed.
  Lemma one_unchanged lambda e : 0 <= lambda -> ~ changed lambda [e].
  Proof. intros L H. unfold changed in H. rewrite lowest_step, drift_one in H. cbn in H. rewrite Rmin_left in H by lra. lra. Qed.

  (** as long as there are at most 1 / ratio objectives: their average *)
  Lemma relaxed_mean h : (forall o m t, In ((o, m) :: t) (tails h) -> INR (length t) <= 1 / m) ->
    relaxed h = sumR (map fst h) / INR (length h).
  Proof.
    induction h as [|[o m] t IH]; intros H; [cbn; lra|]. cbn [relaxed].
    destruct (Rlt_dec _ _) as [L|_]; [specialize (H o m t (or_introl eq_refl)); lra|].
    rewrite IH; [|intros o' m' t' Ht; apply (H o' m' t'); right; exact Ht].
    cbn [map sumR fst length]. rewrite S_INR. unfold Rdiv. f_equal. destruct t as [|e t]; [cbn; lra|].
    rewrite Rplus_comm. f_equal. rewrite (Rmult_comm (sumR _)), <- Rmult_assoc, Rinv_r, Rmult_1_l; [reflexivity|].
    apply not_0_INR. discriminate.
  Qed.

  (** objectives that never increase (newest first: each is at most the one before it) *)
  Fixpoint descending (h : list (R * R)) : Prop :=
    match h with
    | [] => True
    | (o, m) :: t => 0 < m <= 1 /\ match t with [] => True | (o', _) :: _ => o <= o' end /\ descending t
    end.
  Lemma relaxed_desc h : descending h ->
    match h with [] => True | (o, _) :: t => o <= relaxed h /\ (t <> [] -> relaxed h <= relaxed t) end.
  Proof.
    induction h as [|[o m] t IH]; [auto|]. intros (M & L & D). specialize (IH D).
    assert (K : t <> [] -> o <= relaxed t).
    { destruct t as [|[o' m'] t']; [congruence|]. intros _. destruct IH as (IH & _). cbn [relaxed] in *. lra. }
    cbn [relaxed]. destruct (Rlt_dec _ _) as [G|G].
    - assert (t <> []). { intros ->. cbn in G. assert (0 < 1 / m) by (apply Rdiv_lt_0_compat; lra). lra. }
      specialize (K H). split; [|intros _].
      + assert (0 <= (1 - m) * (relaxed t - o)) by (apply Rmult_le_pos; lra). lra.
      + assert (0 <= m * (relaxed t - o)) by (apply Rmult_le_pos; lra). lra.
    - pose proof (pos_INR (length t)) as P. destruct t as [|e t'].
      + cbn. split; [lra|congruence].
      + specialize (K ltac:(discriminate)). set (q := relaxed (e :: t')) in *. set (k := INR (length (e :: t'))) in *. split; [|intros _].
        * apply (Rmult_le_reg_r (k + 1)); [lra|]. unfold Rdiv. rewrite Rmult_assoc, Rinv_l, Rmult_1_r by lra.
          assert (0 <= k * (q - o)) by (apply Rmult_le_pos; lra). lra.
        * apply (Rmult_le_reg_r (k + 1)); [lra|]. unfold Rdiv. rewrite Rmult_assoc, Rinv_l, Rmult_1_r by lra. lra.
  Qed.
  Lemma desc_tail e h : descending (e :: h) -> descending h.
  Proof. destruct e. cbn. tauto. Qed.
  Lemma relaxed_low h : descending h -> forall t, In t (tails h) -> relaxed h <= relaxed t.
  Proof.
    induction h as [|e h IH]; intros D t; cbn [tails In]; [tauto|]. intros [<-|H]; [lra|].
    apply Rle_trans with (relaxed h); [|apply IH; [exact (desc_tail _ _ D)|exact H]].
    pose proof (relaxed_desc _ D) as K. destruct e. apply K. intros ->. exact H.
  Qed.
  Lemma sumR_low c l : Forall (fun a => c <= a) l -> INR (length l) * c <= sumR l.
  Proof.
    induction 1 as [|a l H F IH]; [cbn; lra|]. cbn [sumR length]. rewrite S_INR. lra.
  Qed.
  Lemma mean_low h : h <> [] -> descending h -> relaxed h <= mean_relaxed h.
  Proof.
    intros Z D. unfold mean_relaxed. assert (P : 0 < INR (length h)) by (apply lt_0_INR; destruct h; [congruence|cbn; lia]).
    apply (Rmult_le_reg_r (INR (length h))); [exact P|]. unfold Rdiv. rewrite Rmult_assoc, Rinv_l, Rmult_1_r by lra.
    rewrite <- (tails_len h) at 1. rewrite <- (map_length relaxed), Rmult_comm. apply sumR_low. apply Forall_map, Forall_forall. intros t Ht. apply relaxed_low; assumption.
  Qed.
  Lemma drift_down h : descending h -> lowest h = drift h.
  Proof.
    induction h as [|e h IH]; intros D; [reflexivity|]. rewrite lowest_step, (IH (desc_tail _ _ D)).
    apply Rmin_left. rewrite drift_step. pose proof (mean_low (e :: h) ltac:(discriminate) D). lra.
  Qed.
  Lemma descending_unchanged lambda h : 0 <= lambda -> descending h -> ~ changed lambda h.
  Proof. intros L D H. unfold changed in H. rewrite (drift_down _ D) in H. lra. Qed.
End PH.

(** ---- the policy ---- *)
Section Pol.
  Variables (mx : R) (npow : R -> nat -> R) (tiny alpha epsilon rate lambda : R) (n : nat).
  Notation N := (RNum mx).
  Notation upd := (update (N := N) npow exp tiny alpha epsilon rate lambda).
  Hypothesis Hl : (0 <= lambda)%R.
  Variable p : nat.
  Notation hist := (list (R * R)).
  Definition entry (o : ucall N) : R * R := (c_obj o, (INR (c_b o) / INR n)%R).

  (** the state after a history h (since the last change); [prev] is the point before the last move *)
  Definition St (h : hist) (prev : list R) (s : pst N) : Prop :=
    s_ph s = length h /\ s_rel s = relaxed h /\ s_mu0 s = mean_relaxed h /\ s_un s = drift h /\ s_mn s = lowest h /\
    length (s_lr s) = p /\ Forall (fun a => (0 < a)%R) (s_lr s) /\ length (s_sums s) = p /\ (h <> [] -> s_prev s = prev /\ length prev = p).
  Lemma relax_eq o m h : relax (N := N) m o (relaxed h) (length h) = relaxed ((o, m) :: h).
  Proof.
    unfold relax. cbn [relaxed]. rewrite !nofnat_INR. cbn [nlt RNum ndiv n1]. unfold Rltb. destruct (Rlt_dec _ _); [reflexivity|].
    cbn [ndiv nadd nmul RNum]. rewrite plus_INR. reflexivity.
  Qed.
  Lemma relax_entry (o : ucall N) h : relax (N := N) (INR (c_b o) / INR n)%R (c_obj o) (relaxed h) (length h) = relaxed (entry o :: h).
  Proof. apply relax_eq. Qed.
  Lemma min_eq a b : (if Rltb a b then a else b) = Rmin a b.
  Proof. unfold Rltb, Rmin. destruct (Rlt_dec a b), (Rle_dec a b); lra. Qed.
  Lemma vmul_pos : forall a b : list N, Forall (fun a => (0 < a)%R) a -> Forall (fun a => (0 < a)%R) b -> Forall (fun a => (0 < a)%R) (vmul a b).
  Proof.
    induction a as [|u a IH]; intros [|v b] A B; cbn; try constructor.
    - apply Forall_cons_iff in A, B. apply Rmult_lt_0_compat; tauto.
    - apply Forall_cons_iff in A, B. apply IH; tauto.
  Qed.
  Definition moved (o : uout N) (lr : list R) : Prop :=
    exists fac, length fac = p /\ Forall (fun a => (0 < a)%R) fac /\ s_lr (o_pol o) = vmul (N := N) lr fac /\
      o_to o = vsub (N := N) (o_x o) (vscale (N := N) (c_eta (o_in o)) (vmul (N := N) (s_lr (o_pol o)) (c_g (o_in o)))) /\ o_ok o = true.
  Definition backed (o : uout N) (lr prev : list R) : Prop :=
    o_to o = prev /\ s_lr (o_pol o) = map (fun a => a / 2)%R lr /\ (o_ok o = true <-> Forall (fun a => (tiny < a)%R) (s_lr (o_pol o))).

  Lemma update_step h prev s (o : uout N) :
    St h prev s ->
    upd (c_eta (o_in o)) (c_obj (o_in o)) (c_b (o_in o)) n (o_x o) (c_g (o_in o)) s = Some (o_to o, o_ok o, o_pol o) ->
    let h' := entry (o_in o) :: h in
    (changed lambda h' -> h <> [] /\ backed o (s_lr s) prev /\ (o_ok o = true -> St [] prev (o_pol o)) /\ length (o_to o) = p) /\
    (~ changed lambda h' -> length (o_x o) = p /\ moved o (s_lr s) /\ St h' (o_x o) (o_pol o) /\ length (o_to o) = p) /\
    length (s_lr (o_pol o)) = p /\ Forall (fun a => (0 < a)%R) (s_lr (o_pol o)).
  Proof.
    intros (E1 & E2 & E3 & E4 & E5 & L1 & P1 & L2 & Pv). unfold update. rewrite E1, E2, E3, E4, E5.
    change (ndiv (n := N) (nofnat (c_b (o_in o))) (nofnat n)) with (nofnat (N := N) (c_b (o_in o)) / nofnat (N := N) n)%R.
    rewrite !nofnat_INR. rewrite relax_entry.
    set (e := entry (o_in o)). cbn [nadd nsub nmul ndiv nlt RNum].
    assert (M : ((INR (length h) * mean_relaxed h + relaxed (e :: h)) / INR (length h + 1))%R = mean_relaxed (e :: h)).
    { rewrite mean_step, plus_INR. reflexivity. }
    rewrite M, <- drift_step, min_eq, <- lowest_step. unfold Rltb. cbv zeta.
    destruct (Rlt_dec lambda (drift (e :: h) - lowest (e :: h))) as [C|C].
    - assert (Hh : h <> []). { intros ->. apply (one_unchanged lambda e Hl). exact C. }
      destruct (Pv Hh) as (Pv1 & Pv2).
      match goal with |- context [existsb _ ?l] => set (lr := l) end.
      assert (Ll : length lr = p) by (unfold lr; rewrite map_length; exact L1).
      assert (Lp : Forall (fun a => (0 < a)%R) lr).
      { unfold lr. apply Forall_map. revert P1. apply Forall_impl. intros a Ha. cbn. lra. }
      destruct (existsb _ lr) eqn:Ex; intros [= X1 X2 X3].
      + apply existsb_exists in Ex. destruct Ex as (a & Ia & La). cbn in La. apply (Bool.reflect_iff _ _ (Rleb_spec _ _)) in La.
        rewrite <- X1, <- X2, <- X3. cbn [s_lr]. split; [|split; [intros H; contradiction (H C)|split; assumption]].
        intros _. split; [exact Hh|]. unfold backed. rewrite <- X1, <- X2, <- X3. cbn [s_lr].
        assert (K : ~ Forall (fun a => (tiny < a)%R) lr). { rewrite Forall_forall. intros F. specialize (F a Ia). lra. }
        split; [split; [exact Pv1|split; [reflexivity|split; [discriminate|intros F; contradiction (K F)]]]|split; [discriminate|exact (eq_trans (f_equal (@length R) Pv1) Pv2)]].
      + rewrite <- X1, <- X2, <- X3. cbn [s_lr]. split; [|split; [intros H; contradiction (H C)|split; assumption]].
        intros _. split; [exact Hh|].
        assert (K : Forall (fun a => (tiny < a)%R) lr).
        { rewrite Forall_forall. intros a Ia. destruct (Rlt_le_dec tiny a) as [|G]; [assumption|]. exfalso.
          assert (existsb (fun a : N => nle a tiny) lr = true) by (apply existsb_exists; exists a; split; [exact Ia|]; cbn; destruct (Rleb_spec a tiny); [reflexivity|contradiction]). congruence. }
        split; [|split; [|exact (eq_trans (f_equal (@length R) Pv1) Pv2)]].
        * unfold backed. rewrite <- X1, <- X2, <- X3. cbn [s_lr]. split; [exact Pv1|split; [reflexivity|split; auto]].
        * intros _. unfold St. cbn [s_ph s_rel s_mu0 s_un s_mn s_lr s_sums s_prev length]. unfold drift, lowest, mean_relaxed. cbn.
          sp; auto; try lra.
    - destruct (Nat.eqb_spec (length (c_g (o_in o))) (length (s_lr s))) as [G1|]; [|discriminate].
      destruct (Nat.eqb_spec (length (o_x o)) (length (s_lr s))) as [G2|]; [|discriminate]. cbn [andb negb].
      set (sm := sums (N := N) alpha epsilon (c_g (o_in o)) (s_sums s)).
      assert (Lsm : length sm = p).
      { unfold sm, sums. destruct (nlt _ _); [|unfold vscale; rewrite map_length; exact L2].
        unfold vadd. rewrite map2_length. unfold vscale. rewrite !map_length. cbn [T RNum] in *. lia. }
      set (fac := factors (N := N) npow exp alpha rate (length (o_x o)) (s_eve s) sm).
      assert (Lf : length fac = p) by (unfold fac, factors; rewrite map_length; exact Lsm).
      assert (Pf : Forall (fun a => (0 < a)%R) fac).
      { unfold fac, factors. apply Forall_map, Forall_forall. intros a _. apply exp_pos. }
      assert (Ll : length (vmul (N := N) (s_lr s) fac) = p) by (unfold vmul; rewrite map2_length; cbn [T RNum] in *; lia).
      intros [= X1 X2 X3]. rewrite <- X3. cbn [s_lr].
      split; [intros H; contradiction (C H)|]. split; [|split; [exact Ll|apply vmul_pos; assumption]].
      intros _. split; [cbn [T RNum] in *; lia|]. split; [|split].
      + exists fac. rewrite <- X3. cbn [s_lr]. sp; auto.
      + unfold St. cbn [s_ph s_rel s_mu0 s_un s_mn s_lr s_sums s_prev]. sp; auto; try (cbn [length]; lia).
        * apply vmul_pos; assumption.
        * intros _. split; [reflexivity|cbn [T RNum] in *; lia].
      + rewrite <- X1. unfold vsub, vscale, vmul. rewrite map2_length, map_length, map2_length. fold (vmul (N := N) (s_lr s) fac).
        cbn [T RNum] in *. lia.
  Qed.

  (** what a call does, given the calls before it *)
  Definition call_ok (before : list (uout N)) (lr : list R) (o : uout N) : Prop :=
    let h := entry (o_in o) :: since mx lambda n before [] in
    (changed lambda h -> exists l o', before = l ++ [o'] /\ ~ changed lambda (entry (o_in o') :: since mx lambda n l []) /\ backed o lr (o_x o')) /\
    (~ changed lambda h -> moved o lr) /\
    length (o_to o) = p /\ length (s_lr (o_pol o)) = p /\ Forall (fun a => (0 < a)%R) (s_lr (o_pol o)).
  Lemma since_app l1 : forall l2 h, since mx lambda n (l1 ++ l2) h = since mx lambda n l2 (since mx lambda n l1 h).
  Proof. induction l1 as [|o l1 IH]; intros l2 h; cbn; auto. Qed.

  Lemma calls_step : forall l before x s prev,
    calls (N := N) npow exp tiny alpha epsilon rate lambda n x s l ->
    St (since mx lambda n before []) prev s ->
    (since mx lambda n before [] <> [] -> exists l' o', before = l' ++ [o'] /\ o_x o' = prev /\ ~ changed lambda (entry (o_in o') :: since mx lambda n l' [])) ->
    forall l1 o l2, l = l1 ++ o :: l2 -> call_ok (before ++ l1) (s_lr (last (map o_pol l1) s)) o.
  Proof.
    induction l as [|o0 l IH]; intros before x s prev H S Hp l1 o l2 E; [destruct l1; discriminate|].
    cbn in H. destruct H as (Ex & U & Ok & C). subst x.
    pose proof (update_step _ _ _ _ S U) as (A & B & L1 & L2). cbv zeta in A, B.
    assert (Sn : since mx lambda n (before ++ [o0]) [] =
                 if Rlt_dec lambda (drift (entry (o_in o0) :: since mx lambda n before []) - lowest (entry (o_in o0) :: since mx lambda n before [])) then [] else entry (o_in o0) :: since mx lambda n before []).
    { rewrite since_app. reflexivity. }
    destruct l1 as [|o1 l1].
    - injection E as -> ->. cbn [map last]. rewrite app_nil_r. unfold call_ok. cbv zeta. split; [|split].
      + intros Ch. destruct (A Ch) as (Hh & Bk & _ & Ln). destruct (Hp Hh) as (l' & o' & -> & Eo & Nc).
        exists l', o'. split; [reflexivity|]. split; [exact Nc|]. rewrite Eo. exact Bk.
      + intros Ch. destruct (B Ch) as (_ & Mv & _ & Ln). exact Mv.
      + split; [|split; assumption]. destruct (Rlt_dec lambda (drift (entry (o_in o) :: since mx lambda n before []) - lowest (entry (o_in o) :: since mx lambda n before []))) as [Ch|Ch].
        * exact (proj2 (proj2 (proj2 (A Ch)))).
        * exact (proj2 (proj2 (proj2 (B Ch)))).
    - injection E as <- ->. assert (T : o_ok o0 = true) by (apply Ok; destruct l1; discriminate).
      replace (before ++ o0 :: l1) with ((before ++ [o0]) ++ l1) by (rewrite <- app_assoc; reflexivity).
      replace (last (map o_pol (o0 :: l1)) s) with (last (map o_pol l1) (o_pol o0)) by (cbn [map]; symmetry; apply last_step).
      destruct (Rlt_dec lambda (drift (entry (o_in o0) :: since mx lambda n before []) - lowest (entry (o_in o0) :: since mx lambda n before []))) as [Ch|Ch].
      + destruct (A Ch) as (Hh & Bk & Sx & Ln). eapply IH; [exact C| |rewrite Sn; congruence|reflexivity]. rewrite Sn. apply Sx, T.
      + destruct (B Ch) as (Lx & Mv & Sx & Ln). eapply IH; [exact C|rewrite Sn; exact Sx| |reflexivity].
        intros _. exists before, o0. auto.
  Qed.

  Lemma fresh_calls x l : length x = p ->
    calls (N := N) npow exp tiny alpha epsilon rate lambda n x (fresh p) l ->
    forall l1 o l2, l = l1 ++ o :: l2 -> call_ok l1 (s_lr (last (map o_pol l1) (fresh (N := N) p))) o.
  Proof.
    intros Lx C. eapply (calls_step l [] x _ []); [exact C| |cbn; congruence].
    unfold St, fresh, drift, lowest, mean_relaxed. cbn. rewrite !repeat_length. sp; auto; try lra.
    - apply Forall_forall. intros a Ha. apply repeat_spec in Ha. subst a. exact Rlt_0_1.
    - congruence.
  Qed.
End Pol.

(** A negative threshold: the first call replaces the iterate by an empty matrix. *)
Lemma negative_lambda mx npow nexp (tiny alpha epsilon rate lambda eta obj : R) b n p (x g : list R) :
  (lambda < 0)%R -> (tiny < 1 / 2)%R ->
  exists s, update (N := RNum mx) npow nexp tiny alpha epsilon rate lambda eta obj b n x g (fresh p) = Some ([], true, s).
Proof.
  intros L Ht. unfold update.
  set (rel := relax _ _ _ _). cbn [fresh s_ph s_mu0 s_un s_mn s_rel s_lr s_prev s_sums s_eve]. rewrite !nofnat_INR.
  cbn [nadd nsub nmul ndiv nlt RNum n0 Nat.add INR].
  assert (E : (0 + (rel - (0 * 0 + rel) / 1))%R = 0%R) by (change (T (RNum mx)) with R in *; field).
  rewrite E. unfold Rltb at 2 3. destruct (Rlt_dec 0 0) as [C|_]; [lra|]. rewrite Rminus_0_r. unfold Rltb. destruct (Rlt_dec lambda 0) as [_|C]; [|lra].
  match goal with |- context [existsb ?h ?l] => destruct (existsb h l) eqn:Ex end; [|eauto].
  exfalso. apply existsb_exists in Ex. destruct Ex as (a & Ia & La). apply in_map_iff in Ia. destruct Ia as (u & <- & Iu).
  apply repeat_spec in Iu. subst u. cbn in La. unfold Rleb in La. destruct (Rle_dec _ _); [lra|discriminate].
Qed.

(** ---- termination ---- *)
Section Ends.
  Context {N : Num} {D : Type}.
  Variables (npow : N -> nat -> N) (nexp : N -> N) (tiny alpha epsilon rate : N).
  Variable f : VFun N.
  Variable cb : PCB N.
  Variables (b maxIterations : nat) (tol lambda : N) (shuffle exact : bool).
  Variable decay : D -> list N -> N -> list N -> D * N.
  Hypothesis Hn : 0 < vf_num f.
  Hypothesis Hb : 0 < b.
  Notation n := (vf_num f).
  Lemma pass_more fuel : forall x i acc term tr, n - i <= fuel -> exists r, pass f cb b fuel x i acc term tr = Some r.
  Proof.
    induction fuel as [|fuel IH]; intros x i acc term tr L; cbn [pass]; destruct (Nat.ltb_spec i n); eauto; [lia|].
    apply IH. lia.
  Qed.
  Lemma spalera_ends fuel old eta d x : pmax maxIterations < fuel -> n <= fuel ->
    spalera npow nexp tiny alpha epsilon rate f cb b maxIterations tol lambda shuffle exact decay fuel old eta d x <> More.
  Proof.
    intros L1 L2. unfold spalera.
    destruct (pass_more fuel x 0 n0 false [PBegin x]) as ([[ov tm] tr0] & ->); [lia|].
    destruct (match old with None => _ | Some q => q end) as [pol lam].
    match goal with |- context [loop ?bd fuel ?s0] =>
      destruct (loop_terminates bd (fun s => l_i s < pmax maxIterations -> l_cf s < n) (fun s => pmax maxIterations - l_i s)) with (fuel := fuel) (s := s0) as (e & ->) end.
    - intros s Hs. unfold pbody. destruct ((l_i s <? pmax maxIterations) && negb (l_term s)) eqn:Cnd; cbn [negb]; [|exact I].
      apply andb_prop in Cnd. destruct Cnd as (C1 & _). apply Nat.ltb_lt in C1. specialize (Hs C1).
      destruct (Nat.eqb_spec n 0) as [|_]; [exact I|].
      set (c := Nat.min (Nat.min b (pmax maxIterations - l_i s)) (n - l_cf s)).
      destruct (pc_stop cb _); [exact I|]. destruct update as [[[y [|]] pol']|]; [|exact I|exact I].
      destruct (decay _ _ _ _) as [d' eta'].
      destruct (Nat.eqb_spec ((l_cf s + c) mod n) 0) as [Z|Z]; cbn [negb].
      + destruct (_ || _ || _); [exact I|]. cbn [l_i l_cf]. split; [|unfold c; lia].
        intros Q. destruct (Nat.eqb_spec (l_i s + c) (pmax maxIterations)); cbn [negb]; lia.
      + cbn [l_i l_cf]. split; [|unfold c; lia]. intros _. assert (l_cf s + c <> n) by (intros E; rewrite E, Nat.mod_same in Z; lia). unfold c in *. lia.
    - cbn [l_i l_cf]. auto.
    - cbn [l_i]. lia.
    - destruct e as [s|s|s|]; try discriminate. destruct exact; [|discriminate].
      destruct (pass_more fuel (l_x s) 0 n0 false (l_tr s)) as ([[v tm'] tr'] & ->); [lia|discriminate].
  Qed.
End Ends.

(** ---- examples ---- *)
Section Ex.
  (** Two functions a + (x - i)^2, i = 0, 1; exp and pow are 1. *)
  Definition sqf (a : Q) : VFun QNum := {| vf_num := 2;
     vf_eval := fun _ (x : list QNum) i c => Qred (fold_right Qplus 0%Q (map (fun k => let d := hd 0%Q x - inject_Z (Z.of_nat k) in a + d * d)%Q (seq i c)));
     vf_grad := fun _ (x : list QNum) i c => [Qred (fold_right Qplus 0%Q (map (fun k => 2 * (hd 0%Q x - inject_Z (Z.of_nat k)))%Q (seq i c)))] |}.
  Definition pquiet : PCB QNum := {| pc_stop := fun _ => false; pc_hook := fun _ _ g => g |}.
  Definition sprun (a : Q) (m : nat) (ex : bool) (eta : Q) (x : Q) :=
    spalera (N := QNum) (D := unit) (fun _ _ => 1%Q) (fun _ => 1%Q) (1#1000000) (1#1000) (1#1000000) (1#1000) (sqf a) pquiet 1 m (0%Q : QNum) (1#100) false ex
      (fun d _ e _ => (d, e)) 60 None eta tt [x].
  Ltac run t := let v := eval vm_compute in t in match v with Ret ?r => exists r end; split; [vm_compute; reflexivity|].
  Lemma sp_first : exists r, sprun 1 2 false 0 0 = Ret r /\ pr_val r = (6#1) /\ pr_end r = PLimit /\
    pr_tr r = [@PBegin QNum [0%Q]; @PEval QNum [0%Q] 0 1 1%Q; @PEval QNum [0%Q] 1 1 (2#1); @PBeginEpoch QNum 1 (3#1);
               @PBoth QNum [0%Q] 0 1 1%Q [0%Q] [0%Q]; @PStep QNum [0%Q] 0%Q; @PBoth QNum [0%Q] 1 1 (2#1) [-2#1] [-2#1]; @PStep QNum [0%Q] 0%Q;
               @PEndEpoch QNum 1 (3#1); @PBeginEpoch QNum 2 (6#1); @PEnd QNum [0%Q]].
  Proof. run (sprun 1 2 false 0 0). repeat split. Qed.
  Lemma sp_negative : exists r, sprun (-2#1) 2 false (1#4) 0 = Ret r /\ pr_x r = [] /\ pr_end r = PLimit /\ pr_lam r = (-3#200) /\
    In (@PStep QNum [] (1#4)) (pr_tr r).
  Proof. run (sprun (-2#1) 2 false (1#4) 0). repeat split. cbn. auto 20. Qed.
  Lemma sp_failed : exists r, sprun (-2#1) 40 false (1#4) 0 = Ret r /\ pr_x r = [] /\ pr_end r = PFailed.
  Proof. run (sprun (-2#1) 40 false (1#4) 0). repeat split. Qed.
  (** a run that goes back: a step size of 3 makes the objective grow *)
  Lemma sp_back : exists r, sprun 1 6 true 3 1 = Ret r /\
    flat_map (fun e => match e with PStep x _ => [x] | _ => [] end) (pr_tr r) = [[-5#1]; [1%Q]; [-2#1]; [1%Q]; [-1#2]; [1%Q]] /\
    s_lr (pr_pol r) = [1#8] /\ pr_val r = (3#1) /\ pr_x r = [1%Q].
  Proof. run (sprun 1 6 true 3 1). vm_compute. repeat split. Qed.
End Ex.
