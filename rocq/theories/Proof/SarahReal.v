(** SARAH and Katyusha over the real numbers, and examples. *)
From Coq Require Import List Arith Bool Lia Reals Lra ZArith QArith.
From Verif.Base Require Import Num Vec Size Loop Instances QInst.
From Verif.Model Require Import Common VarRed SVRG Sarah Katyusha.
From Verif.Spec Require Import SgdSpec VarRedSpec VarRedReal SarahSpec LpSpec.
From Verif.Proof Require Import VarRedProof SVRGProof ProximalProof SVRGReal.
Import ListNotations.
Local Open Scope nat_scope.

Ltac asR := match goal with |- @eq _ ?a ?b => change (@eq R a b) end.
Section R.
  Variable mx : R.
  Notation N := (RNum mx).
  Notation at_ j v := (nth j v 0%R).
  Variable p : nat.
  Variable G : list N -> nat -> nat -> list N.
  Variables n b : nat.
  Hypothesis HG : additive mx p n G.
  Hypothesis Hn : 0 < n.
  Notation avg := (avg mx n G).

  Lemma nth_sarah_v v g h c j : length v = p -> length g = p -> length h = p -> j < p ->
    at_ j (sarah_v (N := N) v g h c) = (at_ j v + (at_ j g - at_ j h) / INR c)%R.
  Proof.
    intros Lv Lg Lh Hj. unfold sarah_v. fold (over_n (N := N) c (vsub g h)).
    pose proof (len_vsub mx p _ _ Lg Lh) as Ls.
    rewrite (nth_vadd mx p); [|exact Lv|unfold over_n; rewrite map_length; exact Ls|exact Hj].
    rewrite (nth_over mx p), (nth_vsub mx p) by assumption. reflexivity.
  Qed.

  Lemma sarah_mean (v x y : list N) l j : length v = p -> split_of n b l -> j < p ->
    sumR (map (fun q => INR (snd q) / INR n * at_ j (sarah_v (N := N) v (G x (fst q) (snd q)) (G y (fst q) (snd q)) (snd q)))%R l)
    = (at_ j v + avg x j - avg y j)%R.
  Proof.
    intros Lv S Hj. pose proof (split_in n b Hn _ S) as B.
    assert (Pn : (0 < INR n)%R) by (apply lt_0_INR; exact Hn).
    rewrite (sumR_ext _ (fun q => (at_ j v / INR n) * INR (snd q) +
                                  (/ INR n) * (at_ j (G x (fst q) (snd q)) - at_ j (G y (fst q) (snd q))))%R).
    - rewrite sumR_lin, sumR_scale, (split_len n b) by exact S.
      rewrite (sumR_ext (fun a => (at_ j (G x (fst a) (snd a)) - at_ j (G y (fst a) (snd a)))%R)
                        (fun a => (at_ j (G x (fst a) (snd a)) + (-1) * at_ j (G y (fst a) (snd a)))%R)) by (intros; lra).
      rewrite sumR_lin, !(pass_sum mx p G n b HG Hn) by assumption. unfold VarRedReal.avg. field. lra.
    - intros q Hq. destruct (B q Hq) as (B1 & B2).
      destruct (HG x (fst q) (snd q)) as (Lg & _); [lia|lia|]. destruct (HG y (fst q) (snd q)) as (Lh & _); [lia|lia|].
      rewrite nth_sarah_v by assumption.
      assert (0 < INR (snd q))%R by (apply lt_0_INR; lia). field. lra.
  Qed.

  Lemma kat_mean (z full x x0 : list N) (cv L : N) l j : 0 < b -> length z = p -> length full = p -> split_of n b l ->
    Forall (fun q => snd q = b) l -> j < p -> at_ j full = avg x0 j ->
    sumR (map (fun q => INR (snd q) / INR n * at_ j (kat_z (N := N) cv L b z full (G x (fst q) (snd q)) (G x0 (fst q) (snd q))))%R l)
    = (at_ j z - alpha (N := N) cv L b * avg x j)%R.
  Proof.
    intros Hb Lz Lf S Fb Hj Hf. pose proof (split_in n b Hn _ S) as B.
    assert (Pn : (0 < INR n)%R) by (apply lt_0_INR; exact Hn).
    set (eta := alpha (N := N) cv L b).
    rewrite (sumR_ext _ (fun q => (at_ j z / INR n - eta / INR n * at_ j full) * INR (snd q) +
                                  (- (eta / INR n)) * (at_ j (G x (fst q) (snd q)) - at_ j (G x0 (fst q) (snd q))))%R).
    - rewrite sumR_lin, sumR_scale, (split_len n b) by exact S.
      rewrite (sumR_ext (fun a => (at_ j (G x (fst a) (snd a)) - at_ j (G x0 (fst a) (snd a)))%R)
                        (fun a => (at_ j (G x (fst a) (snd a)) + (-1) * at_ j (G x0 (fst a) (snd a)))%R)) by (intros; lra).
      rewrite sumR_lin, !(pass_sum mx p G n b HG Hn) by assumption. rewrite Hf. unfold VarRedReal.avg. field. lra.
    - intros q Hq. destruct (B q Hq) as (B1 & B2).
      destruct (HG x (fst q) (snd q)) as (Lg & _); [lia|lia|]. destruct (HG x0 (fst q) (snd q)) as (Lh & _); [lia|lia|].
      unfold kat_z. fold (over_n (N := N) b (vsub (G x (fst q) (snd q)) (G x0 (fst q) (snd q)))).
      pose proof (len_vsub mx p _ _ Lg Lh) as Ls.
      assert (Lo : length (over_n (N := N) b (vsub (G x (fst q) (snd q)) (G x0 (fst q) (snd q)))) = p) by (unfold over_n; rewrite map_length; exact Ls).
      pose proof (len_vadd mx p _ _ Lf Lo) as La.
      rewrite (nth_vsub mx p); [|exact Lz|unfold vscale; rewrite map_length; exact La|exact Hj].
      rewrite (nth_vscale mx p), (nth_vadd mx p), (nth_over mx p), (nth_vsub mx p) by assumption.
      rewrite Forall_forall in Fb. rewrite (Fb q Hq). fold eta.
      assert (0 < INR b)%R by (apply lt_0_INR; lia). field. lra.
  Qed.

  (** ---- rounds with one batch of all the functions ---- *)
  Variable eta : N.
  Variable early : list N -> N -> bool.
  Variable vn : N.
  Lemma avg_full x j : j < p -> avg x j = (at_ j (G x 0 n) / INR n)%R.
  Proof. intros Hj. unfold VarRedReal.avg. f_equal. symmetry. apply HG; [exact Hn|lia|exact Hj]. Qed.
  Lemma len_step v g h c : length v = p -> length g = p -> length h = p -> length (vadd (N := N) v (over_n c (vsub g h))) = p.
  Proof. intros. apply len_vadd; [assumption|]. unfold over_n. rewrite map_length. apply len_vsub; assumption. Qed.

  Lemma drift_some l : forall q x v, sarah_steps eta early vn (Some q) x v l -> batch_grads G n (Some q) l -> length v = p ->
    forall l' s j, l = l' ++ [s] -> j < p -> at_ j (m_v s) = (at_ j v + avg (t_x (m_t s)) j - avg q j)%R.
  Proof.
    induction l as [|a l IH]; intros q x v H B Lv l' s j E Hj; [destruct l'; discriminate|].
    cbn [sarah_steps batch_grads] in *. destruct H as (A1 & _ & A3 & A4 & _ & _ & A7). destruct B as (B1 & B2 & B3 & B4 & B5). rewrite A1 in B5.
    assert (Pn : (0 < INR n)%R) by (apply lt_0_INR; exact Hn).
    assert (Lg : forall y, length (G y 0 n) = p) by (intros y; apply HG; lia).
    assert (La : length (m_v a) = p) by (rewrite A3, B3, B4, B1, B2; apply len_step; auto).
    assert (Va : at_ j (m_v a) = (at_ j v + avg (t_x (m_t a)) j - avg q j)%R).
    { rewrite A3, B3, B4, B1, B2. refine (eq_trans (nth_sarah_v v _ _ n j Lv (Lg _) (Lg _) Hj) _).
      rewrite !avg_full by exact Hj. asR; field; lra. }
    destruct l as [|a' l].
    - destruct l' as [|c l']; [|destruct l'; discriminate]. injection E as ->. exact Va.
    - destruct l' as [|c l']; [discriminate|]. injection E as -> E.
      rewrite (IH _ _ _ A7 B5 La l' s j E Hj), Va, A1. asR; lra.
  Qed.
  Lemma drift l x v l' s j : sarah_steps eta early vn None x v l -> batch_grads G n None l -> length v = p ->
    l = l' ++ [s] -> j < p -> at_ j (m_v s) = (at_ j v + avg (t_x (m_t s)) j - avg x j)%R.
  Proof.
    destruct l as [|a l]; intros H B Lv E Hj; [destruct l'; discriminate|].
    cbn [sarah_steps batch_grads] in *. destruct H as (A1 & A2 & A3 & A4 & _ & _ & A7). destruct B as (B1 & B2 & B3 & B4 & B5). rewrite A1 in B5.
    assert (Pn : (0 < INR n)%R) by (apply lt_0_INR; exact Hn).
    assert (Lg : forall y, length (G y 0 n) = p) by (intros y; apply HG; lia).
    specialize (A2 eq_refl).
    assert (La : length (m_v a) = p) by (rewrite A3, A2, B3, B1, B2; apply len_step; auto).
    assert (Va : at_ j (m_v a) = at_ j v).
    { rewrite A3, A2, B3, B1, B2. refine (eq_trans (nth_sarah_v v _ _ n j Lv (Lg _) (Lg _) Hj) _). asR; field; lra. }
    destruct l as [|a' l].
    - destruct l' as [|c l']; [|destruct l'; discriminate]. injection E as ->. rewrite Va, A1. asR; lra.
    - destruct l' as [|c l']; [discriminate|]. injection E as -> E.
      rewrite (drift_some _ _ _ _ A7 B5 La l' s j E Hj), Va. asR; lra.
  Qed.
End R.

(** ---- Katyusha's constants ---- *)
Section K.
  Variable mx : R.
  Notation N := (RNum mx).
  Local Open Scope R_scope.
  Lemma stdmin_R (a c : R) : stdmin (N := N) a c = Rmin a c.
  Proof.
    unfold stdmin. cbn. destruct (Rltb_spec c a) as [H|H].
    - rewrite Rmin_right; lra.
    - unfold Rmin. destruct (Rle_dec a c); lra.
  Qed.
  Lemma tau1_bounds (cv L : R) b : (0 < b)%nat -> 0 < cv -> 0 < L -> 0 < tau1 (N := N) cv L b <= / 2.
  Proof.
    intros Hb Hc HL. unfold tau1. rewrite stdmin_R, nofnat_INR. cbn.
    assert (0 < INR b) by (apply lt_0_INR; exact Hb).
    assert (0 < sqrt (INR b * cv / (3 * L))).
    { apply sqrt_lt_R0. apply Rdiv_lt_0_compat; [apply Rmult_lt_0_compat; lra|lra]. }
    unfold Rmin. destruct (Rle_dec _ _); lra.
  Qed.
  Lemma tau2_half : tau2 (N := N) = / 2.
  Proof. unfold tau2. cbn. lra. Qed.
  Lemma alpha_pos (cv L : R) b : (0 < b)%nat -> 0 < cv -> 0 < L -> 0 < alpha (N := N) cv L b.
  Proof.
    intros Hb Hc HL. pose proof (tau1_bounds cv L b Hb Hc HL) as (B & _). unfold alpha. cbn -[tau1].
    apply Rdiv_lt_0_compat; [lra|]. apply Rmult_lt_0_compat; [|exact HL]. apply Rmult_lt_0_compat; [lra|exact B].
  Qed.
  Lemma kr_gt1 (cv L : R) b m : (0 < b)%nat -> (0 < m)%nat -> 0 < cv -> 0 < L -> 1 < kr (N := N) cv L b m.
  Proof.
    intros Hb Hm Hc HL. pose proof (alpha_pos cv L b Hb Hc HL) as A. unfold kr. rewrite stdmin_R, nofnat_INR. cbn -[alpha].
    assert (0 < INR m) by (apply lt_0_INR; exact Hm).
    assert (0 < alpha (N := N) cv L b * cv) by (apply Rmult_lt_0_compat; assumption).
    assert (0 < 1 / (4 / INR m)) by (apply Rdiv_lt_0_compat; [lra|apply Rdiv_lt_0_compat; lra]).
    unfold Rmin. destruct (Rle_dec _ _); lra.
  Qed.

  (** the weights 1, r, r^2, ... of m points *)
  Lemma geo_S (r : R) m : sumR (map (fun k => (r ^ k)%R) (seq 0 (S m))) = 1 + r * sumR (map (fun k => (r ^ k)%R) (seq 0 m)).
  Proof.
    cbn [seq map sumR pow]. f_equal. rewrite <- seq_shift, map_map. rewrite <- sumR_scale. apply sumR_ext. reflexivity.
  Qed.
  Lemma knorm_S (r a : R) m : knorm (N := N) r (S m) a = r * (knorm (N := N) r m a + 1).
  Proof. revert a. induction m as [|m IH]; intros a; [reflexivity|]. cbn [knorm] in *. apply (IH (r * (a + 1))). Qed.
  Lemma knorm_above (r : R) m : 1 <= r -> 1 + sumR (map (fun k => (r ^ k)%R) (seq 0 m)) <= knorm (N := N) r m 1.
  Proof.
    intros Hr. induction m as [|m IH]; [cbn; lra|]. rewrite geo_S, knorm_S.
    set (s := sumR _) in *. set (k := knorm _ _ _) in *. assert (s <= k - 1) by lra.
    assert (r * s <= r * (k - 1)) by (apply Rmult_le_compat_l; lra). lra.
  Qed.
  Lemma knorm_pos (r : R) m : 1 <= r -> 0 < knorm (N := N) r m 1.
  Proof. intros Hr. induction m as [|m IH]; [cbn; lra|]. rewrite knorm_S. apply Rmult_lt_0_compat; lra. Qed.
  Lemma shrink (r : R) m : 1 <= r -> ndiv (n := N) n1 (knorm (N := N) r m 1) * sumR (map (fun k => (r ^ k)%R) (seq 0 m)) < 1.
  Proof.
    intros Hr. pose proof (knorm_above r m Hr) as A. pose proof (knorm_pos r m Hr) as P. cbn -[knorm].
    apply (Rmult_lt_reg_l (knorm (N := N) r m 1)); [exact P|]. field_simplify; lra.
  Qed.
End K.

(** ---- examples ---- *)
Section Ex.
  Local Open Scope nat_scope.
  Definition srun (early : list ZNum -> ZNum -> bool) (b m inner : nat) :=
    sarah zfun zquiet b m (0%Z : ZNum) true false (1%Z : ZNum) (fun v => Z.abs (hd 0%Z v)) early 30 inner [1%Z].
  Definition splus : list ZNum -> ZNum -> bool := sarah_plus_early (N := ZNum) (fun v => Z.abs (hd 0%Z v)) 5%Z.
  (** three functions (x - 1)^2 *)
  Definition qfun (n : nat) : VFun QNum := {| vf_num := n;
     vf_eval := fun _ (x : list QNum) _ c => Qred (inject_Z (Z.of_nat c) * (hd 0 x - 1) * (hd 0 x - 1))%Q;
     vf_grad := fun _ (x : list QNum) _ c => [Qred (inject_Z (Z.of_nat c) * 2 * (hd 0 x - 1))%Q] |}.
  Definition qquiet : VCB QNum := {| vc_stop := fun _ => false; vc_hook := fun _ _ g => g |}.
  Definition krun (n b m inner : nat) (x : Q) :=
    katyusha (N := QNum) (qfun n) qquiet false 3%Q 1%Q b m (0%Q : QNum) true false 30 inner [x].

  Ltac run t := let v := eval vm_compute in t in match v with Ret ?r => exists r end; split; [vm_compute; reflexivity|].
  Lemma s_plain : exists r, srun sarah_early 3 1 9 = Ret r /\ vsteps (vr_tr r) = [[-11]; [19]; [-131]]%Z /\ vr_x r = [-131]%Z /\
    In (VGrad [-5]%Z 0 3 [-90]%Z [-90]%Z) (vr_tr r) /\ vr_val r = 9%Z /\ vr_st r = 9.
  Proof. run (srun sarah_early 3 1 9). cbn. repeat split; auto 10. Qed.
  Lemma s_plus : exists r, srun splus 3 1 9 = Ret r /\ vsteps (vr_tr r) = [] /\ vr_x r = [-11]%Z.
  Proof. run (srun splus 3 1 9). repeat split. Qed.
  Lemma s_diverges {N : Num} (f : VFun N) cb m tol sh ex eta norm early fuel inner x : 0 < vf_num f ->
    sarah f cb 0 m tol sh ex eta norm early fuel inner x = More.
  Proof.
    intros Hn. unfold sarah. destruct fuel as [|fuel]; [reflexivity|]. cbn [loop].
    assert (E : forall k x a t tr, eval_pass f cb 0 k x 0 a t tr = None).
    { induction k as [|k IH]; intros; cbn [eval_pass]; destruct (Nat.ltb_spec 0 (vf_num f)); try lia; auto. }
    unfold abody at 1. cbn [a_i a_term a_x a_tr]. rewrite E.
    assert (P : 0 < smax m) by (unfold smax; destruct m; [apply size_max_pos|lia]).
    apply Nat.ltb_lt in P. rewrite P. reflexivity.
  Qed.
  (** three functions (x - 1)^2 and one; the first starts at the minimum *)
  Lemma k_min : exists r, krun 1 1 3 0 1%Q = Ret r /\ vsteps (vr_tr r) = [[1%Q]; [7 # 10]; [11 # 25]] /\ vr_x r = [11 # 25] /\ vr_val r = (324 # 625).
  Proof. run (krun 1 1 3 0 1%Q). repeat split. Qed.
  Lemma k_mixed : exists r, krun 2 1 2 0 0%Q = Ret r /\ exists h t : list (vev QNum), vr_tr r = h ++
    [VGrad (N := QNum) [2 # 3] 0 1 [-2 # 3] [-2 # 3]; VGrad (N := QNum) [1 # 6] 1 1 [-5 # 3] [-5 # 3]; VShuffle] ++ t.
  Proof.
    run (krun 2 1 2 0 0%Q). cbn [vr_tr].
    match goal with |- exists h t, ?l = _ => let h := eval cbn in (firstn 14 l) in let t := eval cbn in (skipn 17 l) in exists h, t end. reflexivity.
  Qed.
  Lemma k_value : exists r, krun 2 1 2 0 0%Q = Ret r /\ vr_conv r = false /\ vr_x r = [89 # 108] /\ vr_val r = (25 # 18).
  Proof. run (krun 2 1 2 0 0%Q). repeat split. Qed.
End Ex.
