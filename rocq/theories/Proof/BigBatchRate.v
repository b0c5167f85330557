(** Big-batch SGD with BacktrackingLineSearch when every batch is the whole objective. *)
From Coq Require Import List Arith Bool Reals Lra Lia ZArith.
From Verif.Base Require Import Num Vec Size Instances.
From Verif.Model Require Import Common VarRed BigBatch.
From Verif.Spec Require Import SgdSpec VarRedSpec BigBatchSpec Gradient FWSpec BigBatchRateSpec ConvergeSpec.
From Verif.Proof Require Import BigBatchProof SmoothProof WnConverge.
Import ListNotations.
Local Open Scope R_scope.

Section Rate.
  Variable mx : R.
  Notation RN := (RNum mx).
  Variables (p n lim : nat) (L low sp eta0 : R) (F : list R -> R) (grad : list R -> list R) (gi : nat -> list R -> list R).
  Hypothesis SM : smooth_on (space p) L F grad.
  Hypothesis HL : 0 < L.
  Hypothesis LOW : forall x, length x = p -> low <= F x.
  Hypothesis HS : 0 < sp < 1.
  Hypothesis HE : 0 < eta0.
  Hypothesis HN : (0 < n)%nat.
  Hypothesis LM : exists q, lim = (q * n)%nat.
  Hypothesis GS : forall x, length x = p -> fold_left (fun s i => vadd (N := RN) s (gi i x)) (seq 1 (n - 1)) (gi 0%nat x) = grad x.
  Let m := least_step eta0 sp L.
  Lemma m_pos : 0 < m.
  Proof. unfold m, least_step. apply Rmin_pos; [exact HE|]. apply Rdiv_lt_0_compat; lra. Qed.
  Definition norm_ (g : list R) : R := sqrt (sqn g).

  (** ** The sums *)
  Lemma total_grad x (l : list (nat * (list R * list R))) : length x = p -> map fst l = seq 0 n ->
    (forall q, In q l -> snd (snd q) = gi (fst q) x) ->
    vtotal (N := RN) (map (fun q => snd (snd q)) l) = grad x.
  Proof.
    intros Lx E H. rewrite <- (GS x Lx). destruct n as [|k]; [lia|]. cbn [seq] in E. destruct l as [|q l]; [discriminate|].
    cbn [map fst] in E. injection E as E0 E1. cbn [map vtotal]. rewrite (H q (or_introl eq_refl)), E0.
    replace (S k - 1)%nat with k by lia. rewrite <- E1.
    assert (G : forall l (a : list R), (forall q, In q l -> snd (snd q) = gi (fst q) x) ->
      fold_left (vadd (N := RN)) (map (fun q : nat * (list R * list R) => snd (snd q)) l) a = fold_left (fun s i => vadd (N := RN) s (gi i x)) (map fst l) a).
    { clear. induction l as [|q l IH]; intros a H; [reflexivity|]. cbn [map fold_left]. rewrite (H q (or_introl eq_refl)). apply IH. intros; apply H; now right. }
    apply G. intros q' Hq. apply H. now right.
  Qed.
  Lemma n_ge : 1 <= INR n. Proof. apply (le_INR 1). lia. Qed.
  Lemma over_sq (g : list R) : sqn (over_n (N := RN) n g) = sqn g / (INR n * INR n).
  Proof.
    pose proof n_ge as N1. unfold sqn, over_n. assert (E : nofnat (N := RN) n = INR n) by (unfold nofnat; cbn; symmetry; apply INR_IZR_INZ).
    rewrite E. induction g as [|a g IH]; cbn [map dotR]; [unfold Rdiv; ring|]. cbn [ndiv RNum] in *. rewrite IH. field. lra.
  Qed.
  Lemma mean_sq_value (g : list R) : mean_sq (N := RN) norm_ n g = sqn g / (INR n * INR n).
  Proof. etransitivity; [exact (sqrt_sqrt _ (sqn_nonneg (over_n (N := RN) n g)))|apply over_sq]. Qed.
  Lemma mean_le (g : list R) : sqn g / (INR n * INR n) <= sqn g.
  Proof.
    pose proof n_ge as N1. pose proof (sqn_nonneg g) as S0. assert (N2 : 1 <= INR n * INR n) by nra.
    apply (Rmult_le_reg_r (INR n * INR n)); [lra|]. unfold Rdiv. rewrite Rmult_assoc, Rinv_l by lra.
    apply Rmult_le_compat_l; lra.
  Qed.

  (** ** One search *)
  Definition half (e : R) : R := e / 2.
  Lemma iter_half k : forall e, 0 < e -> 0 < Nat.iter k half e <= e.
  Proof. induction k as [|k IH]; intros e He; [change (Nat.iter 0 half e) with e; lra|]. specialize (IH e He). change (Nat.iter (S k) half e) with (Nat.iter k half e / 2). lra. Qed.
  (** steps up to 2 (1 - sp) / L pass the test *)
  Lemma passes_test e x : length x = p -> 0 < e -> e * L <= 2 * (1 - sp) ->
    F (go mx grad e x) <= F x - sp * e * (sqn (grad x) / (INR n * INR n)).
  Proof.
    intros Lx He H. pose proof (go_value mx p L F grad SM HL e x Lx) as V. set (s := sqn (grad x)) in *.
    pose proof (sqn_nonneg (grad x)) as S0. fold s in S0. pose proof (mean_le (grad x)) as ML. fold s in ML.
    assert (A : sp * e * (s / (INR n * INR n)) <= sp * e * s) by (apply Rmult_le_compat_l; [apply Rmult_le_pos; lra|exact ML]).
    assert (ES : 0 <= e * s) by (apply Rmult_le_pos; lra).
    assert (B : L / 2 * (e * e * s) <= (1 - sp) * (e * s)).
    { replace (L / 2 * (e * e * s)) with ((e * L / 2) * (e * s)) by field. apply Rmult_le_compat_r; lra. }
    lra.
  Qed.
  Lemma accepted k e x : length x = p -> m <= e -> 0 < e ->
    (forall j, (j < k)%nat -> let d := Nat.iter j half e in F x - sp * d * (sqn (grad x) / (INR n * INR n)) < F (go mx grad d x)) ->
    m <= Nat.iter k half e <= e.
  Proof.
    intros Lx Me He H. destruct (iter_half k e He) as [I1 I2]. split; [|exact I2]. destruct k as [|k]; [exact Me|].
    specialize (H k (Nat.lt_succ_diag_r k)). cbv zeta in H. change (Nat.iter (S k) half e) with (half (Nat.iter k half e)). set (d := Nat.iter k half e) in *.
    assert (D0 : 0 < d) by apply (iter_half k e He).
    destruct (Rle_dec (d * L) (2 * (1 - sp))) as [C|C]; [pose proof (passes_test d x Lx D0 C); lra|].
    apply Rle_trans with ((1 - sp) / L); [apply Rmin_r|]. unfold half.
    apply (Rmult_le_reg_r L); [exact HL|]. unfold Rdiv at 1. rewrite Rmult_assoc, Rinv_l by lra. lra.
  Qed.

  (** ** Steps *)
  Notation RB := (Backtrack (N := RN) sp).
  Definition good (e : bev RN) : Prop :=
    match e with
    | BEvalQ y i c v => i = 0%nat -> c = n -> length y = p -> v = F y
    | BGrad y i g g' => g' = gi i y
    | _ => True
    end.
  Record inv (s : bpos (N := RN)) : Prop := {
    i_len : length (p_x s : list R) = p; i_bs : (n <= p_bs s)%nat; i_mul : exists q, p_i s = (q * n)%nat;
    i_at : p_f s = 0%nat \/ p_i s = lim; i_eta : m <= (p_eta s : R) <= eta0 }.
  Lemma step_fact s t s' : inv s -> step_ok (N := RN) n lim norm_ RB s t s' ->
    (forall e, In e (move_events (N := RN) n lim s t s') -> good e) ->
    inv s' /\ F (p_x s') <= F (p_x s) - sp * m / (INR n * INR n) * sqn (grad (p_x s)) /\
    stepped mx (move_events (N := RN) n lim s t s') = [p_x s'].
  Proof.
    intros [I1 I2 I3 I4 I5] (S1 & S2 & S3 & (B1 & B2 & B3) & (P1 & P2) & S5 & S6 & S7 & S8 & _) G.
    destruct I4 as [I4|I4]; [|lia]. destruct LM as [ql EL]. destruct I3 as [q EQ].
    assert (D : (n <= lim - p_i s)%nat).
    { rewrite EL, EQ in *. assert (q < ql)%nat by (apply (Nat.mul_lt_mono_pos_r n); lia). rewrite <- Nat.mul_sub_distr_r.
      assert (1 * n <= (ql - q) * n)%nat by (apply Nat.mul_le_mono_r; lia). lia. }
    assert (FB : first_batch n lim s = n) by (unfold first_batch; rewrite I4; lia).
    assert (GR : u_grow t = []).
    { destruct (u_grow t) as [|o l] eqn:EG; [reflexivity|]. destruct B2 as [_ B2]; [discriminate|]. lia. }
    assert (UC : u_c n lim s t = n) by (unfold u_c; rewrite GR, FB; cbn; lia).
    unfold move_events in G. rewrite GR in *. rewrite UC, I4, FB in *. cbn [grown] in B3. rewrite app_nil_r in B3.
    destruct P2 as (U1 & U2 & _ & (k & v0 & K1 & K2 & (v1 & K3 & K4) & K5)).
    set (x := p_x s : list R) in *.
    assert (US : u_sum (N := RN) t = grad x).
    { apply total_grad; [exact I1|exact B3|]. intros w Hw.
      assert (In (BGrad (N := RN) x (fst w) (fst (snd w)) (snd (snd w))) (grad_events (N := RN) x (u_g t))).
      { unfold grad_events. apply in_map_iff. exists w. split; [reflexivity|exact Hw]. }
      apply (G (BGrad (N := RN) x (fst w) (fst (snd w)) (snd (snd w)))). apply in_or_app. now left. }
    assert (PG : forall e, In e (u_pol t) -> good e) by (intros e He; apply G; apply in_or_app; right; apply in_or_app; now left).
    rewrite US in *. rewrite mean_sq_value in *.
    assert (V0 : v0 = F x) by (apply (PG _ K2); auto).
    assert (GE : forall d : R, vsub (N := RN) x (vscale (N := RN) d (grad x)) = go mx grad d x) by reflexivity.
    assert (GL : forall d : R, length (go mx grad d x) = p) by (intros d; exact (go_length mx p L F grad SM d x I1)).
    assert (M0 := m_pos).
    assert (E1 : p_eta s' = Nat.iter k half (p_eta s)) by exact K1.
    assert (V1 : v1 = F (go mx grad (p_eta s') x)) by (apply (PG _ K3); auto; apply GL).
    assert (AC : m <= (p_eta s' : R) <= (p_eta s : R)).
    { rewrite E1. apply (accepted k (p_eta s) x I1); [apply I5|lra|]. intros j Hj d.
      destruct (K5 j Hj) as (w & W1 & W2). change (Nat.iter j (fun e => ndiv (n := RN) e (nofZ (n := RN) 2)) (p_eta s)) with (Nat.iter j half (p_eta s)) in W1, W2.
      fold d in W1, W2. assert (WE : w = F (go mx grad d x)) by (apply (PG _ W1); auto; apply GL).
      rewrite V0, WE in W2. cbn [nlt nsub nmul RNum] in W2. destruct (Rltb_spec (F x - sp * d * (sqn (grad x) / (INR n * INR n))) (F (go mx grad d x))) as [Q|Q]; [exact Q|discriminate]. }
    assert (XN : p_x s' = go mx grad (p_eta s') x) by (rewrite S8; unfold u_to; rewrite U1, U2; reflexivity).
    assert (FALL : F (go mx grad (p_eta s') x) <= F x - sp * p_eta s' * (sqn (grad x) / (INR n * INR n))).
    { rewrite V0, V1 in K4. cbn [nlt nsub nmul RNum] in K4.
      destruct (Rltb_spec (F x - sp * p_eta s' * (sqn (grad x) / (INR n * INR n))) (F (go mx grad (p_eta s') x))) as [Q|Q]; [discriminate|lra]. }
    split; [constructor|split].
    - rewrite XN. apply GL.
    - rewrite S7. lia.
    - exists (S q). rewrite S5, EQ. lia.
    - rewrite S6, S5. unfold more, ends. rewrite UC, I4, Nat.add_0_l, Nat.eqb_refl. cbn [andb].
      destruct (Nat.eqb_spec (p_i s + n) lim) as [Q|Q]; cbn [negb]; auto.
    - lra.
    - rewrite XN. eapply Rle_trans; [exact FALL|]. fold x.
      assert (0 <= sqn (grad x) / (INR n * INR n)).
      { pose proof n_ge. apply Rmult_le_pos; [apply sqn_nonneg|]. apply Rlt_le, Rinv_0_lt_compat. nra. }
      assert (sp * m * (sqn (grad x) / (INR n * INR n)) <= sp * p_eta s' * (sqn (grad x) / (INR n * INR n))).
      { apply Rmult_le_compat_r; [assumption|]. apply Rmult_le_compat_l; lra. }
      replace (sp * m / (INR n * INR n) * sqn (grad x)) with (sp * m * (sqn (grad x) / (INR n * INR n))) by (field; pose proof n_ge; lra). lra.
    - unfold move_events.
      assert (Q1 : forall (y : list R) l r, stepped mx (grad_events (N := RN) y l ++ r) = stepped mx r) by (intros y l r; induction l as [|w l IH]; [reflexivity|exact IH]).
      assert (Q2 : forall l r, Forall (on_batch (N := RN) 0 n) l -> stepped mx (l ++ r) = stepped mx r).
      { intros l r Fl. induction Fl as [|e l He Fl IH]; [reflexivity|]. destruct e; cbn in *; try contradiction; exact IH. }
      rewrite Q1, Q2 by exact P1. reflexivity.
  Qed.

  (** ** Runs *)
  Lemma stepped_app a b : stepped mx (a ++ b) = stepped mx a ++ stepped mx b.
  Proof. induction a as [|e a IH]; [reflexivity|]. destruct e; cbn; rewrite ?IH; reflexivity. Qed.
  Variables (shuffle : bool) (tol : R).
  (** the points before each step, and the fall of the objective *)
  Definition paid_for (x : list R) (l : list (list R)) (z : list R) : Prop :=
    last l x = z /\ sp * m / (INR n * INR n) * sumR (map (fun y => sqn (grad y)) (removelast (x :: l))) <= F x - F z.
  Lemma paid_snoc x l z z' : paid_for x l z -> F z' <= F z - sp * m / (INR n * INR n) * sqn (grad z) -> paid_for x (l ++ [z']) z'.
  Proof.
    intros [E P] H. split; [apply last_last|]. rewrite app_comm_cons, removelast_last.
    assert (Q : forall l (x : list R), sumR (map (fun y => sqn (grad y)) (x :: l)) = sumR (map (fun y => sqn (grad y)) (removelast (x :: l))) + sqn (grad (last l x))).
    { clear. induction l as [|y l IH]; intros x; [cbn; lra|]. specialize (IH y).
      change (removelast (x :: y :: l)) with (x :: removelast (y :: l)).
      replace (last (y :: l) x) with (last l y) by (destruct l as [|w l]; [reflexivity|]; clear IH; revert w; induction l as [|u l IH2]; intros w; [reflexivity|]; cbn in *; apply IH2).
      cbn [map sumR] in *. lra. }
    rewrite Q, E. rewrite Rmult_plus_distr_l. lra.
  Qed.
  Lemma run_fact l : forall x0 pre s s', inv s -> paid_for x0 pre (p_x s) -> brun (N := RN) n lim tol norm_ RB s l s' ->
    (forall e, In e (brun_events (N := RN) n lim shuffle s l) -> good e) ->
    inv s' /\ paid_for x0 (pre ++ stepped mx (brun_events (N := RN) n lim shuffle s l)) (p_x s').
  Proof.
    induction l as [|[t mid] l IH]; intros x0 pre s s' I P B G.
    - cbn in *. subst s'. rewrite app_nil_r. auto.
    - destruct B as (ST & _ & B). cbn [brun_events] in *.
      destruct (step_fact s t mid I ST) as (I' & FA & SP); [intros e He; apply G; apply in_or_app; now left|].
      pose proof (paid_snoc _ _ _ _ P FA) as P'.
      destruct (IH x0 (pre ++ [p_x mid : list R]) mid s' I' P' B) as (I2 & P2).
      { intros e He. apply G. apply in_or_app; right; apply in_or_app; now right. }
      split; [exact I2|]. rewrite !stepped_app, SP.
      assert (EE : stepped mx (epoch_events (N := RN) n lim shuffle s t) = []).
      { unfold epoch_events. destruct ends; [|reflexivity]. destruct shuffle; reflexivity. }
      rewrite EE. cbn [app]. rewrite <- app_assoc in P2. exact P2.
  Qed.
End Rate.

Lemma stepped_grads mx (y : list R) l : stepped mx (grad_events (N := RNum mx) y l) = [].
Proof. induction l as [|w l IH]; [reflexivity|exact IH]. Qed.
Lemma stepped_evals mx (y : list R) (l : list (nat * nat * R)) :
  stepped mx (map (fun q => BEval (N := RNum mx) y (fst (fst q)) (snd (fst q)) (snd q)) l) = [].
Proof. induction l as [|w l IH]; [reflexivity|exact IH]. Qed.
Lemma removelast_length {A} (x : A) l : length (removelast (x :: l)) = length l.
Proof. revert x. induction l as [|y l IH]; intros x; [reflexivity|]. change (removelast (x :: y :: l)) with (x :: removelast (y :: l)). cbn [length]. now rewrite IH. Qed.

Theorem bb_rate mx p (f : VFun (RNum mx)) (L low sp eta : R) F grad gi cb maxIterations (tol : R) shuffle exact offset fuel b prev (x0 : list R) r :
  smooth_on (space p) L F grad -> 0 < L -> (forall x, length x = p -> low <= F x) -> whole_sum mx p f F grad gi ->
  0 < sp < 1 -> 0 < eta -> (0 < vf_num f <= b)%nat -> (limit maxIterations mod vf_num f = 0)%nat -> length x0 = p ->
  (forall h x g, bc_hook cb h x g = g) ->
  bigbatch (N := RNum mx) f cb (Backtrack (N := RNum mx) sp) maxIterations tol shuffle exact (fun g => sqrt (sqn g)) offset fuel b eta prev x0 = Ret r ->
  let m := least_step eta sp L in
  let steps := stepped mx (br_tr r) in
  let points := removelast (x0 :: steps) in
  m <= (br_eta r : R) <= eta /\ br_x r = last steps x0 /\ F (br_x r) <= F x0 /\
  sp * m / (INR (vf_num f) * INR (vf_num f)) * sumR (map (fun y => sqn (grad y)) points) <= F x0 - low /\
  (steps <> [] -> exists y, In y points /\ sp * m / (INR (vf_num f) * INR (vf_num f)) * (INR (length steps) * sqn (grad y)) <= F x0 - low).
Proof.
  intros SM HL LOW (WE & WG & WS) HS HE [HN HB] HM Lx HK H m steps points.
  set (n := vf_num f) in *.
  destruct (bigbatch_ok (N := RNum mx) f cb (Backtrack (N := RNum mx) sp) maxIterations tol shuffle exact (fun g => sqrt (sqn g)) offset HN b eta prev x0 ltac:(lia) fuel r H) as (s' & RP & EX & _ & EE & _ & _ & CP & _).
  fold n in RP.
  assert (LMq : exists q, limit maxIterations = (q * n)%nat).
  { exists (limit maxIterations / n)%nat. rewrite Nat.mul_comm. pose proof (Nat.div_mod (limit maxIterations) n ltac:(lia)). lia. }
  assert (GD : forall e, In e (br_tr r) -> good mx p n F gi e).
  { intros e He. apply in_split in He as (h & rest & ET). specialize (CP h e rest ET). destruct e; cbn in *; auto.
    - destruct CP as [-> ->]. rewrite HK. apply WG.
    - intros -> -> Ly. rewrite CP. now apply WE. }
  set (lim := limit maxIterations) in *.
  assert (M1 : m <= eta) by (apply Rmin_l).
  assert (I0 : inv mx p n lim L sp eta (bstart (N := RNum mx) b eta prev x0)).
  { constructor; cbn; auto; [exists 0%nat; reflexivity|]. split; [exact M1|lra]. }
  assert (P0 : paid_for n L sp eta F grad x0 [] (p_x (bstart (N := RNum mx) b eta prev x0))).
  { split; [reflexivity|]. cbn. lra. }
  assert (MP := m_pos L sp eta HL HS HE). fold m in MP.
  assert (KEY : inv mx p n lim L sp eta s' /\ paid_for n L sp eta F grad x0 steps (p_x s')).
  { destruct RP as (l & s & BR & RP).
    assert (BE : forall e, In e (brun_events (N := RNum mx) n lim shuffle (bstart (N := RNum mx) b eta prev x0) l) -> In e (br_tr r)).
    { intros e He. destruct (br_conv r).
      - destruct RP as (t & _ & _ & _ & ET & _). rewrite ET. right. apply in_or_app. now left.
      - destruct RP as (grow & gs & final & ET & _). rewrite ET. right. apply in_or_app. now left. }
    destruct (run_fact mx p n lim L sp eta F grad gi SM HL HS HE HN LMq WS shuffle tol l x0 [] _ s I0 P0 BR (fun e He => GD e (BE e He))) as (I1 & P1).
    cbn [app] in P1. unfold steps. destruct (br_conv r).
    - destruct RP as (t & ST & _ & _ & ET & _).
      destruct (step_fact mx p n lim L sp eta F grad gi SM HL HS HE HN LMq WS s t s' I1 ST) as (I2 & FA & SP).
      { intros e He. apply GD. rewrite ET. right. apply in_or_app. right. apply in_or_app. now left. }
      split; [exact I2|]. rewrite ET.
      match goal with |- paid_for _ _ _ _ _ _ _ (stepped mx (_ :: ?A ++ ?B ++ ?C)) _ =>
        replace (stepped mx (BBegin (N := RNum mx) x0 :: A ++ B ++ C)) with (stepped mx A ++ [p_x s' : list R]) end.
      2:{ symmetry. etransitivity; [exact (stepped_app mx _ _)|]. f_equal. etransitivity; [exact (stepped_app mx _ _)|]. etransitivity; [exact (f_equal (fun u => u ++ _) SP)|]. reflexivity. }
      apply paid_snoc with (p_x s); assumption.
    - destruct RP as (grow & gs & final & ET & _ & ES & _). assert (PX : p_x s' = p_x s) by (rewrite ES; reflexivity).
      split.
      + rewrite ES. destruct I1 as [J1 J2 J3 J4 J5]. constructor; cbn; auto. lia.
      + rewrite PX, ET.
        match goal with |- paid_for _ _ _ _ _ _ _ (stepped mx (_ :: ?A ++ ?B ++ ?C ++ ?D)) _ =>
          replace (stepped mx (BBegin (N := RNum mx) x0 :: A ++ B ++ C ++ D)) with (stepped mx A); [exact P1|] end.
        symmetry. etransitivity; [exact (stepped_app mx _ _)|].
        etransitivity; [apply f_equal; etransitivity; [exact (stepped_app mx _ _)|]; etransitivity; [exact (f_equal (fun u => u ++ _) (stepped_grads mx _ gs))|];
                        etransitivity; [exact (stepped_app mx _ _)|]; exact (f_equal (fun u => u ++ _) (stepped_evals mx _ final))|].
        cbn [stepped app]. apply app_nil_r. }
  destruct KEY as ([J1 J2 J3 J4 J5] & LA & PA).
  assert (LOWE : low <= F (p_x s')) by (apply LOW; exact J1).
  assert (N0 : 0 < INR n * INR n) by (pose proof (n_ge n HN); nra).
  assert (C0 : 0 <= sp * m / (INR n * INR n)) by (apply Rmult_le_pos; [apply Rmult_le_pos; lra|apply Rlt_le, Rinv_0_lt_compat, N0]).
  assert (SN : forall l : list (list R), 0 <= sumR (map (fun y => sqn (grad y)) l)).
  { induction l as [|y l IH]; cbn; [lra|]. pose proof (sqn_nonneg (grad y)). lra. }
  assert (T : sp * m / (INR n * INR n) * sumR (map (fun y => sqn (grad y)) points) <= F x0 - low) by (unfold points; fold m in PA; lra).
  split; [rewrite EE; exact J5|]. split; [rewrite EX; symmetry; exact LA|].
  split; [rewrite EX; fold m in PA; pose proof (Rmult_le_pos _ _ C0 (SN (removelast (x0 :: steps)))); lra|].
  split; [exact T|]. intros NE.
  destruct (some_small (sumR (map (fun y => sqn (grad y)) points)) (map (fun y => sqn (grad y)) points)) as (v & Iv & Bv).
  { rewrite map_length. unfold points. rewrite removelast_length. destruct steps; [contradiction|cbn; lia]. }
  { lra. }
  apply in_map_iff in Iv as (y & <- & Iy). exists y. split; [exact Iy|]. rewrite map_length in Bv. unfold points in Bv at 1. rewrite removelast_length in Bv.
  eapply Rle_trans; [|exact T]. apply Rmult_le_compat_l; assumption.
Qed.

(** the search ends *)
Theorem search_ends mx p (f : VFun (RNum mx)) (L sp : R) F grad gi fuel (x : list R) (eta : R) tr :
  smooth_on (space p) L F grad -> 0 < L -> whole_sum mx p f F grad gi -> 0 < sp < 1 -> 0 < eta -> (0 < vf_num f)%nat -> length x = p ->
  eta * L <= 2 * (1 - sp) * 2 ^ fuel ->
  exists eta' tr', backtrack (N := RNum mx) f fuel (fun e => e / 2) sp x (grad x) (mean_sq (N := RNum mx) (fun g => sqrt (sqn g)) (vf_num f) (grad x)) 0 (vf_num f) eta tr
    = Some (eta', tr').
Proof.
  intros SM HL (WE & _) HS HE HN Lx. unfold backtrack, quiet. rewrite (WE _ _ Lx). set (n := vf_num f) in *.
  set (gB := mean_sq _ _ _). assert (EG : gB = sqn (grad x) / (INR n * INR n)) by exact (mean_sq_value mx n sp HS HN (grad x)). rewrite EG. clear EG gB. generalize (BEvalQ (N := RNum mx) x 0 n (F x) :: tr). clear tr.
  revert eta HE. induction fuel as [|fuel IH]; intros eta HE tr HB; cbn [search]; unfold quiet.
  - rewrite (WE _ _ (go_length mx p L F grad SM eta x Lx)). cbn [pow] in HB.
    pose proof (passes_test mx p n L sp F grad SM HL HS HN eta x Lx HE ltac:(lra)) as P. cbn [nlt nsub nmul RNum].
    destruct (Rltb_spec (F x - sp * eta * (sqn (grad x) / (INR n * INR n))) (F (go mx grad eta x))) as [Q|Q]; [unfold go in *; lra|]. eauto.
  - destruct (nlt _ _); [|eauto]. apply IH; [lra|]. cbn [pow] in HB. lra.
Qed.
