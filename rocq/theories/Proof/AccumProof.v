From Coq Require Import List Arith Reals Lra Lia Bool ZArith.
From Verif.Base Require Import Num Instances Vec.
From Verif.Model Require Import Updates.
From Verif.Spec Require Import UpdatesSpec.
From Verif.Proof Require Import UpdatesProof AdamProof.
Import ListNotations.
Local Open Scope R_scope.

Lemma against : forall a d g, 0 <= a -> 0 < d -> - (a * g / d) * g <= 0.
Proof.
  intros a d g A D. pose proof (Rle_0_sqr g) as G. unfold Rsqr in G.
  assert (0 <= a * (g * g) / d) by (apply Rmult_le_pos; [apply Rmult_le_pos; lra|left; apply Rinv_0_lt_compat; lra]).
  replace (- (a * g / d) * g) with (- (a * (g * g) / d)) by (field; lra). lra.
Qed.

Lemma sumsq_snoc : forall l h g, sumsq (l ++ [(h, g)]) = sumsq l + g * g.
Proof. induction l as [|[h' g'] l IH]; intros h g; simpl; [ring|]. rewrite IH. ring. Qed.
Lemma sumsq_nonneg : forall l, 0 <= sumsq l.
Proof. induction l as [|[h g] l IH]; simpl; [lra|]. pose proof (Rle_0_sqr g) as G. unfold Rsqr in G. lra. Qed.

Section Accum.
  Variables (mx eps : R).
  Hypothesis EP : 0 < eps.
  Notation N := (RNum mx).
  Variable x : R.

  Lemma adagrad_ok : forall (l : list (R * R)) (h g : R), 0 <= h -> let H := l ++ [(h, g)] in
    let xs := fun l => snd (run (N := N) (adagrad_up (N := N) eps) 0 x l) in
    xs H = xs l - h * g / (sqrt (sumsq H) + eps) /\
    (xs H - xs l) * g <= 0 /\ Rabs (xs H - xs l) <= h.
  Proof.
    intros l h g P H xs.
    assert (Q : forall l : list (R * R), fst (run (N := N) (adagrad_up (N := N) eps) 0 x l) = sumsq l).
    { clear l h g P H. induction l as [|[h g] l IH] using rev_ind; [reflexivity|].
      rewrite run_snoc, sumsq_snoc, <- IH. reflexivity. }
    assert (E : xs H = xs l - h * g / (sqrt (sumsq H) + eps)).
    { rewrite <- Q. unfold xs, H. rewrite run_snoc. reflexivity. }
    split; [exact E|]. pose proof (sum_pos eps EP (sumsq H)) as D.
    assert (X : xs H - xs l = - (h * g / (sqrt (sumsq H) + eps))) by (rewrite E; eqR; ring).
    split.
    - change (Rminus (xs H) (xs l)) with (xs H - xs l). rewrite X. apply against; auto.
    - rewrite X, Rabs_Ropp. unfold Rdiv. rewrite !Rabs_mult, (Rabs_pos_eq h), Rabs_inv, (Rabs_pos_eq (sqrt _ + eps)) by lra.
      assert (G : Rabs g <= sqrt (sumsq H)).
      { unfold H. rewrite sumsq_snoc. rewrite <- (sqrt_Rsqr (Rabs g)) by apply Rabs_pos.
        apply sqrt_le_1_alt. rewrite <- Rsqr_abs. unfold Rsqr. pose proof (sumsq_nonneg l). lra. }
      rewrite Rmult_assoc. rewrite <- (Rmult_1_r h) at 2. apply Rmult_le_compat_l; [lra|].
      apply (Rmult_le_reg_r (sqrt (sumsq H) + eps)); [lra|]. rewrite Rmult_assoc, Rinv_l by lra. lra.
  Qed.

  Lemma adasqrt_ok : forall (l : list (R * R)) (h g : R), 0 <= h -> let H := l ++ [(h, g)] in
    let xs := fun l => snd (run (N := N) (adasqrt_up (N := N) eps) (0, O) x l) in
    xs H = xs l - h * sqrt (INR (length H)) * g / (sumsq H + eps) /\
    (xs H - xs l) * g <= 0.
  Proof.
    intros l h g P H xs.
    assert (Q : forall l : list (R * R), fst (run (N := N) (adasqrt_up (N := N) eps) (0, O) x l) = (sumsq l, length l)).
    { clear l h g P H. induction l as [|[h g] l IH] using rev_ind; [reflexivity|].
      rewrite run_snoc, sumsq_snoc. rewrite IH. rewrite app_length. cbn [length]. rewrite Nat.add_1_r. reflexivity. }
    assert (E : xs H = xs l - h * sqrt (INR (length H)) * g / (sumsq H + eps)).
    { pose proof (Q H) as QH. unfold xs. unfold H in QH |- *. rewrite run_snoc in *. rewrite (Q l) in *.
      unfold adasqrt_up in *. cbn -[sqrt IZR Z.of_nat length INR] in *. injection QH as A B.
      unfold nofnat. cbn -[sqrt IZR Z.of_nat length INR].
      rewrite <- INR_IZR_INZ. rewrite B, A. reflexivity. }
    split; [exact E|]. pose proof (sumsq_nonneg H) as D.
    assert (X : xs H - xs l = - (h * sqrt (INR (length H)) * g / (sumsq H + eps))) by (rewrite E; eqR; ring).
    rewrite X. apply against; [|lra]. apply Rmult_le_pos; [lra|apply sqrt_pos].
  Qed.

  Lemma rmsprop_ok : forall alpha (l : list (R * R)) (h g : R), 0 <= h -> let H := l ++ [(h, g)] in
    let xs := fun l => snd (run (N := N) (rmsprop_up (N := N) eps alpha) 0 x l) in
    xs H = xs l - h * g / (sqrt (M2 alpha H) + eps) /\ (xs H - xs l) * g <= 0.
  Proof.
    intros alpha l h g P H xs.
    assert (Q : forall l : list (R * R), fst (run (N := N) (rmsprop_up (N := N) eps alpha) 0 x l) = M2 alpha l).
    { clear l h g P H. induction l as [|[h g] l IH] using rev_ind; [reflexivity|].
      rewrite run_snoc, M2_snoc, <- IH. reflexivity. }
    assert (E : xs H = xs l - h * g / (sqrt (M2 alpha H) + eps)).
    { rewrite <- Q. unfold xs, H. rewrite run_snoc. reflexivity. }
    split; [exact E|]. pose proof (sum_pos eps EP (M2 alpha H)) as D.
    assert (X : xs H - xs l = - (h * g / (sqrt (M2 alpha H) + eps))) by (rewrite E; eqR; ring).
    rewrite X. apply against; auto.
  Qed.

  Lemma adadelta_ok : forall rho (l : list (R * R)) (h g : R), 0 <= rho < 1 -> 0 <= h -> let H := l ++ [(h, g)] in
    let xs := fun l => snd (run (N := N) (adadelta_up (N := N) rho eps) (0, 0) x l) in
    let d := sqrt ((ema rho (map sq (delta_dirs eps rho (rev l))) + eps) / (M2 rho H + eps)) * g in
    delta_dirs eps rho (rev H) = delta_dirs eps rho (rev l) ++ [d] /\
    xs H = xs l - h * d /\ (xs H - xs l) * g <= 0 /\
    0 <= ema rho (map sq (delta_dirs eps rho (rev l))) /\ 0 <= M2 rho H.
  Proof.
    intros rho l h g B P H xs d.
    assert (DD : delta_dirs eps rho (rev H) = delta_dirs eps rho (rev l) ++ [d]).
    { unfold d, H. rewrite rev_app_distr. cbn [rev app delta_dirs]. rewrite rev_involutive. reflexivity. }
    assert (Q : forall l : list (R * R), fst (run (N := N) (adadelta_up (N := N) rho eps) (0, 0) x l) =
                  (M2 rho l, ema rho (map sq (delta_dirs eps rho (rev l))))).
    { clear. induction l as [|[h g] l IH] using rev_ind; [reflexivity|].
      rewrite run_snoc, IH. rewrite rev_app_distr. cbn [rev app delta_dirs]. rewrite rev_involutive.
      rewrite (map_app sq). cbn [map]. rewrite ema_snoc. unfold adadelta_up. cbn -[sqrt M2 ema delta_dirs].
      rewrite M2_snoc. reflexivity. }
    assert (E : xs H = xs l - h * d).
    { unfold d. unfold xs, H. rewrite run_snoc, (Q l), M2_snoc. reflexivity. }
    split; [exact DD|]. split; [exact E|].
    assert (X : xs H - xs l = - (h * sqrt ((ema rho (map sq (delta_dirs eps rho (rev l))) + eps) / (M2 rho H + eps)) * g / 1))
      by (rewrite E; unfold d; eqR; field).
    split; [rewrite X; apply against; [apply Rmult_le_pos; [lra|apply sqrt_pos]|lra]|].
    split; [|apply M2_range; auto].
    assert (F : Forall (fun v => 0 <= v <= rmax (map sq (delta_dirs eps rho (rev l)))) (map sq (delta_dirs eps rho (rev l)))).
    { apply Forall_forall. intros v I. split; [|apply rmax_ge; auto].
      apply in_map_iff in I as (w & <- & _). apply Rle_0_sqr. }
    pose proof (ema_bounds rho _ _ _ B F). lra.
  Qed.

  (* SMORMS3 *)
  Lemma emin_R : forall a b, emin (N := N) a b = Rmin a b.
  Proof.
    intros. unfold emin. cbn. destruct (Rltb_spec b a); unfold Rmin; destruct (Rle_dec a b); auto; lra.
  Qed.

  Lemma smorms_arith : forall mem gg g2 h g, 1 <= mem -> gg * gg <= g2 -> 0 <= h ->
    let r := 1 / (mem + 1) in
    let gg' := (1 - r) * gg + r * g in
    let g2' := (1 - r) * g2 + r * (g * g) in
    let xx := Rmin (gg' * gg' / (g2' + eps)) h in
    gg' * gg' <= g2' /\ 0 <= xx <= h /\ xx < 1 /\ 1 <= mem * (1 - xx) + 1 /\ 0 < r <= 1 / 2.
  Proof.
    intros mem gg g2 h g Hm Hg Hh r gg' g2' xx.
    assert (Hr : 0 < r <= 1 / 2).
    { unfold r, Rdiv. rewrite Rmult_1_l. split; [apply Rinv_0_lt_compat; lra|].
      rewrite Rmult_1_l. apply Rinv_le_contravar; lra. }
    assert (A : gg' * gg' <= g2').
    { unfold gg', g2'.
      assert (((1 - r) * gg + r * g) * ((1 - r) * gg + r * g) =
              (1 - r) * (gg * gg) + r * (g * g) - r * (1 - r) * ((gg - g) * (gg - g))) as -> by ring.
      assert (0 <= r * (1 - r) * ((gg - g) * (gg - g)))
        by (apply Rmult_le_pos; [apply Rmult_le_pos; lra|apply Rle_0_sqr]).
      assert ((1 - r) * (gg * gg) <= (1 - r) * g2) by (apply Rmult_le_compat_l; lra). lra. }
    assert (S : 0 <= gg' * gg') by apply Rle_0_sqr.
    assert (Q : 0 <= gg' * gg' / (g2' + eps) < 1).
    { split; [apply Rmult_le_pos; [auto|left; apply Rinv_0_lt_compat; lra]|].
      apply (Rmult_lt_reg_r (g2' + eps)); [lra|]. unfold Rdiv. rewrite Rmult_assoc, Rinv_l by lra. lra. }
    assert (X : 0 <= xx <= h /\ xx < 1).
    { unfold xx. split; [split; [apply Rmin_glb; lra|apply Rmin_r]|].
      eapply Rle_lt_trans; [apply Rmin_l|lra]. }
    destruct X as [X1 X2]. split; [auto|split;[auto|split;[auto|split;[|auto]]]].
    assert (0 <= mem * (1 - xx)) by (apply Rmult_le_pos; lra). lra.
  Qed.

  Lemma smorms3_ok : forall (l : list (R * R)) (h g : R),
    Forall (fun p => 0 <= fst p) l -> 0 <= h -> let H := l ++ [(h, g)] in
    let up := smorms3_up (N := N) eps in
    let s := fun l => fst (run (N := N) up smorms_init x l) in
    let xs := fun l => snd (run (N := N) up smorms_init x l) in
    1 <= m_mem (s H) /\ m_g (s H) * m_g (s H) <= m_g2 (s H) /\
    exists rate : R, 0 <= rate <= Rmin h 1 /\
      xs H = xs l - rate * g / (sqrt (m_g2 (s H)) + eps) /\ (xs H - xs l) * g <= 0.
  Proof.
    intros l h g F P H up s xs.
    assert (I : forall l : list (R * R), Forall (fun p => 0 <= fst p) l ->
      1 <= m_mem (s l) /\ m_g (s l) * m_g (s l) <= m_g2 (s l)).
    { clear l h g F P H. induction l as [|[h g] l IH] using rev_ind; intros F; [cbn; lra|].
      apply Forall_app in F as [F1 F2]. inversion F2 as [|? ? F3 _]; subst. cbn in F3.
      destruct (IH F1) as [A B]. pose proof (smorms_arith _ _ _ h g A B F3) as K. cbv zeta in K.
      unfold s, up. rewrite run_snoc. unfold smorms3_up at 1 3 5 7. cbn -[emin run].
      rewrite emin_R. split; apply K. }
    assert (F' : Forall (fun p => 0 <= fst p) H) by (apply Forall_app; auto).
    destruct (I H F') as [A B]. split; [exact A|split; [exact B|]].
    destruct (I l F) as [A0 B0]. pose proof (smorms_arith _ _ _ h g A0 B0 P) as K. cbv zeta in K.
    destruct K as (_ & K1 & K2 & _).
    eexists. split; [split; [exact (proj1 K1)|apply Rmin_glb; lra]|].
    match goal with |- _ = _ - ?rr * _ / _ /\ _ => set (rate := rr) in * end.
    assert (E : xs H = xs l - rate * g / (sqrt (m_g2 (s H)) + eps)).
    { transitivity (xs l - g * rate / (sqrt (m_g2 (s H)) + eps)); [|eqR; unfold Rdiv; ring].
      unfold rate, xs, s, H, up. rewrite <- emin_R. rewrite run_snoc. reflexivity. }
    split; [exact E|].
    assert (X : xs H - xs l = - (rate * g / (sqrt (m_g2 (s H)) + eps))) by (rewrite E; eqR; ring).
    rewrite X. apply against; [lra|apply sum_pos; auto].
  Qed.
End Accum.

(* WNGrad *)
Lemma map2_nth : forall (A B C : Type) (f : A -> B -> C) a b j x y,
  nth_error a j = Some x -> nth_error b j = Some y -> nth_error (map2 f a b) j = Some (f x y).
Proof. intros. rewrite nth_error_map2. rewrite H, H0. reflexivity. Qed.
Arguments map2_nth {A B C}.
Lemma wngrad_ok : forall (mx : R) (norm : list R -> R) b x h (g : list R), 0 < b -> 0 <= h ->
  length g = length x ->
  let '(b', x') := wngrad_up (N := RNum mx) norm b x h g in
  b' = b + h * h / b * (norm g * norm g) /\ b <= b' /\
  forall j xj gj, nth_error x j = Some xj -> nth_error g j = Some gj ->
    exists xj', nth_error x' j = Some xj' /\ xj' = xj - h * gj / b' /\ (xj' - xj) * gj <= 0.
Proof.
  intros mx norm b x h g B P L. unfold wngrad_up. cbn -[vsub].
  set (b' := b + h * h / b * (norm g * norm g)).
  assert (G : b <= b').
  { unfold b'. assert (0 <= h * h / b * (norm g * norm g)); [|lra].
    apply Rmult_le_pos; [apply Rmult_le_pos; [apply Rle_0_sqr|left; apply Rinv_0_lt_compat; lra]|apply Rle_0_sqr]. }
  split; [reflexivity|split; [exact G|]].
  intros j xj gj Hx Hg. exists (xj - h * gj / b'). split; [|split; [reflexivity|]].
  - apply (map2_nth Rminus x (map (fun gi => h * gi / b') g) j xj (h * gj / b') Hx).
    exact (map_nth_error (fun gi => h * gi / b') _ _ Hg).
  - replace (xj - h * gj / b' - xj) with (- (h * gj / b')) by ring. apply against; lra.
Qed.
Lemma wn_run_ok : forall (mx : R) (norm : list R -> R) (l : list (R * list R)) (b : R) (x : list R), 0 < b ->
  b <= fst (wn_run (N := RNum mx) norm b x l).
Proof.
  intros mx norm. induction l as [|[h g] l IH]; intros b x B; cbn -[wngrad_up]; [lra|].
  unfold wngrad_up. cbn -[vsub].
  assert (b <= b + h * h / b * (norm g * norm g)).
  { assert (0 <= h * h / b * (norm g * norm g)); [|lra].
    apply Rmult_le_pos; [apply Rmult_le_pos; [apply Rle_0_sqr|left; apply Rinv_0_lt_compat; lra]|apply Rle_0_sqr]. }
  eapply Rle_trans; [eassumption|]. apply IH. lra.
Qed.
