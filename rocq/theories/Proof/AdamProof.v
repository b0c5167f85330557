From Coq Require Import List Arith Reals Lra Lia Bool ZArith.
From Verif.Base Require Import Num Instances Vec.
From Verif.Model Require Import Updates.
From Verif.Spec Require Import UpdatesSpec.
From Verif.Proof Require Import UpdatesProof.
Import ListNotations.
Local Open Scope R_scope.

(** ** Facts about the specification's sums *)
Lemma ema_snoc : forall b vs v, ema b (vs ++ [v]) = ema b vs * b + (1 - b) * v.
Proof.
  induction vs as [|w vs IH]; intros v; simpl; [ring|].
  rewrite IH, app_length. simpl. rewrite Nat.add_1_r. simpl. ring.
Qed.
Lemma M1_snoc : forall b l h g, M1 b (l ++ [(h, g)]) = M1 b l * b + (1 - b) * g.
Proof. intros. unfold M1, gs_of. rewrite map_app. apply ema_snoc. Qed.
Lemma M2_snoc : forall b l h g, M2 b (l ++ [(h, g)]) = M2 b l * b + (1 - b) * (g * g).
Proof. intros. unfold M2, gs_of. rewrite !map_app. apply ema_snoc. Qed.

Lemma pow_01 : forall b n, 0 <= b < 1 -> 0 <= b ^ n <= 1.
Proof.
  intros b n H. split; [apply pow_le; lra|].
  rewrite <- (pow1 n). apply pow_incr; lra.
Qed.
Lemma corr_pos : forall b l, 0 <= b < 1 -> l <> [] -> 0 < corr b l <= 1.
Proof.
  intros b [|p l] H N; [congruence|]. unfold corr. simpl length. cbn [pow].
  pose proof (pow_01 b (length l) H) as P. split; [|nra].
  assert (b * b ^ length l <= b * 1) by (apply Rmult_le_compat_l; lra). lra.
Qed.

Lemma rmax_nonneg : forall l, 0 <= rmax l.
Proof. induction l as [|x l IH]; simpl; [lra|]. pose proof (Rmax_r x (rmax l)). lra. Qed.
Lemma rmax_ge : forall l x, In x l -> x <= rmax l.
Proof.
  induction l as [|y l IH]; simpl; intros x H; [contradiction|]. destruct H as [E|H]; [subst; apply Rmax_l|].
  pose proof (Rmax_r y (rmax l)). specialize (IH x H). lra.
Qed.
Lemma rmax_in : forall l, l <> [] -> Forall (fun x => 0 <= x) l -> In (rmax l) l.
Proof.
  induction l as [|y l IH]; intros N F; [congruence|]. inversion F; subst. simpl.
  destruct l as [|z l]; [left; simpl; symmetry; apply Rmax_left; lra|].
  destruct (Rle_dec y (rmax (z :: l))).
  - right. rewrite Rmax_right by auto. apply IH; [congruence|auto].
  - left. rewrite Rmax_left; lra.
Qed.
Lemma rmax_snoc : forall l x, rmax (l ++ [x]) = Rmax (rmax l) (Rmax x 0).
Proof.
  induction l as [|y l IH]; intros x; simpl.
  - symmetry. apply Rmax_right. apply Rmax_r.
  - rewrite IH. apply Rmax_assoc.
Qed.

Lemma ema_bounds : forall b vs c d, 0 <= b < 1 -> Forall (fun v => c <= v <= d) vs ->
  c * (1 - b ^ length vs) <= ema b vs <= d * (1 - b ^ length vs).
Proof.
  induction vs as [|v vs IH]; intros c d H F; simpl; [lra|].
  inversion F; subst. specialize (IH c d H H3).
  pose proof (pow_01 b (length vs) H). 
  assert (0 <= (1 - b) * b ^ length vs) by (apply Rmult_le_pos; lra).
  nra.
Qed.

Lemma M2_range : forall b l, 0 <= b < 1 -> 0 <= M2 b l <= rmax (map sq (gs_of l)).
Proof.
  intros b l H. unfold M2. set (vs := map sq (gs_of l)).
  assert (F : Forall (fun v => 0 <= v <= rmax vs) vs).
  { apply Forall_forall. intros v I. split; [|apply rmax_ge; auto].
    unfold vs in I. apply in_map_iff in I as (g & <- & _). unfold sq. nra. }
  pose proof (ema_bounds b vs 0 (rmax vs) H F) as [A B].
  pose proof (pow_01 b (length vs) H). pose proof (rmax_nonneg vs). nra.
Qed.
Lemma M1_range : forall b l, 0 <= b < 1 -> Rabs (M1 b l) <= rmax (map Rabs (gs_of l)).
Proof.
  intros b l H. unfold M1. set (m := rmax (map Rabs (gs_of l))).
  assert (F : Forall (fun v => - m <= v <= m) (gs_of l)).
  { apply Forall_forall. intros v I.
    assert (Rabs v <= m) by (apply rmax_ge, in_map; auto).
    pose proof (Rle_abs v). pose proof (Rle_abs (- v)). rewrite Rabs_Ropp in *. lra. }
  pose proof (ema_bounds b _ (- m) m H F) as [A B].
  pose proof (pow_01 b (length (gs_of l)) H). assert (0 <= m) by apply rmax_nonneg.
  apply Rabs_le. nra.
Qed.

(** Bias correction is exact when the gradient is constant. *)
Lemma ema_const : forall b c vs, Forall (fun v => v = c) vs -> ema b vs = (1 - b ^ length vs) * c.
Proof.
  induction vs as [|v vs IH]; intros F; simpl; [ring|].
  inversion F; subst. rewrite IH; auto. ring.
Qed.
Lemma M1_const : forall b g l, Forall (fun p => snd p = g) l -> M1 b l = corr b l * g.
Proof.
  intros b g l F. unfold M1, corr, gs_of. erewrite (ema_const b g); [rewrite map_length; reflexivity|].
  induction F; simpl; constructor; auto.
Qed.
Lemma M2_const : forall b g l, Forall (fun p => snd p = g) l -> M2 b l = corr b l * (g * g).
Proof.
  intros b g l F. unfold M2, corr, gs_of. erewrite (ema_const b (g * g)); [rewrite !map_length; reflexivity|].
  induction F as [|x l E F IH]; simpl; constructor; auto. rewrite E. reflexivity.
Qed.

(** ** The state kept by the policies *)
Lemma emax_R : forall mx a b, emax (N := RNum mx) a b = Rmax a b.
Proof.
  intros. unfold emax. cbn. destruct (Rltb_spec a b); unfold Rmax; destruct (Rle_dec a b); auto; lra.
Qed.

Section Family.
  Variable mx : R.
  Notation N := (RNum mx).
  Notation st := (@adam_st N).
  Variable up : st -> R -> R -> R -> st * R.
  Notation fin s x l := (fst (run (N := N) up s x l)).

  Lemma time_run : (forall (s : st) (x h g : R), a_t (fst (up s x h g)) = S (a_t s)) ->
    forall (s : st) (x : R) (l : list (R * R)), a_t (fin s x l) = (a_t s + length l)%nat.
  Proof.
    intros U s x l. induction l as [|[h g] l IH] using rev_ind; [simpl; lia|].
    rewrite run_snoc, app_length, U, IH. simpl. lia.
  Qed.
  Lemma m_run : forall b1, (forall (s : st) (x h g : R), a_m (fst (up s x h g)) = a_m s * b1 + (1 - b1) * g) ->
    forall (s : st) (x : R) (l : list (R * R)), a_m s = 0 -> a_m (fin s x l) = M1 b1 l.
  Proof.
    intros b1 U s x l Z. induction l as [|[h g] l IH] using rev_ind; [exact Z|].
    rewrite run_snoc, U, M1_snoc. rewrite IH. reflexivity.
  Qed.
  Lemma v_run : forall b2, (forall (s : st) (x h g : R), a_v (fst (up s x h g)) = a_v s * b2 + (1 - b2) * (g * g)) ->
    forall (s : st) (x : R) (l : list (R * R)), a_v s = 0 -> a_v (fin s x l) = M2 b2 l.
  Proof.
    intros b2 U s x l Z. induction l as [|[h g] l IH] using rev_ind; [exact Z|].
    rewrite run_snoc, U, M2_snoc. rewrite IH. reflexivity.
  Qed.
  Lemma u_run : forall b2, 0 <= b2 -> (forall (s : st) (x h g : R), a_v (fst (up s x h g)) = Rmax (a_v s * b2) (Rabs g)) ->
    forall (s : st) (x : R) (l : list (R * R)), a_v s = 0 -> a_v (fin s x l) = discmax b2 (gs_of l).
  Proof.
    intros b2 B U s x l Z. induction l as [|[h g] l IH] using rev_ind; [exact Z|].
    rewrite run_snoc, U, IH. clear - B. unfold gs_of. rewrite map_app. simpl.
    induction (map snd l) as [|v vs IH]; simpl.
    - rewrite Rmult_0_l, Rmult_1_l. apply Rmax_comm.
    - rewrite <- IH, app_length. simpl. rewrite Nat.add_1_r.
      rewrite (Rmult_comm (Rmax _ _) b2), <- RmaxRmult by lra.
      rewrite <- Rmax_assoc. f_equal; [simpl; ring|]. f_equal. ring.
  Qed.
  Lemma w_run : forall b2,  0 <= b2 < 1 ->
    (forall (s : st) (x h g : R), a_v (fst (up s x h g)) = a_v s * b2 + (1 - b2) * (g * g)) ->
    (forall (s : st) (x h g : R), a_w (fst (up s x h g)) = Rmax (a_w s) (a_v (fst (up s x h g)))) ->
    forall (s : st) (x : R) (l : list (R * R)), a_v s = 0 -> a_w s = 0 -> a_w (fin s x l) = M2max b2 l.
  Proof.
    intros b2 B U W s x l Z Z'. pose proof (v_run b2 U s x) as V.
    induction l as [|[h g] l IH] using rev_ind; [exact Z'|].
    rewrite run_snoc, W, IH. rewrite <- (run_snoc N _ up), V by auto.
    unfold M2max, prefixes. rewrite app_length. simpl length. rewrite Nat.add_1_r, seq_S.
    rewrite !map_app. cbn [map]. rewrite rmax_snoc. rewrite Nat.add_0_l.
    replace (firstn (S (length l)) (l ++ [(h, g)])) with (l ++ [(h, g)])
      by (symmetry; apply firstn_all2; rewrite app_length; simpl; lia).
     rewrite (Rmax_left (M2 b2 _) 0) by apply M2_range, B.
    f_equal. f_equal. rewrite !map_map. apply map_ext_in. intros k K. apply in_seq in K.
    f_equal. rewrite firstn_app. replace (S k - length l)%nat with 0%nat by lia. simpl. rewrite app_nil_r.
    reflexivity.
  Qed.
End Family.

(** ** One step of each policy after an arbitrary history *)
Section Steps.
  Variables (mx eps b1 b2 : R) (rpw : R -> R -> R).
  Hypothesis B1 : 0 <= b1 < 1.
  Hypothesis B2 : 0 <= b2 < 1.
  Hypothesis EP : 0 < eps.
  Notation N := (RNum mx).
  Notation st := (@adam_st N).
  Notation init := (@adam_init N).
  Variable x : R.

  Lemma sum_pos : forall v, 0 < sqrt v + eps.
  Proof. intros. pose proof (sqrt_pos v). lra. Qed.

  Lemma adam_form : forall bc1 bc2 m v h, 0 < bc1 -> 0 < bc2 -> 0 <= v ->
    (h * sqrt bc2 / bc1) * m / (sqrt v + eps) =
    h * (m / bc1) / (sqrt (v / bc2) + eps / sqrt bc2).
  Proof.
    intros bc1 bc2 m v h P1 P2 V. rewrite sqrt_div_alt by auto.
    pose proof (sqrt_lt_R0 _ P2). pose proof (sum_pos v). pose proof (sqrt_pos v).
    field. repeat split; try lra.
    
  Qed.

  Lemma snoc_ne : forall (l : list (R * R)) p, l ++ [p] <> [].
  Proof. intros [|]; discriminate. Qed.

  Lemma adam_step : forall (l : list (R * R)) (h g : R), let H := l ++ [(h, g)] in
    snd (run (N := N) (adam_up (N := N) pow eps b1 b2) init x H) =
    snd (run (N := N) (adam_up (N := N) pow eps b1 b2) init x l)
      - h * (M1 b1 H / corr b1 H) / (sqrt (M2 b2 H / corr b2 H) + eps / sqrt (corr b2 H)).
  Proof.
    intros l h g H. set (up := adam_up (N := N) pow eps b1 b2).
    assert (T : a_t (fst (run (N := N) up init x H)) = @length (R * R) H)
      by (apply (time_run mx up); reflexivity).
    assert (A : a_m (fst (run (N := N) up init x H)) = M1 b1 H)
      by (apply (m_run mx up b1); reflexivity).
    assert (V : a_v (fst (run (N := N) up init x H)) = M2 b2 H)
      by (apply (v_run mx up b2); reflexivity).
    rewrite <- adam_form; [|apply corr_pos; auto; apply snoc_ne|apply corr_pos; auto; apply snoc_ne|apply M2_range; auto].
    unfold corr. rewrite <- T, <- A, <- V. unfold H. rewrite run_snoc. reflexivity.
  Qed.

  Ltac st_t mx up x H T :=
    assert (T : a_t (fst (run (N := RNum mx) up (@adam_init (RNum mx)) x H)) = @length (R * R) H)
      by (apply (time_run mx up); reflexivity).
  Ltac st_m mx up b1 x H A :=
    assert (A : a_m (fst (run (N := RNum mx) up (@adam_init (RNum mx)) x H)) = M1 b1 H)
      by (apply (m_run mx up b1); reflexivity).
  Ltac st_v mx up b2 x H V :=
    assert (V : a_v (fst (run (N := RNum mx) up (@adam_init (RNum mx)) x H)) = M2 b2 H)
      by (apply (v_run mx up b2); reflexivity).
  Ltac cpos := apply corr_pos; [assumption|apply snoc_ne].

  Lemma M2max_nonneg : forall b l, 0 <= M2max b l.
  Proof. intros. apply rmax_nonneg. Qed.

  Lemma amsgrad_step : forall (l : list (R * R)) (h g : R), let H := l ++ [(h, g)] in
    snd (run (N := N) (amsgrad_up (N := N) pow eps b1 b2) init x H) =
    snd (run (N := N) (amsgrad_up (N := N) pow eps b1 b2) init x l)
      - h * (M1 b1 H / corr b1 H) / (sqrt (M2max b2 H / corr b2 H) + eps / sqrt (corr b2 H)).
  Proof.
    intros l h g H. set (up := amsgrad_up (N := N) pow eps b1 b2).
    st_t mx up x H TT. st_m mx up b1 x H A.
    assert (W : a_w (fst (run (N := N) up init x H)) = M2max b2 H).
    { apply (w_run mx up b2); auto. intros. apply emax_R. }
    rewrite <- adam_form; [|cpos|cpos|apply M2max_nonneg].
    unfold corr. rewrite <- TT, <- A, <- W. unfold H. rewrite run_snoc. reflexivity.
  Qed.

  Lemma padam_step : forall partial (l : list (R * R)) (h g : R), let H := l ++ [(h, g)] in
    snd (run (N := N) (padam_up (N := N) pow rpw eps b1 b2 partial) init x H) =
    snd (run (N := N) (padam_up (N := N) pow rpw eps b1 b2 partial) init x l)
      - h * sqrt (corr b2 H) * (M1 b1 H / corr b1 H) / rpw (M2max b2 H + eps) partial.
  Proof.
    intros partial l h g H. set (up := padam_up (N := N) pow rpw eps b1 b2 partial).
    st_t mx up x H TT. st_m mx up b1 x H A.
    assert (W : a_w (fst (run (N := N) up init x H)) = M2max b2 H).
    { apply (w_run mx up b2); auto. intros. apply emax_R. }
    transitivity (snd (run (N := N) up init x l) - (h * sqrt (corr b2 H) / corr b1 H) * M1 b1 H / rpw (M2max b2 H + eps) partial).
    - unfold corr. rewrite <- TT, <- A, <- W. unfold H. rewrite run_snoc. reflexivity.
    - eqR. unfold Rdiv. ring.
  Qed.

  Lemma adamax_step : forall (l : list (R * R)) (h g : R), let H := l ++ [(h, g)] in
    snd (run (N := N) (adamax_up (N := N) pow eps b1 b2) init x H) =
    snd (run (N := N) (adamax_up (N := N) pow eps b1 b2) init x l)
      - h * (M1 b1 H / corr b1 H) / (discmax b2 (gs_of H) + eps).
  Proof.
    intros l h g H. set (up := adamax_up (N := N) pow eps b1 b2).
    st_t mx up x H TT. st_m mx up b1 x H A.
    assert (V : a_v (fst (run (N := N) up init x H)) = discmax b2 (gs_of H)).
    { apply (u_run mx up b2); [lra| |reflexivity]. intros. apply emax_R. }
    assert (C : 0 < corr b1 H) by cpos.
    revert C. unfold corr. rewrite <- TT, <- A, <- V. unfold H. rewrite run_snoc.
    set (s := fst (run (N := N) up init x l)). set (y := snd (run (N := N) up init x l)).
    intros C. transitivity (y - h / (1 - b1 ^ a_t (fst (up s y h g))) * a_m (fst (up s y h g)) / (a_v (fst (up s y h g)) + eps)).
    - cbn -[pow emax] in *. destruct (Reqb_spec (1 - b1 ^ S (a_t s)) 0) as [E|E]; cbn [negb]; [lra|reflexivity].
    - eqR. unfold Rdiv. ring.
  Qed.

  Definition opt_u (l : list (R * R)) : R :=
    M1 b1 l / corr b1 l / (sqrt (M2 b2 l / corr b2 l) + eps).
  Lemma optimistic_step : forall (l : list (R * R)) (h g : R), let H := l ++ [(h, g)] in
    let up := optimistic_up (N := N) pow eps b1 b2 in
    snd (run (N := N) up init x H) =
    snd (run (N := N) up init x l) - 2 * h * opt_u H + h * opt_u l.
  Proof.
    intros l h g H up.
    assert (W : forall l : list (R * R), a_w (fst (run (N := N) up init x l)) = opt_u l).
    { clear l h g H. intros l. destruct l as [|[h g] l] using rev_ind.
      { unfold opt_u, M1, Rdiv. cbn -[pow]. rewrite !Rmult_0_l. reflexivity. }
      set (H := l ++ [(h, g)]).
      st_t mx up x H TT. st_m mx up b1 x H A. st_v mx up b2 x H V.
      unfold opt_u, corr. rewrite <- TT, <- A, <- V. unfold H. rewrite run_snoc. reflexivity. }
    st_t mx up x H TT. st_m mx up b1 x H A. st_v mx up b2 x H V.
    transitivity (snd (run (N := N) up init x l) - (2 * h * opt_u H - h * opt_u l)); [|eqR; ring].
    rewrite <- (W l). unfold opt_u, corr. rewrite <- TT, <- A, <- V. unfold H. rewrite run_snoc. reflexivity.
  Qed.

  Lemma qhadam_step : forall v1 v2 (l : list (R * R)) (h g : R), let H := l ++ [(h, g)] in
    let up := qhadam_up (N := N) pow eps b1 b2 v1 v2 in
    snd (run (N := N) up init x H) =
    snd (run (N := N) up init x l)
      - h * (((1 - v1) * g + v1 * (M1 b1 H / corr b1 H)) /
             (sqrt ((1 - v2) * (g * g) + v2 * (M2 b2 H / corr b2 H)) + eps)).
  Proof.
    intros v1 v2 l h g H up.
    st_t mx up x H TT. st_m mx up b1 x H A. st_v mx up b2 x H V.
    unfold corr. rewrite <- TT, <- A, <- V. unfold H. rewrite run_snoc. reflexivity.
  Qed.

  Lemma belief_snoc : forall l h g, belief eps b1 b2 (l ++ [(h, g)]) =
    belief eps b1 b2 l * b2 + ((1 - b2) * sq (g - M1 b1 (l ++ [(h, g)])) + eps).
  Proof.
    intros. unfold belief. rewrite rev_app_distr. simpl app.
    cbn [belief_rev]. simpl rev. rewrite rev_involutive. ring.
  Qed.
  Lemma belief_ge : forall l, l <> [] -> eps <= belief eps b1 b2 l.
  Proof.
    assert (P : forall l, 0 <= belief eps b1 b2 l /\ (l <> [] -> eps <= belief eps b1 b2 l)).
    { induction l as [|[h g] l [IH _]] using rev_ind.
      - unfold belief. simpl. split; [lra|congruence].
      - rewrite belief_snoc.
        assert (0 <= (1 - b2) * sq (g - M1 b1 (l ++ [(h, g)]))) by (apply Rmult_le_pos; [lra|apply Rle_0_sqr]).
        assert (0 <= belief eps b1 b2 l * b2) by (apply Rmult_le_pos; lra).
        split; intros; lra. }
    intros l. apply P.
  Qed.
  Lemma adabelief_step : forall (l : list (R * R)) (h g : R), let H := l ++ [(h, g)] in
    let up := adabelief_up (N := N) pow eps b1 b2 in
    snd (run (N := N) up init x H) =
    snd (run (N := N) up init x l)
      - h * (M1 b1 H / corr b1 H) / (sqrt (belief eps b1 b2 H / corr b2 H) + eps).
  Proof.
    intros l h g H up.
    st_t mx up x H TT. st_m mx up b1 x H A.
    assert (V : forall l : list (R * R), a_v (fst (run (N := N) up init x l)) = belief eps b1 b2 l).
    { clear l h g H TT A. intros l. induction l as [|[h g] l IH] using rev_ind; [reflexivity|].
      rewrite belief_snoc, <- IH. set (H := l ++ [(h, g)]). st_m mx up b1 x H A.
      rewrite <- A. unfold H. rewrite run_snoc. reflexivity. }
    transitivity (snd (run (N := N) up init x l) - ((M1 b1 H / corr b1 H) * h) / (sqrt (belief eps b1 b2 H / corr b2 H) + eps)).
    - unfold corr. rewrite <- TT, <- A, <- V. unfold H. rewrite run_snoc. reflexivity.
    - eqR. unfold Rdiv. ring.
  Qed.

  Lemma yogi_arith : forall v g M, 0 <= v <= (2 - b2) * M ->
    let v' := v - (1 - b2) * (if Rltb 0 (v - g * g) then 1 else if Rltb (v - g * g) 0 then - (1) else 0) * (g * g) in
    0 <= v' <= (2 - b2) * Rmax M (g * g).
  Proof.
    intros v g M IH. cbv zeta.
    assert (G : 0 <= g * g) by apply Rle_0_sqr.
    pose proof (Rmax_l M (g * g)). pose proof (Rmax_r M (g * g)). set (M' := Rmax M (g * g)) in *.
    destruct (Rltb_spec 0 (v - g * g)); [|destruct (Rltb_spec (v - g * g) 0)].
    all: assert (0 <= (1 - b2) * (g * g)) by (apply Rmult_le_pos; lra).
    all: assert (0 <= b2 * (g * g)) by (apply Rmult_le_pos; lra).
    all: assert ((2 - b2) * M <= (2 - b2) * M') by (apply Rmult_le_compat_l; lra).
    all: assert ((2 - b2) * (g * g) <= (2 - b2) * M') by (apply Rmult_le_compat_l; lra).
    all: lra.
  Qed.

  Lemma yogi_moments : forall (l : list (R * R)),
    let s := fst (run (N := N) (yogi_up (N := N) eps b1 b2) init x l) in
    a_m s = M1 b1 l /\ 0 <= a_v s <= (2 - b2) * rmax (map sq (gs_of l)).
  Proof.
    intros l. set (up := yogi_up (N := N) eps b1 b2). cbv zeta.
    split; [apply (m_run mx up b1); reflexivity|].
    induction l as [|[h g] l IH] using rev_ind; [simpl; lra|].
    rewrite run_snoc. unfold gs_of in *. rewrite !map_app. cbn [map snd]. rewrite rmax_snoc.
    rewrite (Rmax_left (sq g) 0) by apply Rle_0_sqr.
    exact (yogi_arith _ g _ IH).
  Qed.
  Lemma yogi_step : forall (l : list (R * R)) (h g : R), let H := l ++ [(h, g)] in
    let up := yogi_up (N := N) eps b1 b2 in
    exists v v', 0 <= v /\
      v' = v + (1 - b2) * (g * g) * (match total_order_T v (g * g) with
              | inleft (left _) => 1 | inleft (right _) => 0 | inright _ => -1 end) /\
      v = a_v (fst (run (N := N) up init x l)) /\ v' = a_v (fst (run (N := N) up init x H)) /\
    snd (run (N := N) up init x H) =
    snd (run (N := N) up init x l) - h * M1 b1 H / (sqrt v' + eps).
  Proof.
    intros l h g H up.
    exists (a_v (fst (run (N := N) up init x l))), (a_v (fst (run (N := N) up init x H))).
    split; [apply (yogi_moments l)|]. split; [|split; [reflexivity|split; [reflexivity|]]].
    - unfold H. rewrite run_snoc. set (v := a_v (fst (run (N := N) up init x l))).
      change (v - (1 - b2) * (if Rltb 0 (v - g * g) then 1 else if Rltb (v - g * g) 0 then - (1) else 0) * (g * g)
        = v + (1 - b2) * (g * g) * (match total_order_T v (g * g) with
              | inleft (left _) => 1 | inleft (right _) => 0 | inright _ => -1 end)).
      clearbody v. change (T N) with R in v.
      destruct (total_order_T v (g * g)) as [[L|L]|L];
        destruct (Rltb_spec 0 (v - g * g)); try lra; destruct (Rltb_spec (v - g * g) 0); lra.
    - st_m mx up b1 x H A. rewrite <- A. unfold H. rewrite run_snoc. reflexivity.
  Qed.
End Steps.

(** ** NAdam *)
Section Nadam.
  Variables (mx eps b1 b2 sd : R) (rpw : R -> R -> R).
  Hypothesis B1 : 0 <= b1 < 1.
  Hypothesis B2 : 0 <= b2 < 1.
  Hypothesis EP : 0 < eps.
  Hypothesis PW : forall t, 0 <= rpw (96 / 100) (INR t * sd) <= 1.
  Notation N := (RNum mx).
  Notation init := (@nadam_init N).
  Variable x : R.
  Definition nbeta (t : nat) : R := b1 * (1 - 1 / 2 * rpw (96 / 100) (INR t * sd)).

  Lemma nbeta_model : forall t, nadam_beta (N := N) rpw b1 sd t = nbeta t.
  Proof. intros. unfold nadam_beta, nbeta, nofnat. cbn. rewrite <- INR_IZR_INZ. reflexivity. Qed.
  Lemma nbeta_range : forall t, b1 / 2 <= nbeta t <= b1.
  Proof. intros. unfold nbeta. pose proof (PW t). nra. Qed.
  Lemma prod_range : forall n, 0 <= prod1 nbeta n <= b1 ^ n.
  Proof.
    induction n as [|n IH]; simpl; [lra|]. pose proof (nbeta_range (S n)).
    split; [apply Rmult_le_pos; lra|].
    rewrite (Rmult_comm b1). apply Rmult_le_compat; lra.
  Qed.
  Lemma prod_lt1 : forall n, (0 < n)%nat -> 0 <= prod1 nbeta n < 1.
  Proof.
    intros [|n] H; [lia|]. pose proof (prod_range (S n)). split; [lra|].
    pose proof (pow_01 b1 n B1). simpl in *. nra.
  Qed.

  Lemma cum_run : forall (up : @adam_st N -> R -> R -> R -> @adam_st N * R),
    (forall s y h g, a_t (fst (up s y h g)) = S (a_t s)) ->
    (forall s y h g, a_w (fst (up s y h g)) = a_w s * nbeta (S (a_t s))) ->
    forall l : list (R * R), a_w (fst (run (N := N) up init x l)) = prod1 nbeta (@length (R * R) l).
  Proof.
    intros up U W l. pose proof (time_run mx up U init x) as T.
    induction l as [|[h g] l IH] using rev_ind; [reflexivity|].
    rewrite run_snoc, W, IH, T, app_length. cbn [length a_t nadam_init]. rewrite Nat.add_1_r.
    reflexivity.
  Qed.

  Definition nesterov_mix (l : list (R * R)) (g : R) : R :=
    let n := length l in
    (1 - nbeta n) / (1 - prod1 nbeta n) * g +
    nbeta (S n) / (1 - prod1 nbeta (S n)) * M1 b1 l.

  Lemma nadam_step : forall (l : list (R * R)) (h g : R), let H := l ++ [(h, g)] in
    let up := nadam_up (N := N) pow rpw eps b1 b2 sd in
    snd (run (N := N) up init x H) =
    snd (run (N := N) up init x l)
      - h * nesterov_mix H g / (sqrt (M2 b2 H / corr b2 H) + eps / sqrt (corr b2 H)).
  Proof.
    intros l h g H up.
    assert (U : forall s y h g, a_t (fst (up s y h g)) = S (a_t s)) by reflexivity.
    assert (TT : a_t (fst (run (N := N) up init x H)) = @length (R * R) H)
      by (apply (time_run mx up U)).
    assert (A : a_m (fst (run (N := N) up init x H)) = M1 b1 H)
      by (apply (m_run mx up b1); reflexivity).
    assert (V : a_v (fst (run (N := N) up init x H)) = M2 b2 H).
    { apply (v_run mx up b2); [|reflexivity]. intros. cbn. ring. }
    assert (W : a_w (fst (run (N := N) up init x H)) = prod1 nbeta (@length (R * R) H)).
    { apply (cum_run up U). intros. rewrite <- nbeta_model. reflexivity. }
    replace (h * nesterov_mix H g) with (h * (nesterov_mix H g / 1)) by field.
    rewrite <- (adam_form eps EP 1 (corr b2 H));
      [|lra|apply corr_pos; [assumption|apply snoc_ne]|apply M2_range; auto].
    transitivity (snd (run (N := N) up init x l) - h * nesterov_mix H g * sqrt (corr b2 H) / (sqrt (M2 b2 H) + eps)).
    - unfold nesterov_mix, corr. cbn [prod1]. rewrite <- A, <- V, <- W, <- TT, <- !nbeta_model.
      unfold H. rewrite run_snoc. reflexivity.
    - eqR. unfold Rdiv. field. pose proof (sum_pos eps EP (M2 b2 H)). lra.
  Qed.

  Lemma nadamax_step : forall (l : list (R * R)) (h g : R), let H := l ++ [(h, g)] in
    let up := nadamax_up (N := N) rpw eps b1 b2 sd in
    snd (run (N := N) up init x H) =
    snd (run (N := N) up init x l) - h * nesterov_mix H g / (discmax b2 (gs_of H) + eps).
  Proof.
    intros l h g H up.
    assert (U : forall s y h g, a_t (fst (up s y h g)) = S (a_t s)) by reflexivity.
    assert (TT : a_t (fst (run (N := N) up init x H)) = @length (R * R) H)
      by (apply (time_run mx up U)).
    assert (A : a_m (fst (run (N := N) up init x H)) = M1 b1 H)
      by (apply (m_run mx up b1); reflexivity).
    assert (V : a_v (fst (run (N := N) up init x H)) = discmax b2 (gs_of H)).
    { apply (u_run mx up b2); [lra| |reflexivity]. intros. apply emax_R. }
    assert (W : a_w (fst (run (N := N) up init x H)) = prod1 nbeta (@length (R * R) H)).
    { apply (cum_run up U). intros. rewrite <- nbeta_model. reflexivity. }
    assert (C1 : prod1 nbeta (length H) < 1)
      by (apply prod_lt1; unfold H; rewrite app_length; simpl; lia).
    assert (C2 : prod1 nbeta (S (length H)) < 1) by (apply prod_lt1; lia).
    revert C1 C2.
    unfold nesterov_mix. cbn [prod1]. rewrite <- A, <- V, <- W, <- TT, <- !nbeta_model.
    unfold H. rewrite run_snoc.
    set (s := fst (run (N := N) up init x l)). set (y := snd (run (N := N) up init x l)).
    unfold up, nadamax_up. cbn -[emax nadam_beta]. intros C1 C2.
    match goal with |- (if (negb (Reqb ?a _) && negb (Reqb ?b _))%bool then _ else _) = _ =>
      destruct (Reqb_spec a 0) as [E|E]; [lra|]; destruct (Reqb_spec b 0) as [E'|E']; [lra|] end.
    reflexivity.
  Qed.
End Nadam.

(** ** Ranges *)
Lemma M2max_snoc : forall b l p, 0 <= b < 1 -> M2max b (l ++ [p]) = Rmax (M2max b l) (M2 b (l ++ [p])).
Proof.
  intros b l p B. unfold M2max, prefixes. rewrite app_length. simpl length. rewrite Nat.add_1_r, seq_S.
  rewrite !map_app. cbn [map]. rewrite rmax_snoc. rewrite Nat.add_0_l.
  replace (firstn (S (length l)) (l ++ [p])) with (l ++ [p])
    by (symmetry; apply firstn_all2; rewrite app_length; simpl; lia).
  rewrite (Rmax_left (M2 b _) 0) by apply M2_range, B.
  f_equal. f_equal. rewrite !map_map. apply map_ext_in. intros k K. apply in_seq in K.
  f_equal. rewrite firstn_app. replace (S k - length l)%nat with 0%nat by lia. simpl. rewrite app_nil_r.
  reflexivity.
Qed.
Lemma M2max_range : forall b l p, 0 <= b < 1 ->
  M2max b l <= M2max b (l ++ [p]) /\ M2 b (l ++ [p]) <= M2max b (l ++ [p]) /\
  M2max b (l ++ [p]) <= rmax (map sq (gs_of (l ++ [p]))).
Proof.
  intros b l p B. rewrite M2max_snoc by auto. split; [apply Rmax_l|split; [apply Rmax_r|]].
  assert (K : forall l, M2max b l <= rmax (map sq (gs_of l))).
  { intros k. induction k as [|q k IH] using rev_ind; [unfold M2max; simpl; lra|].
    rewrite M2max_snoc by auto. apply Rmax_lub; [|apply M2_range; auto].
    eapply Rle_trans; [apply IH|]. unfold gs_of. rewrite !map_app. simpl. rewrite rmax_snoc. apply Rmax_l. }
  rewrite <- M2max_snoc by auto. apply K.
Qed.
Lemma discmax_range : forall b vs, 0 <= b < 1 -> 0 <= discmax b vs <= rmax (map Rabs vs).
Proof.
  intros b vs B. induction vs as [|v vs IH]; simpl; [lra|].
  pose proof (Rmax_r (b ^ length vs * Rabs v) (discmax b vs)).
  split; [lra|]. apply Rmax_lub.
  - eapply Rle_trans; [|apply Rmax_l]. pose proof (pow_01 b (length vs) B). pose proof (Rabs_pos v). nra.
  - eapply Rle_trans; [|apply Rmax_r]. lra.
Qed.
Lemma discmax_ge : forall b vs v, 0 <= b < 1 -> Rabs v <= discmax b (vs ++ [v]).
Proof.
  intros b vs v B. induction vs as [|w vs IH]; simpl.
  - rewrite Rmult_1_l. apply Rmax_l.
  - eapply Rle_trans; [apply IH|apply Rmax_r].
Qed.

Lemma adam_const : forall mx eps b1 b2 x g,
  0 <= b1 < 1 -> 0 <= b2 < 1 -> 0 < eps ->
  forall (l : list (R * R)) (h : R), Forall (fun p => snd p = g) l ->
  let up := adam_up (N := RNum mx) pow eps b1 b2 in
  let H := l ++ [(h, g)] in
  snd (run (N := RNum mx) up (@adam_init (RNum mx)) x H) =
  snd (run (N := RNum mx) up (@adam_init (RNum mx)) x l) - h * g / (Rabs g + eps / sqrt (corr b2 H)).
Proof.
  intros mx eps b1 b2 x g B1 B2 EP l h F up H.
  pose proof (adam_step mx eps b1 b2 B1 B2 EP x l h g) as E. cbv zeta in E. fold H in E. fold up in E.
  etransitivity; [exact E|].
  assert (F' : Forall (fun p => snd p = g) H) by (apply Forall_app; auto).
  rewrite (M1_const b1 g), (M2_const b2 g) by auto.
  pose proof (corr_pos b1 H B1 (snoc_ne l _)). pose proof (corr_pos b2 H B2 (snoc_ne l _)).
  replace (corr b1 H * g / corr b1 H) with g by (field; lra).
  replace (corr b2 H * (g * g) / corr b2 H) with (Rsqr g) by (unfold Rsqr; field; lra).
  rewrite sqrt_Rsqr_abs. reflexivity.
Qed.
