From Coq Require Import List Arith Reals Lra Lia Bool ZArith.
From Verif.Base Require Import Num Instances Vec.
From Verif.Model Require Import Updates.
From Verif.Spec Require Import UpdatesSpec.
From Verif.Proof Require Import UpdatesProof AdamProof.
Import ListNotations.
Local Open Scope R_scope.

(** ** AdaBound, AMSBound *)
Section Bound.
  Variables (mx finalLr gamma eps b1 b2 : R) (ams : bool).
  Hypothesis B2 : 0 <= b2 < 1.
  Notation N := (RNum mx).
  Variable x : R.
  Notation up := (bound_up (N := N) pow ams finalLr gamma eps b1 b2).
  Notation init := (@bound_init N).

  Definition lower (l : list (R * R)) (h : R) : R :=
    finalLr * h / first_step l * (1 - 1 / (gamma * INR (length l) + 1)).
  Definition upper (l : list (R * R)) (h : R) : R :=
    finalLr * h / first_step l * (1 + 1 / (gamma * INR (length l))).
  Definition raw_rate (l : list (R * R)) (h : R) : R :=
    h * sqrt (corr b2 l) / corr b1 l / (sqrt (if ams then M2max b2 l else M2 b2 l) + eps).

  Lemma bound_state : forall l : list (R * R),
    let s := fst (run (N := N) up init x l) in
    b_t s = length l /\ b_m s = M1 b1 l /\ b_v s = M2 b2 l /\ b_w s = M2max b2 l /\
    b_h0 s = match l with [] => None | (h, _) :: _ => Some h end.
  Proof.
    induction l as [|[h g] l IH] using rev_ind; [repeat split; reflexivity|].
    cbv zeta in *. destruct IH as (T1 & A & V & W & H0). rewrite run_snoc.
    set (s := fst (run (N := N) up init x l)) in *. set (y := snd (run (N := N) up init x l)).
    assert (V' : b_v (fst (up s y h g)) = M2 b2 (l ++ [(h, g)])) by (rewrite M2_snoc, <- V; reflexivity).
    split; [|split; [|split; [|split]]].
    - rewrite app_length. cbn [length]. rewrite Nat.add_1_r, <- T1. reflexivity.
    - rewrite M1_snoc, <- A. reflexivity.
    - exact V'.
    - rewrite M2max_snoc by auto. rewrite <- V', <- W, <- (emax_R mx). reflexivity.
    - transitivity (Some (match b_h0 s with None => h | Some h0 => h0 end)); [reflexivity|].
      rewrite H0. destruct l as [|[h1 g1] l]; reflexivity.
  Qed.

  Lemma clamp_R : forall lo hi a, lo <= hi ->
    lo <= eclamp (N := N) lo hi a <= hi /\ (lo <= a <= hi -> eclamp (N := N) lo hi a = a).
  Proof.
    intros lo hi a L. unfold eclamp. cbn.
    destruct (Rltb_spec a lo); [split; [lra|lra]|].
    destruct (Rltb_spec hi a); [split; [lra|lra]|]. split; [lra|auto].
  Qed.

  Lemma bound_ok : forall (l : list (R * R)) (h g : R),
    let H := l ++ [(h, g)] in
    0 <= finalLr -> 0 < gamma -> 0 <= h -> 0 < first_step H ->
    let xs := fun l => snd (run (N := N) up init x l) in
    exists rate, lower H h <= rate <= upper H h /\
      (lower H h <= raw_rate H h <= upper H h -> rate = raw_rate H h) /\
      xs H = xs l - rate * M1 b1 H.
  Proof.
    intros l h g H F G P P0 xs.
    exists (eclamp (N := N) (lower H h) (upper H h) (raw_rate H h)).
    assert (n : 0 < INR (length H)) by (apply lt_0_INR; unfold H; rewrite app_length; simpl; lia).
    assert (GN : 0 < gamma * INR (length H)) by (apply Rmult_lt_0_compat; auto).
    assert (FL : 0 <= finalLr * h / first_step H).
    { apply Rmult_le_pos; [apply Rmult_le_pos; auto|left; apply Rinv_0_lt_compat; auto]. }
    assert (L : lower H h <= upper H h).
    { unfold lower, upper. apply Rmult_le_compat_l; [auto|].
      assert (0 < 1 / (gamma * INR (length H) + 1)) by (apply Rdiv_lt_0_compat; lra).
      assert (0 < 1 / (gamma * INR (length H))) by (apply Rdiv_lt_0_compat; lra). lra. }
    destruct (clamp_R _ _ (raw_rate H h) L) as [K1 K2].
    split; [exact K1|split; [exact K2|]].
    destruct (bound_state H) as (T1 & A & V & W & H0). cbv zeta in *.
    assert (H1 : first_step H = match b_h0 (fst (run (N := N) up init x l)) with None => h | Some h0 => h0 end).
    { destruct (bound_state l) as (_ & _ & _ & _ & E). cbv zeta in E. rewrite E. unfold H.
      destruct l as [|[h1 g1] l']; reflexivity. }
    unfold lower, upper, raw_rate, corr. rewrite H1. rewrite <- T1, <- A, <- V, <- W.
    assert (INR_t : forall t, INR t = nofnat (N := N) t) by (intros; unfold nofnat; cbn; apply INR_IZR_INZ).
    rewrite !INR_t. unfold xs, H. rewrite run_snoc. reflexivity.
  Qed.

  (* both bounds approach finalLr * h / h0 *)
  Lemma bounds_converge : forall l h, 0 < gamma -> l <> [] -> 0 <= finalLr * h / first_step l ->
    let fl := finalLr * h / first_step l in
    let e := fl / (gamma * INR (length l)) in
    fl - e <= lower l h <= fl /\ fl <= upper l h <= fl + e.
  Proof.
    intros l h G NE P fl e. unfold lower, upper. fold fl.
    assert (n : 0 < INR (length l)) by (apply lt_0_INR; destruct l; [congruence|simpl; lia]).
    assert (GN : 0 < gamma * INR (length l)) by (apply Rmult_lt_0_compat; auto).
    set (d := gamma * INR (length l)) in *.
    assert (A : 0 < 1 / (d + 1) < 1 / d).
    { split; [apply Rdiv_lt_0_compat; lra|]. unfold Rdiv. rewrite !Rmult_1_l. apply Rinv_lt_contravar; [apply Rmult_lt_0_compat; lra|lra]. }
    assert (E : e = fl * (1 / d)) by (unfold e; field; lra). rewrite E.
    fold fl in P.
    assert (fl * (1 / (d + 1)) <= fl * (1 / d)) by (apply Rmult_le_compat_l; lra).
    assert (0 <= fl * (1 / (d + 1))) by (apply Rmult_le_pos; lra). lra.
  Qed.
End Bound.

(** ** FTML *)
(** The objective whose minimiser FTML follows: the regularised sum of the past
    linearised losses, discounted by b1 (Zheng and Kwok, 2017, equation 7). *)
Section Ftml.
  Variables (mx eps b1 b2 : R).
  Hypothesis B1 : 0 <= b1 < 1.
  Hypothesis B2 : 0 <= b2 < 1.
  Hypothesis EP : 0 < eps.
  Notation N := (RNum mx).
  Variable x0 : R.
  Notation up := (ftml_up (N := N) pow eps b1 b2).
  Notation init := (ftml_init (N := N) 0).
  Notation xs l := (snd (run (N := N) up init x0 l)).

  Notation fd := (ftml_d eps b1 b2).
  Notation leader := (ftml_leader_obj eps b1 b2).
  Definition fprev (l : list (R * R)) : R := match rev l with [] => 0 | (h, _) :: _ => fd l h end.

  Lemma ftml_state : forall l : list (R * R),
    let s := fst (run (N := N) up init x0 l) in
    t_t s = length l /\ t_v s = M2 b2 l /\ t_d s = fprev l /\
    (exists c, forall y, leader (fun l => xs l) (rev l) y = t_z s * y + t_d s / 2 * (y * y) + c) /\
    (l <> [] -> xs l = - t_z s / t_d s).
  Proof.
    induction l as [|[h g] l IH] using rev_ind.
    { cbn. split; [reflexivity|split; [reflexivity|split; [reflexivity|split; [|congruence]]]].
      exists 0. intros. lra. }
    cbv zeta in *. destruct IH as (T1 & V & D & (c & Z) & _). rewrite run_snoc.
    set (s := fst (run (N := N) up init x0 l)) in *. set (y0 := snd (run (N := N) up init x0 l)) in *.
    assert (T' : t_t (fst (up s y0 h g)) = @length (R * R) (l ++ [(h, g)]))
      by (rewrite app_length; cbn [length]; rewrite Nat.add_1_r, <- T1; reflexivity).
    assert (V' : t_v (fst (up s y0 h g)) = M2 b2 (l ++ [(h, g)])) by (rewrite M2_snoc, <- V; reflexivity).
    assert (D' : t_d (fst (up s y0 h g)) = fd (l ++ [(h, g)]) h).
    { unfold ftml_d, corr. rewrite <- T', <- V'. reflexivity. }
    assert (P : fprev (l ++ [(h, g)]) = fd (l ++ [(h, g)]) h)
      by (unfold fprev; rewrite rev_app_distr; reflexivity).
    split; [exact T'|split; [exact V'|split; [rewrite P; exact D'|split; [|intros _; reflexivity]]]].
    set (d := fd (l ++ [(h, g)]) h) in *.
    assert (Z' : t_z (fst (up s y0 h g)) = t_z s * b1 + ((1 - b1) * g - ((- b1) * t_d s + d) * y0)).
    { rewrite <- D'. reflexivity. }
    rewrite D', Z'. rewrite rev_app_distr. cbn [rev app ftml_leader_obj]. rewrite rev_involutive.
    assert (DP : (match rev l with [] => 0 | (hp, _) :: _ => fd l hp end) = t_d s) by (rewrite D; reflexivity).
    fold d.
    exists (b1 * c + (d - b1 * t_d s) / 2 * (y0 * y0)). intros y. rewrite Z. 
    replace (match rev l with [] => 0 | (hp, _) :: _ => fd l hp end) with (t_d s) by (rewrite D; reflexivity).
    change (snd (run (N := N) up init x0 l)) with y0. unfold sq.
    generalize (t_z s), (t_d s), y0. intros zz dd yy. eqR. field.
  Qed.

  Lemma ftml_leader : forall (l : list (R * R)) (h g : R), 0 < h ->
    let H := l ++ [(h, g)] in
    forall y, leader (fun l => xs l) (rev H) (xs H) <= leader (fun l => xs l) (rev H) y.
  Proof.
    intros l h g P H y. destruct (ftml_state H) as (_ & _ & D & (c & Z) & X). cbv zeta in *.
    rewrite !Z. specialize (X (snoc_ne l _)).
    assert (DP : 0 < t_d (fst (run (N := N) up init x0 H))).
    { rewrite D. unfold fprev, H. rewrite rev_app_distr. cbn [rev app]. fold H. unfold ftml_d.
      assert (C : 0 < corr b1 H) by (apply corr_pos; [auto|apply snoc_ne]).
      apply Rmult_lt_0_compat; [apply Rdiv_lt_0_compat; lra|apply sum_pos; auto]. }
    set (z := t_z (fst (run (N := N) up init x0 H))) in *. set (d := t_d (fst (run (N := N) up init x0 H))) in *.
    change (RNum mx : Type) with R in z, d. set (w := xs H) in *. change (RNum mx : Type) with R in w.
    assert (E : z = - (d * w)) by (rewrite X; field; lra).
    clearbody z d w. subst z. change R in d, w. 
    assert (0 <= d / 2 * ((y - w) * (y - w))) by (apply Rmult_le_pos; [lra|apply Rle_0_sqr]).
    lra.
  Qed.
End Ftml.

(** ** Demon *)
Lemma demon_beta_R : forall mx b (n t : nat), (0 < n)%nat ->
  demon_beta (N := RNum mx) b n t = b * (1 - INR t / INR n) / ((1 - b) + b * (1 - INR t / INR n)).
Proof.
  intros mx b n t P. unfold demon_beta, nofnat. cbn -[IZR Z.of_nat INR Nat.ltb].
  rewrite <- !INR_IZR_INZ. destruct (Nat.ltb_spec 0 t) as [L|L]; [reflexivity|].
  replace t with 0%nat by lia. replace (1 - INR 0 / INR n) with 1; [reflexivity|].
  simpl INR. field. apply not_0_INR. lia.
Qed.

Lemma demon_range : forall mx b (n : nat), (0 < n)%nat -> 0 <= b < 1 ->
  let beta := demon_beta (N := RNum mx) b n in
  beta 0%nat = b /\ beta n = 0 /\
  (forall t, (t <= n)%nat -> 0 <= beta t <= b) /\
  (forall t, (t < n)%nat -> beta (S t) <= beta t).
Proof.
  intros mx b n P B beta.
  assert (NP : 0 < INR n) by (apply lt_0_INR; auto).
  assert (M : forall u v, 0 <= u <= v -> v <= 1 -> b * u / ((1 - b) + b * u) <= b * v / ((1 - b) + b * v)).
  { intros u v U V. assert (0 <= b * u) by (apply Rmult_le_pos; lra). assert (0 <= b * v) by (apply Rmult_le_pos; lra).
    apply (Rmult_le_reg_r ((1 - b) + b * u)); [lra|]. unfold Rdiv at 1. rewrite Rmult_assoc, Rinv_l by lra.
    apply (Rmult_le_reg_r ((1 - b) + b * v)); [lra|].
    replace (b * v / (1 - b + b * v) * (1 - b + b * u) * (1 - b + b * v)) with (b * v * (1 - b + b * u)) by (field; lra).
    assert (b * u <= b * v) by (apply Rmult_le_compat_l; lra). nra. }
  assert (FR : forall t, (t <= n)%nat -> 0 <= 1 - INR t / INR n <= 1).
  { intros t L. apply le_INR in L. pose proof (pos_INR t).
    assert (INR t / INR n <= 1).
    { apply (Rmult_le_reg_r (INR n)); [auto|]. unfold Rdiv. rewrite Rmult_assoc, Rinv_l by lra. lra. }
    assert (0 <= INR t / INR n) by (apply Rmult_le_pos; [lra|left; apply Rinv_0_lt_compat; auto]). lra. }
  unfold beta. split; [|split; [|split]].
  - unfold demon_beta. cbn. field. lra.
  - rewrite demon_beta_R by auto. eqR. replace (1 - INR n / INR n) with 0 by (field; lra). field. lra.
  - intros t L. rewrite demon_beta_R by auto. specialize (FR t L). split.
    + assert (0 <= b * (1 - INR t / INR n)) by (apply Rmult_le_pos; lra).
      apply Rmult_le_pos; [auto|left; apply Rinv_0_lt_compat; lra].
    + eapply Rle_trans; [apply (M _ 1)|]; try lra. right. field. lra.
  - intros t L. rewrite !demon_beta_R by auto.
    pose proof (FR t ltac:(lia)). pose proof (FR (S t) ltac:(lia)).
    apply M; [|lra]. split; [lra|].
    apply Rplus_le_compat_l, Ropp_le_contravar. apply Rmult_le_compat_r; [left; apply Rinv_0_lt_compat; auto|].
    apply le_INR. lia.
Qed.
