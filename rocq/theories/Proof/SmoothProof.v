(** Smooth and convex functions of several real variables. *)
From Coq Require Import List Arith Reals Lra Lia.
From Verif.Base Require Import Num Vec.
From Verif.Spec Require Import Gradient FWSpec ConvergeSpec.
From Verif.Proof Require Import GradientProof.
Import ListNotations.
Local Open Scope R_scope.

(** ** Vectors *)
Lemma sqdist_nonneg : forall a b, 0 <= sqdist a b.
Proof. induction a as [|x a IH]; intros [|y b]; cbn; try lra. pose proof (Rle_0_sqr (x - y)) as S. unfold Rsqr in S. specialize (IH b). lra. Qed.
Lemma sqn_nonneg : forall a, 0 <= sqn a.
Proof. unfold sqn. induction a as [|x a IH]; cbn; [lra|]. pose proof (Rle_0_sqr x) as S. unfold Rsqr in S. lra. Qed.
Lemma sqdist_sym : forall a b, sqdist a b = sqdist b a.
Proof. induction a as [|x a IH]; intros [|y b]; cbn; try reflexivity. rewrite IH. lra. Qed.
Lemma sqdist_0 : forall a, sqdist a a = 0.
Proof. induction a as [|x a IH]; cbn; [reflexivity|]. rewrite IH. lra. Qed.
Lemma sqdist_eq : forall a b, length a = length b -> sqdist a b = sqn a - 2 * dotR a b + sqn b.
Proof. unfold sqn. induction a as [|x a IH]; intros [|y b] E; try discriminate; cbn; [lra|]. rewrite IH by (cbn in E; lia). unfold sqn. lra. Qed.

Fixpoint diff (a b : list R) : list R := match a, b with x :: a', y :: b' => (x - y) :: diff a' b' | _, _ => [] end.
Lemma diff_length : forall a b, length a = length b -> length (diff a b) = length a.
Proof. induction a as [|x a IH]; intros [|y b] E; try discriminate; cbn; [reflexivity|]. rewrite IH; cbn in E; lia. Qed.
Lemma dot_diff : forall g a b, length a = length b -> dotR g (diff a b) = dotR g a - dotR g b.
Proof. induction g as [|z g IH]; intros [|x a] [|y b] E; try discriminate; cbn; try lra. rewrite IH by (cbn in E; lia). lra. Qed.
Lemma sqn_diff : forall a b, sqn (diff a b) = sqdist a b.
Proof. unfold sqn. induction a as [|x a IH]; intros [|y b]; cbn; try reflexivity. rewrite IH. reflexivity. Qed.
Lemma along_length : forall x d t, length d = length x -> length (along x d t) = length x.
Proof. induction x as [|a x IH]; intros [|b d] t E; try discriminate; cbn; [reflexivity|]. rewrite IH; cbn in E; lia. Qed.
Lemma along_1 : forall x y, length y = length x -> along x (diff y x) 1 = y.
Proof. induction x as [|a x IH]; intros [|b y] E; try discriminate; cbn; [reflexivity|]. rewrite IH by (cbn in E; lia). f_equal. lra. Qed.
Lemma along_segment t : forall x y, length y = length x -> along x (diff y x) t = segment_pt t x y.
Proof. unfold segment_pt. induction x as [|a x IH]; intros [|b y] E; try discriminate; cbn; [reflexivity|]. rewrite IH by (cbn in E; lia). f_equal. lra. Qed.
Lemma along_along : forall x d s t, length d = length x -> along (along x d s) d t = along x d (s + t).
Proof. induction x as [|a x IH]; intros [|b d] s t E; try discriminate; cbn; [reflexivity|]. rewrite IH by (cbn in E; lia). f_equal. lra. Qed.
Lemma sqdist_along : forall x d t, length d = length x -> sqdist (along x d t) x = t * t * sqn d.
Proof. unfold sqn. induction x as [|a x IH]; intros [|b d] t E; try discriminate; cbn; [lra|]. rewrite IH by (cbn in E; lia). unfold sqn. lra. Qed.

(** Cauchy-Schwarz in the form used: a.b <= (c |a|^2 + |b|^2 / c) / 2 *)
Lemma young : forall c a b, 0 < c -> dotR a b <= c / 2 * sqn a + / (2 * c) * sqn b.
Proof.
  intros c a b C. revert b. unfold sqn. induction a as [|x a IH]; intros [|y b]; cbn; try lra.
  - pose proof (sqn_nonneg (y :: b)) as S. unfold sqn in S. cbn in S. assert (0 < / (2 * c)) by (apply Rinv_0_lt_compat; lra). nra.
  - pose proof (sqn_nonneg (x :: a)) as S. unfold sqn in S. cbn in S. nra.
  - specialize (IH b). assert (E : x * y <= c / 2 * (x * x) + / (2 * c) * (y * y)).
    { assert (Q : 0 <= / (2 * c) * ((c * x - y) * (c * x - y))).
      { apply Rmult_le_pos; [apply Rlt_le, Rinv_0_lt_compat; lra|]. pose proof (Rle_0_sqr (c * x - y)) as S. unfold Rsqr in S. lra. }
      replace (/ (2 * c) * ((c * x - y) * (c * x - y))) with (c / 2 * (x * x) - x * y + / (2 * c) * (y * y)) in Q by (field; lra). lra. }
    lra.
Qed.
Lemma cauchy : forall M a b, 0 <= M -> sqn a <= M * M * sqn b -> dotR a b <= M * sqn b.
Proof.
  intros M a b HM H. destruct (Req_dec M 0) as [->|NZ].
  - assert (A : sqn a = 0) by (pose proof (sqn_nonneg a); lra).
    (* a = 0 *) assert (Z : forall a b, sqn a = 0 -> dotR a b = 0).
    { clear. intros a. induction a as [|x a IH]; intros [|y b]; unfold sqn; cbn; intros E; try reflexivity.
      pose proof (sqn_nonneg a) as S. unfold sqn in S. pose proof (Rle_0_sqr x) as Sx. unfold Rsqr in Sx.
      assert (x = 0) by nra. subst x. rewrite IH; [lra|]. unfold sqn. lra. }
    rewrite (Z a b A). lra.
  - assert (P : 0 < M) by lra. pose proof (young (/ M) a b (Rinv_0_lt_compat _ P)) as Y.
    replace (/ (2 * / M)) with (M / 2) in Y by (field; lra).
    assert (/ M / 2 * sqn a <= M / 2 * sqn b).
    { apply Rle_trans with (/ M / 2 * (M * M * sqn b)); [|right; field; lra].
      apply Rmult_le_compat_l; [|exact H]. apply Rlt_le. unfold Rdiv. apply Rmult_lt_0_compat; [apply Rinv_0_lt_compat; exact P|lra]. }
    lra.
Qed.

Lemma lin_derivable c t : derivable_pt_lim (fun t => t * c) t c.
Proof.
  pose proof (derivable_pt_lim_mult (fun t => t) (fun _ => c) t 1 0 (derivable_pt_lim_id t) (derivable_pt_lim_const c t)) as H.
  cbn beta in H. replace (1 * c + t * 0) with c in H by lra. exact H.
Qed.

(** ** Along a line *)
Section Line.
  Variables (n : nat) (K : list R -> Prop) (f : list R -> R) (grad : list R -> list R).
  Hypothesis CK : convex_set n K.

  Lemma K_len x : K x -> length x = n. Proof. apply CK. Qed.
  Lemma K_along x y t : K x -> K y -> 0 <= t <= 1 -> K (along x (diff y x) t).
  Proof. intros Kx Ky Ht. rewrite along_segment by (rewrite (K_len x), (K_len y); auto). apply CK; assumption. Qed.

  Lemma line_derivable x d s g : length d = length x -> gradient_at f (along x d s) g ->
    derivable_pt_lim (fun t => f (along x d t)) s (dotR g d).
  Proof.
    intros E [_ H] eps P. destruct (H d) with (eps := eps) as [del D]; [rewrite along_length by exact E; exact E|exact P|].
    exists del. intros h H1 H2. specialize (D h H1 H2). rewrite !along_along in D by exact E.
    rewrite Rplus_0_l in D. rewrite !Rplus_0_r in D. exact D.
  Qed.

  (** the quadratic upper bound of a smooth function *)
  Lemma descent_lemma L x y : 0 <= L -> smooth_on K L f grad -> K x -> K y ->
    f y <= f x + (dotR (grad x) y - dotR (grad x) x) + L / 2 * sqdist y x.
  Proof.
    intros HL [GR LIP] Kx Ky. pose proof (K_len x Kx) as Lx. pose proof (K_len y Ky) as Ly.
    set (d := diff y x). assert (Ld : length d = length x) by (unfold d; rewrite diff_length; lia).
    set (phi := fun t => f (along x d t) - (t * dotR (grad x) d + L / 2 * sqn d * (t * t))).
    set (phi' := fun t => dotR (grad (along x d t)) d - (dotR (grad x) d + L * sqn d * t)).
    assert (DER : forall t, 0 <= t <= 1 -> derivable_pt_lim phi t (phi' t)).
    { intros t Ht. unfold phi, phi'. apply derivable_pt_lim_minus.
      - apply line_derivable; [exact Ld|]. apply GR. apply K_along; assumption.
      - apply derivable_pt_lim_plus.
        + apply lin_derivable.
        + replace (L * sqn d * t) with (L / 2 * sqn d * (1 * t + t * 1)) by lra.
          apply derivable_pt_lim_scal. apply (derivable_pt_lim_mult (fun t => t) (fun t => t)); apply derivable_pt_lim_id. }
    assert (NEG : forall t, 0 <= t <= 1 -> phi' t <= 0).
    { intros t Ht. unfold phi'. pose proof (K_along x y t Kx Ky Ht) as Kt. fold d in Kt.
      destruct (GR _ Kt) as [Lg _]. destruct (GR _ Kx) as [Lg0 _]. rewrite along_length in Lg by exact Ld.
      assert (C : dotR (diff (grad (along x d t)) (grad x)) d <= L * t * sqn d).
      { apply cauchy; [nra|]. rewrite sqn_diff. eapply Rle_trans; [apply LIP; assumption|]. rewrite sqdist_along by exact Ld.
        right. ring. }
      rewrite dotR_comm, dot_diff, !(dotR_comm d) in C by lia. lra. }
    destruct (MVT_cor2 phi phi' 0 1) as (c & E & Hc); [lra|intros; apply DER; assumption|].
    assert (N := NEG c ltac:(lra)). unfold phi in E. replace (phi' c * (1 - 0)) with (phi' c) in E by lra.
    rewrite along_0 in E by exact Ld. unfold d at 1 in E. rewrite along_1 in E by lia.
    unfold d in E at 1 2. fold d in E. rewrite <- (sqn_diff y x). fold d.
    assert (DD : dotR (grad x) d = dotR (grad x) y - dotR (grad x) x) by (unfold d; apply dot_diff; lia).
    rewrite DD in E. lra.
  Qed.

  (** a convex function is above its tangents *)
  Lemma tangent_lemma x g y : convex_on K f -> gradient_at f x g -> K x -> K y -> f y >= f x + (dotR g y - dotR g x).
  Proof.
    intros CV [Lg H] Kx Ky. pose proof (K_len x Kx) as Lx. pose proof (K_len y Ky) as Ly.
    set (d := diff y x). assert (Ld : length d = length x) by (unfold d; rewrite diff_length; lia).
    assert (DD : dotR g d = dotR g y - dotR g x) by (unfold d; apply dot_diff; lia). rewrite <- DD.
    apply Rle_ge. apply Rnot_lt_le. intros BAD.
    destruct (H d Ld (f x + dotR g d - f y)) as [del D]; [lra|]. pose proof (cond_pos del) as PD.
    set (t := Rmin (del / 2) 1). assert (T0 : 0 < t <= 1) by (unfold t, Rmin; destruct (Rle_dec (del / 2) 1); lra).
    assert (T1 : t < del) by (unfold t, Rmin; destruct (Rle_dec (del / 2) 1); lra).
    specialize (D t). rewrite Rplus_0_l, along_0 in D by exact Ld.
    assert (D' := D ltac:(lra) ltac:(rewrite Rabs_right; lra)).
    apply Rabs_def2 in D' as [_ D']. assert (AS : along x d t = segment_pt t x y) by (unfold d; apply along_segment; lia). rewrite AS in D'.
    pose proof (CV t x y ltac:(lra) Kx Ky) as C.
    assert (Q : (f (segment_pt t x y) - f x) / t <= f y - f x).
    { apply Rmult_le_reg_r with t; [lra|]. unfold Rdiv. rewrite Rmult_assoc, Rinv_l by lra. lra. }
    lra.
  Qed.
  Lemma gradient_sqn (mu : R) x : gradient_at (fun x => mu / 2 * sqn x) x (map (Rmult mu) x).
  Proof.
    split; [apply map_length|]. intros d E.
    assert (EQ : forall t, mu / 2 * sqn (along x d t) = mu / 2 * (sqn x + 2 * (t * dotR x d) + t * t * sqn d)).
    { intros t. f_equal. clear -E. revert d E. unfold sqn. induction x as [|a x IH]; intros [|b d] E; try discriminate; cbn; [lra|].
      rewrite IH by (cbn in E; lia). lra. }
    assert (DM : dotR (map (Rmult mu) x) d = mu * dotR x d).
    { clear. revert d. induction x as [|a x IH]; intros [|b d]; cbn; try lra. rewrite IH. lra. }
    rewrite DM. intros eps P.
    assert (DL : derivable_pt_lim (fun t => mu / 2 * (sqn x + 2 * (t * dotR x d) + t * t * sqn d)) 0 (mu * dotR x d)).
    { replace (mu * dotR x d) with (mu / 2 * (0 + 2 * (1 * dotR x d + 0 * 0) + ((1 * 0 + 0 * 1) * sqn d + 0 * 0 * 0))) by lra.
      apply derivable_pt_lim_scal. apply derivable_pt_lim_plus; [apply derivable_pt_lim_plus|].
      - apply derivable_pt_lim_const.
      - apply derivable_pt_lim_scal. apply (derivable_pt_lim_mult (fun t => t) (fun _ => dotR x d)); [apply derivable_pt_lim_id|apply derivable_pt_lim_const].
      - apply (derivable_pt_lim_mult (fun t => t * t) (fun _ => sqn d)); [|apply derivable_pt_lim_const].
        apply (derivable_pt_lim_mult (fun t => t) (fun t => t)); apply derivable_pt_lim_id. }
    destruct (DL eps P) as [del D]. exists del. intros h H1 H2. rewrite !EQ. exact (D h H1 H2).
  Qed.
End Line.
Lemma strong_tangent n K f mu x g y : convex_set n K -> strongly_convex_on K mu f -> gradient_at f x g -> K x -> K y ->
  f y >= f x + (dotR g y - dotR g x) + mu / 2 * sqdist y x.
Proof.
  intros CK SC [Lg G] Kx Ky. pose proof (proj1 CK _ Kx) as Lx. pose proof (proj1 CK _ Ky) as Ly.
  destruct (gradient_sqn mu x) as [Lq Q].
  assert (GA : gradient_at (fun x => f x - mu / 2 * sqn x) x (diff g (map (Rmult mu) x))).
  { split; [rewrite diff_length; lia|]. intros d E.
    replace (dotR (diff g (map (Rmult mu) x)) d) with (dotR g d - dotR (map (Rmult mu) x) d).
    - apply derivable_pt_lim_minus; [apply G|apply Q]; exact E.
    - rewrite (dotR_comm (diff _ _)), dot_diff by lia. rewrite !(dotR_comm d). reflexivity. }
  pose proof (tangent_lemma n K _ CK x _ y SC GA Kx Ky) as T.
  rewrite !(dotR_comm (diff _ _)), !dot_diff in T by lia. rewrite !(dotR_comm _ (map _ _)), !(dotR_comm _ g) in T.
  assert (DM : forall d, dotR (map (Rmult mu) x) d = mu * dotR x d).
  { clear. induction x as [|a x IH]; intros [|b d]; cbn; try lra. rewrite IH. lra. }
  rewrite !DM in T. rewrite sqdist_eq by lia. unfold sqn in *. rewrite (dotR_comm y x). lra.
Qed.

Lemma space_convex n : convex_set n (space n).
Proof.
  split; [intros a H; exact H|]. intros t a b _ A B. unfold space, segment_pt in *. rewrite map2_length, A, B. apply Nat.min_id.
Qed.
