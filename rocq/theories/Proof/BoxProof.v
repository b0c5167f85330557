From Coq Require Import Reals List ZArith Lia Lra Psatz Bool.
From Verif.Model Require Import BoxConstraint.
Import ListNotations.
Local Open Scope R_scope.

Lemma to_int_pos : forall v z, 0 <= v -> to_int v = Some z -> IZR z <= v < IZR z + 1.
Proof.
  intros v z V E. unfold to_int in E. destruct (Rle_dec 0 v); [|lra].
  destruct (_ && _)%bool; [|discriminate]. injection E as <-. pose proof (base_Int_part v). lra.
Qed.
Lemma to_int_some : forall v, 0 <= v -> v < 2 ^ 31 -> exists z, to_int v = Some z.
Proof.
  intros v V H. unfold to_int. destruct (Rle_dec 0 v); [|lra]. pose proof (base_Int_part v) as [B1 B2].
  assert (A1 : (-1 < Int_part v)%Z) by (apply lt_IZR; lra).
  assert (A2 : (Int_part v < 2 ^ 31)%Z).
  { apply lt_IZR. replace (IZR (2 ^ 31)) with (2 ^ 31)%R; [lra|]. rewrite (pow_IZR 2 31). reflexivity. }
  destruct ((- 2 ^ 31 <=? Int_part v) && (Int_part v <? 2 ^ 31))%Z eqn:Q; [eauto|].
  apply andb_false_iff in Q as [Q|Q]; [apply Z.leb_gt in Q; lia|apply Z.ltb_ge in Q; lia].
Qed.

Section One.
  Variables lb ub : R.
  Hypothesis LU : lb < ub.
  Notation diff := (half_width lb ub).
  Notation al := (margin lb ub lb).
  Notation au := (margin lb ub ub).
  Notation xlow := (lb - 2 * al - diff).
  Notation xup := (ub + 2 * au + diff).
  Notation r := (2 * (2 * diff + al + au)).

  Lemma margin_bounds : forall b, 0 < margin lb ub b <= diff.
  Proof.
    intros b. unfold margin. split; [|apply Rmin_l]. apply Rmin_glb_lt; [unfold half_width; lra|].
    pose proof (Rabs_pos b). lra.
  Qed.
  Lemma diff_eq : 2 * diff = ub - lb.
  Proof. unfold half_width. lra. Qed.
  Lemma r_eq : xlow + r = xup.
  Proof. pose proof diff_eq. lra. Qed.

  (** the shift brings a point into [xlow, xup], moving it by a multiple of the period *)
  Lemma shift_low : forall y k, y < xlow -> to_int ((xlow - y) / r) = Some k ->
    xlow < y + r * (1 + IZR k) <= xup.
  Proof.
    intros y k Y E. pose proof (margin_bounds lb). pose proof (margin_bounds ub). pose proof diff_eq.
    assert (R0 : 0 < r) by lra. apply to_int_pos in E; [|apply Rlt_le; apply Rdiv_lt_0_compat; lra].
    set (q := (xlow - y) / r) in *. assert (Q : xlow - y = q * r) by (unfold q; field; lra). pose proof r_eq. nra.
  Qed.
  Lemma shift_high : forall y k, xup < y -> to_int ((y - xup) / r) = Some k ->
    xlow <= y - r * (1 + IZR k) < xup.
  Proof.
    intros y k Y E. pose proof (margin_bounds lb). pose proof (margin_bounds ub). pose proof diff_eq.
    assert (R0 : 0 < r) by lra. apply to_int_pos in E; [|apply Rlt_le; apply Rdiv_lt_0_compat; lra].
    set (q := (y - xup) / r) in *. assert (Q : y - xup = q * r) by (unfold q; field; lra). pose proof r_eq. nra.
  Qed.

  Theorem transform1_in_box : forall y z, transform1 lb ub y = Some z -> lb <= z <= ub.
  Proof.
    intros y z E. unfold transform1 in E.
    pose proof (margin_bounds lb) as ML. pose proof (margin_bounds ub) as MU. pose proof diff_eq as D.
    match type of E with match ?o with _ => _ end = _ => destruct o as [y1|] eqn:E1; [|discriminate] end.
    assert (Y1 : xlow <= y1 <= xup \/ xup < y1).
    { destruct (Rlt_dec y xlow) as [r0|r0].
      - destruct (to_int ((xlow - y) / r)) as [k|] eqn:K; [|discriminate]. injection E1 as <-. pose proof (shift_low y k r0 K). lra.
      - injection E1 as <-. lra. }
    clear E1.
    match type of E with match ?o with _ => _ end = _ => destruct o as [y2|] eqn:E2; [|discriminate] end.
    assert (Y2 : xlow <= y2 <= xup).
    { destruct (Rlt_dec xup y1) as [r0|r0].
      - destruct (to_int ((y1 - xup) / r)) as [k|] eqn:K; [|discriminate]. injection E2 as <-. pose proof (shift_high y1 k r0 K). lra.
      - injection E2 as <-. lra. }
    clear E2 Y1. cbn zeta in E.
    set (y3 := if Rlt_dec y2 (lb - al) then _ else _) in E.
    assert (Y3 : lb - al <= y3 <= xup) by (unfold y3; destruct (Rlt_dec y2 (lb - al)); lra).
    set (y4 := if Rlt_dec (ub + au) y3 then _ else _) in E.
    assert (Y4 : lb - al <= y4 <= ub + au) by (unfold y4; destruct (Rlt_dec (ub + au) y3); lra).
    injection E as <-. clearbody y4. clear y3 Y3.
    destruct (Rlt_dec y4 (lb + al)) as [Q|Q].
    - set (t := y4 - (lb - al)). assert (T : 0 <= t < 2 * al) by (unfold t; lra).
      assert (P : 0 <= t * t / 4 / al <= al).
      { split; [apply Rmult_le_pos; [|left; apply Rinv_0_lt_compat; lra]; nra|].
        apply (Rmult_le_reg_r al); [lra|]. replace (t * t / 4 / al * al) with (t * t / 4) by (field; lra). nra. }
      lra.
    - destruct (Rlt_dec (ub - au) y4) as [Q'|Q']; [|lra].
      set (t := y4 - (ub + au)). assert (T : - (2 * au) < t <= 0) by (unfold t; lra).
      assert (P : 0 <= t * t / 4 / au <= au).
      { split; [apply Rmult_le_pos; [|left; apply Rinv_0_lt_compat; lra]; nra|].
        apply (Rmult_le_reg_r au); [lra|]. replace (t * t / 4 / au * au) with (t * t / 4) by (field; lra). nra. }
      lra.
  Qed.

  (** identity between the margins *)
  Theorem transform1_identity : forall y, lb + al <= y <= ub - au -> transform1 lb ub y = Some y.
  Proof.
    intros y Y. unfold transform1. pose proof (margin_bounds lb). pose proof (margin_bounds ub). pose proof diff_eq.
    destruct (Rlt_dec y xlow); [lra|]. destruct (Rlt_dec xup y); [lra|]. cbn zeta.
    destruct (Rlt_dec y (lb - al)); [lra|]. destruct (Rlt_dec (ub + au) y); [lra|].
    destruct (Rlt_dec y (lb + al)); [lra|]. destruct (Rlt_dec (ub - au) y); [lra|]. reflexivity.
  Qed.

  (** it is defined as long as the number of periods fits an int *)
  Theorem transform1_defined : forall y, Rabs (y - (lb + ub) / 2) < 2 ^ 31 * (ub - lb) -> exists z, transform1 lb ub y = Some z.
  Proof.
    intros y Y. unfold transform1. pose proof (margin_bounds lb). pose proof (margin_bounds ub). pose proof diff_eq.
    assert (R0 : ub - lb < r) by lra.
    apply Rabs_def2 in Y as [Y1 Y2].
    assert (KEY : forall v, 0 < v < 2 ^ 31 * (ub - lb) -> exists k, to_int (v / r) = Some k).
    { intros v [V1 V2]. apply to_int_some; [apply Rlt_le; apply Rdiv_lt_0_compat; lra|].
      apply (Rmult_lt_reg_r r); [lra|]. replace (v / r * r) with v by (field; lra).
      apply Rlt_trans with (1 := V2). apply Rmult_lt_compat_l; [apply pow_lt; lra|exact R0]. }
    destruct (Rlt_dec y xlow) as [Q|Q].
    - destruct (KEY (xlow - y)) as (k & K); [lra|]. rewrite K.
      pose proof (shift_low y k Q K) as SL. destruct (Rlt_dec xup (y + r * (1 + IZR k))); [lra|]. eauto.
    - destruct (Rlt_dec xup y) as [Q'|Q']; [|eauto]. destruct (KEY (y - xup)) as (k & K); [lra|]. rewrite K. eauto.
  Qed.

  (** On [lb - al, ub + au] the transformation is non-decreasing and does not expand
      distances; in particular it has no jumps at the margins. *)
  Definition core (y : R) : R :=
    if Rlt_dec y (lb + al) then lb + (y - (lb - al)) * (y - (lb - al)) / 4 / al
    else if Rlt_dec (ub - au) y then ub - (y - (ub + au)) * (y - (ub + au)) / 4 / au
    else y.
  Lemma transform1_core : forall y, lb - al <= y <= ub + au -> transform1 lb ub y = Some (core y).
  Proof.
    intros y Y. unfold transform1. pose proof (margin_bounds lb). pose proof (margin_bounds ub). pose proof diff_eq.
    destruct (Rlt_dec y xlow); [lra|]. destruct (Rlt_dec xup y); [lra|]. cbn zeta.
    destruct (Rlt_dec y (lb - al)); [lra|]. destruct (Rlt_dec (ub + au) y); [lra|]. reflexivity.
  Qed.
  Lemma quad_gap : forall c a s t, 0 < a -> c - 2 * a <= s <= t -> t <= c -> (* (u - (c - 2a))^2 / 4a has slope in [0,1] on [c-2a, c] *)
    0 <= (t - (c - 2 * a)) * (t - (c - 2 * a)) / 4 / a - (s - (c - 2 * a)) * (s - (c - 2 * a)) / 4 / a <= t - s.
  Proof.
    intros c a s t A S T.
    replace ((t - (c - 2 * a)) * (t - (c - 2 * a)) / 4 / a - (s - (c - 2 * a)) * (s - (c - 2 * a)) / 4 / a)
      with ((t - s) * ((t + s - 2 * (c - 2 * a)) / (4 * a))) by (field; lra).
    assert (K : 0 <= (t + s - 2 * (c - 2 * a)) / (4 * a) <= 1).
    { split; [apply Rmult_le_pos; [lra|left; apply Rinv_0_lt_compat; lra]|].
      apply (Rmult_le_reg_r (4 * a)); [lra|]. replace ((t + s - 2 * (c - 2 * a)) / (4 * a) * (4 * a)) with (t + s - 2 * (c - 2 * a)) by (field; lra). lra. }
    nra.
  Qed.
  Lemma core_low : forall s t, lb - al <= s <= t -> t <= lb + al -> 0 <= core t - core s <= t - s.
  Proof.
    intros s t H1 H2. pose proof (margin_bounds lb) as ML. pose proof (margin_bounds ub) as MU. pose proof diff_eq as D.
    assert (F : forall u, u <= lb + al -> core u = lb + (u - (lb - al)) * (u - (lb - al)) / 4 / al).
    { intros u U. unfold core. destruct (Rlt_dec u (lb + al)); [reflexivity|]. assert (u = lb + al) by lra. subst u.
      destruct (Rlt_dec (ub - au) (lb + al)); [lra|]. field. lra. }
    rewrite !F by lra. pose proof (quad_gap (lb + al) al s t ltac:(lra) ltac:(lra) H2) as Q.
    replace (lb + al - 2 * al) with (lb - al) in Q by lra. lra.
  Qed.
  Lemma core_mid : forall s t, lb + al <= s <= t -> t <= ub - au -> 0 <= core t - core s <= t - s.
  Proof.
    intros s t H1 H2. assert (F : forall u, lb + al <= u <= ub - au -> core u = u).
    { intros u U. unfold core. destruct (Rlt_dec u (lb + al)); [lra|]. destruct (Rlt_dec (ub - au) u); [lra|]. reflexivity. }
    rewrite !F by lra. lra.
  Qed.
  Lemma core_high : forall s t, ub - au <= s <= t -> t <= ub + au -> 0 <= core t - core s <= t - s.
  Proof.
    intros s t H1 H2. pose proof (margin_bounds lb) as ML. pose proof (margin_bounds ub) as MU. pose proof diff_eq as D.
    assert (F : forall u, ub - au <= u -> core u = ub - (u - (ub + au)) * (u - (ub + au)) / 4 / au).
    { intros u U. unfold core. destruct (Rlt_dec u (lb + al)); [lra|]. destruct (Rlt_dec (ub - au) u); [reflexivity|].
      assert (u = ub - au) by lra. subst u. field. lra. }
    rewrite !F by lra.
    pose proof (quad_gap (- (ub - au)) au (- t) (- s) ltac:(lra) ltac:(lra) ltac:(lra)) as Q.
    replace ((- s - (- (ub - au) - 2 * au)) * (- s - (- (ub - au) - 2 * au))) with ((s - (ub + au)) * (s - (ub + au))) in Q by ring.
    replace ((- t - (- (ub - au) - 2 * au)) * (- t - (- (ub - au) - 2 * au))) with ((t - (ub + au)) * (t - (ub + au))) in Q by ring.
    lra.
  Qed.
  Theorem core_gap : forall s t, lb - al <= s <= t -> t <= ub + au -> 0 <= core t - core s <= t - s.
  Proof.
    intros s t H1 H2. pose proof (margin_bounds lb) as ML. pose proof (margin_bounds ub) as MU. pose proof diff_eq as D.
    destruct (Rle_dec t (lb + al)) as [A|A]; [apply core_low; lra|].
    destruct (Rle_dec (ub - au) s) as [B|B]; [apply core_high; lra|].
    assert (P1 : exists p, s <= p <= t /\ lb + al <= p <= ub - au /\ 0 <= core p - core s <= p - s).
    { destruct (Rle_dec s (lb + al)).
      - exists (lb + al). split; [lra|]. split; [lra|]. apply core_low; lra.
      - exists s. split; [lra|]. split; [lra|]. lra. }
    destruct P1 as (p & P1 & P2 & P3).
    destruct (Rle_dec t (ub - au)) as [C|C].
    - pose proof (core_mid p t ltac:(lra) C). lra.
    - pose proof (core_mid p (ub - au) ltac:(lra) ltac:(lra)). pose proof (core_high (ub - au) t ltac:(lra) ltac:(lra)). lra.
  Qed.
End One.

Lemma transform_from_ok : forall lower upper x i zs,
  (forall b l u, nth_error lower b = Some l -> nth_error upper b = Some u -> l < u) ->
  transform_from lower upper i x = Some zs ->
  length zs = length x /\
  forall j z, nth_error zs j = Some z ->
    exists l u, nth_error lower (Nat.min (i + j) (length lower - 1)) = Some l /\
                nth_error upper (Nat.min (i + j) (length lower - 1)) = Some u /\ l <= z <= u.
Proof.
  intros lower upper. induction x as [|y x IH]; intros i zs LU E; cbn [transform_from] in E.
  - injection E as <-. split; [reflexivity|]. intros [|j] z H; discriminate.
  - assert (BE : (if (i <? length lower)%nat then i else (length lower - 1)%nat) = Nat.min i (length lower - 1) \/ length lower = 0%nat).
    { destruct (Nat.ltb_spec i (length lower)); [left; lia|]. left. lia. }
    destruct BE as [BE|BE].
    2: { destruct lower; [|discriminate]. cbn in E. destruct (i <? 0)%nat; [destruct i; discriminate|]. discriminate. }
    rewrite BE in E. destruct (nth_error lower _) as [l|] eqn:EL; [|discriminate]. destruct (nth_error upper _) as [u|] eqn:EU; [|discriminate].
    destruct (transform1 l u y) as [z|] eqn:E1; [|discriminate].
    destruct (transform_from lower upper (S i) x) as [zr|] eqn:E2; [|discriminate]. injection E as <-.
    destruct (IH _ _ LU E2) as [L IHz]. split; [simpl; congruence|].
    intros [|j] z' Z; cbn in Z.
    + injection Z as <-. rewrite Nat.add_0_r. exists l, u. split; [exact EL|]. split; [exact EU|].
      eapply transform1_in_box; eauto.
    + replace (i + S j)%nat with (S i + j)%nat by lia. auto.
Qed.
