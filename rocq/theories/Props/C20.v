(** C20: the box constraints of BoundaryBoxConstraint. *)
From Coq Require Import Reals List ZArith Lra Lia.
From Verif.Model Require Import BoxConstraint.
From Verif.Proof Require Import BoxProof.
Import ListNotations.
Local Open Scope R_scope.

(** Every coordinate of a transformed point lies between its bounds (coordinates
    beyond the length of the bounds use the last ones). *)
Theorem C20_in_box : forall lower upper x zs,
  (forall b l u, nth_error lower b = Some l -> nth_error upper b = Some u -> l < u) ->
  box_transform lower upper x = Some zs ->
  length zs = length x /\
  forall j z, nth_error zs j = Some z ->
    exists l u, nth_error lower (Nat.min j (length lower - 1)) = Some l /\
                nth_error upper (Nat.min j (length lower - 1)) = Some u /\ l <= z <= u.
Proof. intros lower upper x zs H E. exact (transform_from_ok lower upper x 0 zs H E). Qed.
Print Assumptions C20_in_box.

(** Between the margins (at most a twentieth of 1 + |bound| wide, and at most half
    the box) a coordinate is unchanged. *)
Theorem C20_identity_inside : forall lb ub y, lb < ub ->
  lb + Rmin ((ub - lb) / 2) ((1 + Rabs lb) / 20) <= y <= ub - Rmin ((ub - lb) / 2) ((1 + Rabs ub) / 20) ->
  transform1 lb ub y = Some y.
Proof. intros lb ub y H. exact (transform1_identity lb ub H y). Qed.
Print Assumptions C20_identity_inside.

(** Within the box and its margins the transformation is non-decreasing and does not
    expand distances, so it is continuous, also where the margins begin. *)
Theorem C20_continuous : forall lb ub s t, lb < ub ->
  lb - Rmin ((ub - lb) / 2) ((1 + Rabs lb) / 20) <= s -> s <= t -> t <= ub + Rmin ((ub - lb) / 2) ((1 + Rabs ub) / 20) ->
  exists zs zt, transform1 lb ub s = Some zs /\ transform1 lb ub t = Some zt /\ 0 <= zt - zs <= t - s.
Proof.
  intros lb ub s t H S ST T. exists (core lb ub s), (core lb ub t).
  change (Rmin ((ub - lb) / 2) ((1 + Rabs lb) / 20)) with (margin lb ub lb) in S.
  change (Rmin ((ub - lb) / 2) ((1 + Rabs ub) / 20)) with (margin lb ub ub) in T.
  split; [apply transform1_core; auto; lra|]. split; [apply transform1_core; auto; lra|]. apply core_gap; auto; lra.
Qed.
Print Assumptions C20_continuous.

(** The transformation is defined within 2^31 box widths of the centre of the box. *)
Theorem C20_defined : forall lb ub y, lb < ub -> Rabs (y - (lb + ub) / 2) < 2 ^ 31 * (ub - lb) ->
  exists z, transform1 lb ub y = Some z.
Proof. intros lb ub y H. exact (transform1_defined lb ub H y). Qed.
Print Assumptions C20_defined.

(** Far outside the number of periods does not fit an int, which is undefined
    behaviour; so "defined for every point" is false. *)
Theorem C20_defined_everywhere_refuted : transform1 0 1 1e12 = None.
Proof.
  unfold transform1, margin, half_width. rewrite Rabs_R0, (Rabs_right 1) by lra.
  rewrite !Rmin_right by lra.
  match goal with |- context [Rlt_dec 1e12 ?x] => destruct (Rlt_dec 1e12 x); [lra|] end.
  match goal with |- context [Rlt_dec ?x 1e12] => destruct (Rlt_dec x 1e12); [|lra] end.
  replace (2 * (2 * ((1 - 0) / 2) + (1 + 0) / 20 + (1 + 1) / 20)) with (23 / 10) by lra.
  match goal with |- context [to_int ?t] => set (v := t) end.
  assert (V : IZR (2 ^ 31) + 1 < v) by (unfold v; change (IZR (2 ^ 31)) with 2147483648; lra).
  unfold to_int. destruct (Rle_dec 0 v); [|lra]. pose proof (base_Int_part v) as [B1 B2].
  assert (A : (2 ^ 31 < Int_part v)%Z) by (apply lt_IZR; lra).
  replace (Int_part v <? 2 ^ 31)%Z with false by (symmetry; apply Z.ltb_ge; lia). rewrite Bool.andb_false_r. reflexivity.
Qed.
Print Assumptions C20_defined_everywhere_refuted.

(** A scalar lower bound with a vector upper bound: only the first upper bound is
    used, so the others can be violated. *)
Theorem C20_mixed_bounds_refuted :
  exists x z, box_transform [0] [4; 1] [2; x] = Some [2; z] /\ 1 < z.
Proof.
  exists 2, 2. split; [|lra]. unfold box_transform, transform_from. cbn [length Nat.ltb Nat.leb Nat.sub nth_error].
  rewrite (transform1_identity 0 4); [reflexivity|lra|]. unfold margin, half_width.
  rewrite Rabs_R0, (Rabs_right 4) by lra. rewrite !Rmin_right by lra. lra.
Qed.
Print Assumptions C20_mixed_bounds_refuted.

(** The bounds of a three-dimensional box, a point outside it in one coordinate. *)
Example C20_run : exists z, box_transform [0; 0] [4; 1] [2; -1/20; 1/2] = Some [2; z; 1/2] /\ z = 0.
Proof.
  exists 0. split; [|reflexivity]. unfold box_transform, transform_from. cbn [length Nat.ltb Nat.leb Nat.sub nth_error].
  rewrite (transform1_identity 0 4 ltac:(lra) 2), (transform1_identity 0 1 ltac:(lra) (1 / 2)), (transform1_core 0 1 ltac:(lra) (-1 / 20)).
  1: { unfold core, margin, half_width. rewrite Rabs_R0, (Rabs_right 1) by lra. rewrite !Rmin_right by lra.
    destruct (Rlt_dec _ _); [|lra]. replace (-1 / 20 - (0 - (1 + 0) / 20)) with 0 by lra.
    do 3 f_equal. unfold Rdiv. ring. }
  all: unfold margin, half_width; rewrite ?Rabs_R0, ?(Rabs_right 1), ?(Rabs_right 4) by lra; rewrite !Rmin_right by lra; lra.
Qed.
