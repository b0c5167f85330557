(** C09: gradient clipping. *)
From Coq Require Import List Arith ZArith Bool Reals.
From Verif.Base Require Import Num Instances.
From Verif.Model Require Import Callbacks.
From Verif.Spec Require Import CallbacksSpec.
From Verif.Proof Require Import CallbacksProof.
Import ListNotations.

(** Clipping by value (callback GradClipByValue and update policy GradientClipping):
    every entry ends up in [lo, hi], entries already inside are unchanged, nothing
    else changes; lo > hi is rejected. *)
Theorem C09_clip_by_value :
  forall (N : Num), OrdLaws N -> forall (lo hi : N) (g : list N),
  nisnan lo = false -> nisnan hi = false -> (forall v, In v g -> nisnan v = false) ->
  (nlt hi lo = true -> grad_clip_by_value lo hi g = None) /\
  (nlt hi lo = false -> exists g', grad_clip_by_value lo hi g = Some g' /\ length g' = length g /\
     forall k v, nth_error g k = Some v -> exists v', nth_error g' k = Some v' /\
       nle lo v' = true /\ nle v' hi = true /\
       (nle lo v = true -> nle v hi = true -> v' = v) /\
       (nlt v lo = true -> v' = lo) /\ (nlt v lo = false -> nlt hi v = true -> v' = hi)).
Proof. exact @clip_by_value. Qed.
Print Assumptions C09_clip_by_value.

(** The GradientClipping policy hands exactly that gradient to the policy it wraps. *)
Theorem C09_gradient_clipping_policy :
  forall (N : Num) (U : Type) (lo hi : N) inner (u : U) x step g,
  gradient_clipping_update lo hi inner u x step g =
  option_map (inner u x step) (grad_clip_by_value lo hi g).
Proof. intros. unfold gradient_clipping_update, grad_clip_by_value. destruct (clamp lo hi g); reflexivity. Qed.
Print Assumptions C09_gradient_clipping_policy.

(** Clipping by norm, in exact arithmetic and for every absolutely homogeneous
    norm: the result has norm at most [m], is a multiple of the gradient by a
    factor in [0,1], and is the gradient itself if that was short enough. *)
Theorem C09_clip_by_norm :
  forall (mx : R) (norm : list R -> R),
  (forall a g, norm (map (Rmult a) g) = Rabs a * norm g)%R ->
  forall (m : R) (g : list R), (0 <= m)%R ->
  (norm (grad_clip_by_norm (N := RNum mx) norm m g) <= m)%R /\
  (norm g <= m -> grad_clip_by_norm (N := RNum mx) norm m g = g)%R /\
  (exists a, 0 <= a <= 1 /\ grad_clip_by_norm (N := RNum mx) norm m g = map (Rmult a) g)%R.
Proof. intros. apply clip_norm; assumption. Qed.
Print Assumptions C09_clip_by_norm.

(** The Euclidean norm of a vector (arma::norm of a vector) qualifies. *)
Theorem C09_euclid_homogeneous :
  forall (mx : R) a (g : list R),
  (euclid (N := RNum mx) (map (Rmult a) g) = Rabs a * euclid (N := RNum mx) g)%R.
Proof. exact euclid_hom. Qed.
Print Assumptions C09_euclid_homogeneous.

Example C09_example :
  grad_clip_by_value (N := ZNum) (-3)%Z 5%Z [7; -9; 0; 5; 4]%Z = Some [5; -3; 0; 5; 4]%Z.
Proof. reflexivity. Qed.
