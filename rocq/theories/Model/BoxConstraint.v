(** Model of ens::BoundaryBoxConstraint::Transform, over the reals (rounding is not
    modelled).
    File: /repo/include/ensmallen_bits/cmaes/transformation_policies/boundary_box_constraint.hpp. *)
From Coq Require Import Reals List ZArith Bool.
Import ListNotations.
Local Open Scope R_scope.

(** (int)(v): truncation; undefined behaviour if it does not fit (None) *)
Definition to_int (v : R) : option Z :=
  let z := if Rle_dec 0 v then Int_part v else (- Int_part (- v))%Z in
  if ((- 2 ^ 31 <=? z) && (z <? 2 ^ 31))%Z then Some z else None.

Definition half_width (lb ub : R) : R := (ub - lb) / 2.                                  (* 90 *)
Definition margin (lb ub b : R) : R := Rmin (half_width lb ub) ((1 + Rabs b) / 20).       (* 91-92 *)

(** one coordinate, 90-128 *)
Definition transform1 (lb ub y : R) : option R :=
  let diff := half_width lb ub in
  let al := margin lb ub lb in
  let au := margin lb ub ub in
  let xlow := lb - 2 * al - diff in
  let xup := ub + 2 * au + diff in
  let r := 2 * (2 * diff + al + au) in
  match (if Rlt_dec y xlow then match to_int ((xlow - y) / r) with Some k => Some (y + r * (1 + IZR k)) | None => None end
         else Some y) with
  | None => None
  | Some y1 =>
      match (if Rlt_dec xup y1 then match to_int ((y1 - xup) / r) with Some k => Some (y1 - r * (1 + IZR k)) | None => None end
             else Some y1) with
      | None => None
      | Some y2 =>
          let y3 := if Rlt_dec y2 (lb - al) then y2 + 2 * (lb - al - y2) else y2 in
          let y4 := if Rlt_dec (ub + au) y3 then y3 - 2 * (y3 - ub - au) else y3 in
          Some (if Rlt_dec y4 (lb + al) then lb + (y4 - (lb - al)) * (y4 - (lb - al)) / 4 / al
                else if Rlt_dec (ub - au) y4 then ub - (y4 - (ub + au)) * (y4 - (ub + au)) / 4 / au
                else y4)
      end
  end.

(** 83-130 for a column vector: coordinate i uses the bounds at min(i, n - 1), where n is
    the length of the lower bound (also for the upper bound).  None: undefined
    behaviour or an index out of bounds. *)
Fixpoint transform_from (lower upper : list R) (i : nat) (x : list R) : option (list R) :=
  match x with
  | [] => Some []
  | y :: r =>
      let b := if (i <? length lower)%nat then i else (length lower - 1)%nat in
      match nth_error lower b, nth_error upper b with
      | Some l, Some u =>
          match transform1 l u y, transform_from lower upper (S i) r with
          | Some z, Some zs => Some (z :: zs)
          | _, _ => None
          end
      | _, _ => None
      end
  end.
Definition box_transform (lower upper x : list R) : option (list R) := transform_from lower upper 0 x.

(** 137-138 (bounds of equal size) *)
Definition initial_step_size (lower upper : list R) : option R :=
  match combine upper lower with
  | [] => None
  | (u, l) :: r => Some (3 / 10 * fold_left (fun m p => Rmin m (fst p - snd p)) r (u - l))
  end.
