(** Balls of weighted p-norms over the reals. *)
From Coq Require Import List Arith Reals.
From Verif.Base Require Import Num Instances Vec.
From Verif.Model Require Import LpBall.
From Verif.Spec Require Import Gradient.
Import ListNotations.
Local Open Scope R_scope.

(** x^y for x >= 0, y > 0 *)
Definition powR (x y : R) : R := if Rlt_dec 0 x then Rpower x y else 0.
Fixpoint sumR (l : list R) : R := match l with [] => 0 | x :: r => x + sumR r end.
(** the unit ball: max |l_j y_j| <= 1, resp. sum |l_j y_j|^p <= 1 *)
Definition in_ball {mx : R} (p : lp (RNum mx)) (l y : list R) : Prop :=
  length y = length l /\
  match p with
  | PInf => forall i a b, nth_error l i = Some a -> nth_error y i = Some b -> Rabs (a * b) <= 1
  | PNum p => sumR (map2 (fun a b => powR (Rabs (a * b)) p) l y) <= 1
  end.
(** the regularisation weights; 1 if there are none *)
Definition weights (lambda : option (list R)) (v : list R) : list R :=
  match lambda with Some l => l | None => map (fun _ => 1) v end.

(** an atom of the group [ind]: zero outside the group, and inside it a point of the unit p-ball *)
Definition group_atom {mx : R} (p : lp (RNum mx)) (ind : list nat) (dim : nat) (a : list R) : Prop :=
  length a = dim /\ (forall i, ~ In i ind -> nth i a 0 = 0) /\
  in_ball p (map (fun _ => 1) ind) (map (fun i => nth i a 0) ind).
