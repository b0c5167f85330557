(** LovaszThetaSDP of problems/aug_lagrangian_test_functions.hpp and
    aug_lagrangian_test_functions_impl.hpp, in exact arithmetic, and the three problems that have
    an Evaluate but no Gradient.  A matrix is a function of row and column with its size beside it;
    [None] stands for the exception Armadillo raises (out of bounds, incompatible sizes, maximum of
    an empty matrix). *)
From Coq Require Import Arith Bool List Reals ZArith.
From Verif.Model Require Import Softmax.
Import ListNotations.
Local Open Scope R_scope.

(** aug_lagrangian_test_functions.hpp 113-150: the two rows of edges are kept as pairs *)
Record lovasz : Type := { lv_edges : list (nat * nat); lv_vertices : nat }.
(** constructor, impl 185-191 *)
Definition lv_construct (edges : list (nat * nat)) : option lovasz :=
  match edges with
  | [] => None
  | _ => Some {| lv_edges := edges;
                 lv_vertices := S (fold_right (fun e m => Nat.max (Nat.max (fst e) (snd e)) m) 0%nat edges) |}
  end.

(** trans(coordinates) * coordinates, dot(coordinates.col(i), coordinates.col(j)) *)
Definition gram (r : nat) (x : mat) : mat := fun i j => usum r (fun a => x a i * x a j).
(** Evaluate, impl 193-201 *)
Definition lv_evaluate (r c : nat) (x : mat) : R := - accu c c (gram r x).
(** NumConstraints, impl 253-257 *)
Definition lv_constraints (l : lovasz) : nat := S (length (lv_edges l)).

Definition eye : mat := fun i j => if (i =? j)%nat then 1 else 0.
(** the matrix a, impl 229-234 *)
Definition edge_matrix (e : nat * nat) : mat := fun i j =>
  if (((i =? fst e) && (j =? snd e)) || ((i =? snd e) && (j =? fst e)))%nat%bool then 1 else 0.
(** impl 219-220 *)
Definition inner_trace (n : nat) (x : mat) : R :=
  - 1 * INR n - / 2 * (accu n n (fun i j => x j i * x i j) - 1).
(** impl 236-237 *)
Definition inner_edge (r n : nat) (x : mat) (e : nat * nat) : R :=
  - 1 - / 2 * accu n n (fun i j => edge_matrix e i j * gram r x i j).
(** s after the loop, impl 211-244 *)
Definition lv_s (l : lovasz) (r n : nat) (x : mat) : mat := fun i j =>
  fold_left (fun s e => s - inner_edge r n x e * edge_matrix e i j) (lv_edges l) (- 1 - inner_trace n x * eye i j).
Definition edge_inside (n : nat) (e : nat * nat) : bool := ((fst e <? n) && (snd e <? n))%nat%bool.
(** Gradient, impl 203-251: trans(coordinates) % coordinates needs as many rows as columns *)
Definition lv_gradient (l : lovasz) (r c : nat) (x : mat) : option mat :=
  if ((r =? c)%nat && forallb (edge_inside c) (lv_edges l))%bool
  then Some (fun a i => usum c (fun k => 2 * lv_s l r c x i k * x a k))
  else None.

(** EvaluateConstraint, impl 259-276 *)
Definition lv_constraint (l : lovasz) (index r c : nat) (x : mat) : option R :=
  match index with
  | O => Some (- 1 + usum c (fun i => Rabs (gram r x i i)))
  | S k => match nth_error (lv_edges l) k with
           | Some (i, j) => if edge_inside c (i, j) then Some (Rabs (gram r x i j)) else None
           | None => None
           end
  end.
(** GradientConstraint, impl 278-304 *)
Definition lv_constraint_gradient (l : lovasz) (index r c : nat) (x : mat) : option mat :=
  match index with
  | O => Some (fun a k => 2 * x a k)
  | S n => match nth_error (lv_edges l) n with
           | Some (i, j) =>
             if edge_inside c (i, j) then
               let g1 : mat := fun a k => if (k =? i)%nat then x a j else 0 in
               Some (fun a k => if (k =? j)%nat then g1 a k + x a i else g1 a k)
             else None
           | None => None
           end
  end.

(** std::ceil *)
Definition ceil (x : R) : Z := (- Int_part (- x))%Z.
(** the value of r in GetInitialPoint, impl 323-326 (float arithmetic taken as exact) *)
Definition lv_r (l : lovasz) : R :=
  let r := / 2 + sqrt (/ 4 + 2 * INR (lv_constraints l)) in
  if (Z.of_nat (lv_vertices l) <? ceil r)%Z then INR (lv_vertices l) else r.
(** GetInitialPoint, impl 306-345: numbers of rows and columns, and the entries *)
Definition lv_initial_rows (l : lovasz) : nat := Z.to_nat (ceil (lv_r l)).
Definition lv_initial_cols (l : lovasz) : nat := lv_vertices l.
Definition lv_initial (l : lovasz) : mat := fun i j =>
  if (i =? j)%nat
  then sqrt (1 / lv_r l) + sqrt (1 / (INR (lv_vertices l) * INR (lv_constraints l)))
  else sqrt (1 / (INR (lv_vertices l) * INR (lv_constraints l))).

(** std::pow with a positive exponent on a nonnegative base *)
Definition pow_pos (b e : R) : R := if Req_EM_T b 0 then 0 else Rpower b e.
(** CrossInTrayFunction::Evaluate, problems/cross_in_tray_function_impl.hpp 25-43: the absolute
    value is taken after adding one *)
Definition cross_in_tray (x1 x2 : R) : R :=
  - (1 / 10000) * pow_pos (Rabs (sin x1 * sin x2 * exp (Rabs (100 - sqrt (x1 ^ 2 + x2 ^ 2) / PI)) + 1)) (/ 10).
(** HolderTableFunction::Evaluate, problems/holder_table_function_impl.hpp 25-42 *)
Definition holder_table (x1 x2 : R) : R :=
  - Rabs (sin x1 * cos x2 * exp (Rabs (1 - sqrt (x1 * x1 + x2 * x2) / PI))).
(** SchafferFunctionN4::Evaluate, problems/schaffer_function_n4_impl.hpp 25-43 *)
Definition schaffer_n4 (x1 x2 : R) : R :=
  / 2 + (cos (sin (Rabs (x1 ^ 2 - x2 ^ 2))) ^ 2 - / 2) / (1 + / 1000 * (x1 ^ 2 + x2 ^ 2)) ^ 2.
