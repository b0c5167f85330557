(** The low-rank formulation of semidefinite programs.
    Models sdp/lrsdp_function_impl.hpp and sdp/lrsdp_impl.hpp. *)
From Coq Require Import List Arith ZArith.
From Verif.Base Require Import Num.
Import ListNotations.

Section LRSDP.
Context {N : Num}.

(** A matrix is its element function; the sizes are in [sdp].  The elements outside are
    never read. *)
Definition mat := nat -> nat -> N.

(** The loops of the Armadillo expressions: a sum from the first element to the last.
    Simplification: the grouping of the rounded additions inside accu(), trace() and the
    matrix product is Armadillo's own; one fixed grouping is used here. *)
Definition msum (n : nat) (f : nat -> N) : N := fold_left (fun a k => nadd a (f k)) (seq 0 n) n0.

(** sdp/sdp.hpp (the members of SDP) with the number of columns of the coordinates.
    [sp_sparse] pairs SparseA() with SparseB(), [sp_dense] pairs DenseA() with DenseB(). *)
Record sdp := { sp_n : nat; sp_r : nat; sp_C : mat; sp_sparse : list (mat * N); sp_dense : list (mat * N) }.
Variable p : sdp.

(** arma::accu(A % B) (lrsdp_function_impl.hpp 66, 91, 141, 164) *)
Definition accu_schur (A B : mat) : N :=
  msum (sp_n p) (fun j => msum (sp_n p) (fun i => nmul (A i j) (B i j))).
(** coordinates * trans(coordinates) (lrsdp_function_impl.hpp 196, lrsdp_impl.hpp 36) *)
Definition mk_rrt (R : mat) : mat := fun i j => msum (sp_r p) (fun k => nmul (R i k) (R j k)).
(** trace((trans(R) * A) * R) (lrsdp_function_impl.hpp 97, 211) *)
Definition trace_rar (A R : mat) : N :=
  msum (sp_r p) (fun k =>
    msum (sp_n p) (fun j => nmul (msum (sp_n p) (fun i => nmul (R i k) (A i j))) (R j k))).

Variable lambda : nat -> N.          (* the multipliers, one for each constraint *)
Variable sigma : N.

(** UpdateObjective() (lrsdp_function_impl.hpp 125–145); [off] is lambdaOffset + i *)
Fixpoint update_objective (objective : N) (rrt : mat) (cs : list (mat * N)) (off : nat) : N :=
  match cs with
  | [] => objective
  | (A, b) :: cs' =>
      let c := nsub (accu_schur A rrt) b in
      let o1 := nsub objective (nmul (lambda off) c) in
      let o2 := nadd o1 (nmul (nmul (ndiv sigma (nofZ 2)) c) c) in
      update_objective o2 rrt cs' (S off)
  end.

(** UpdateGradient() (lrsdp_function_impl.hpp 149–168) *)
Fixpoint update_gradient (s : mat) (rrt : mat) (cs : list (mat * N)) (off : nat) : mat :=
  match cs with
  | [] => s
  | (A, b) :: cs' =>
      let c := nsub (accu_schur A rrt) b in
      let y := nsub (lambda off) (nmul sigma c) in
      update_gradient (fun i j => nsub (s i j) (nmul y (A i j))) rrt cs' (S off)
  end.

(** EvaluateImpl() (lrsdp_function_impl.hpp 170–221): the new cached R R^T and the value *)
Definition evaluate_impl (R : mat) : mat * N :=
  let rrt := mk_rrt R in
  let o := trace_rar (sp_C p) R in
  let o1 := update_objective o rrt (sp_sparse p) 0 in
  let o2 := update_objective o1 rrt (sp_dense p) (length (sp_sparse p)) in
  (rrt, o2).

(** GradientImpl() (lrsdp_function_impl.hpp 223–249), with the cached R R^T *)
Definition gradient_impl (rrt R : mat) : mat :=
  let s1 := update_gradient (sp_C p) rrt (sp_sparse p) 0 in
  let s2 := update_gradient s1 rrt (sp_dense p) (length (sp_sparse p)) in
  fun i k => msum (sp_n p) (fun j => nmul (nmul (nofZ 2) (s2 i j)) (R j k)).

End LRSDP.

Section Ops.
Context {N : Num}.
Notation mat := (mat (N := N)).
Variable p : sdp (N := N).

(** LRSDPFunction::Evaluate() (lrsdp_function_impl.hpp 57–67): the argument is not read *)
Definition plain_evaluate (rrt R : mat) : N := accu_schur p (sp_C p) rrt.

(** LRSDPFunction::EvaluateConstraint() (lrsdp_function_impl.hpp 78–99); [None] is an index
    past the last constraint (undefined behaviour) *)
Definition evaluate_constraint (rrt R : mat) (index : nat) : option N :=
  if index <? length (sp_sparse p) then
    match nth_error (sp_sparse p) index with
    | Some (A, b) => Some (nsub (accu_schur p A rrt) b)
    | None => None
    end
  else
    match nth_error (sp_dense p) (index - length (sp_sparse p)) with
    | Some (A, b) => Some (nsub (trace_rar p A R) b)
    | None => None
    end.

(** The calls AugLagrangian and L-BFGS make on the function, with their arguments. *)
Inductive call :=
  | CAug (lambda : nat -> N) (sigma : N) (R : mat)        (* AugLagrangianFunction::Evaluate *)
  | CAugGrad (lambda : nat -> N) (sigma : N) (R : mat)    (* AugLagrangianFunction::Gradient *)
  | CPlain (R : mat)                                      (* LRSDPFunction::Evaluate *)
  | CConstraint (index : nat) (R : mat).                  (* LRSDPFunction::EvaluateConstraint *)
Inductive answer := AVal (v : N) | AMat (g : mat) | ABad.

(** one call: the cached matrix after it, and what it returns *)
Definition do_call (rrt : mat) (c : call) : mat * answer :=
  match c with
  | CAug l s R => let (rrt', v) := evaluate_impl p l s R in (rrt', AVal v)
  | CAugGrad l s R => (rrt, AMat (gradient_impl p l s rrt R))
  | CPlain R => (rrt, AVal (plain_evaluate rrt R))
  | CConstraint i R =>
      (rrt, match evaluate_constraint rrt R i with Some v => AVal v | None => ABad end)
  end.
(** the cached matrix after a sequence of calls *)
Definition after_calls (rrt : mat) (cs : list call) : mat := fold_left (fun m c => fst (do_call m c)) cs rrt.

(** LRSDP::Optimize() (lrsdp_impl.hpp 29–43).  augLag.Optimize() (40) is given by the calls
    it makes and the coordinates it leaves; the value returned is computed after it (42). *)
Definition lrsdp_optimize (R0 : mat) (cs : list call) (R1 : mat) : N :=
  plain_evaluate (after_calls (mk_rrt p R0) cs) R1.

End Ops.
