(** Model of ens::FuncSq, ens::Atoms and the Frank-Wolfe update rules UpdateSpan and
    UpdateFullCorrection.
    Files: /repo/include/ensmallen_bits/fw/func_sq.hpp, atoms.hpp, update_span.hpp,
      update_full_correction.hpp.

    Vectors are lists; the matrix A is the list of its rows, each with d elements; the matrix
    of atoms is the list of its columns.  The products are sums from the left, which may not be
    the order in which BLAS adds. *)
From Coq Require Import List Arith Bool ZArith.
From Verif.Base Require Import Num Vec.
From Verif.Model Require Import Common Proximal.
Import ListNotations.

Section Atoms.
  Context {N : Num}.
  Notation vec := (list N).
  Variable d : nat.                                (* number of columns of A *)
  Variable A : list vec.
  Variable b : vec.
  (* arma::solve(M, b, solve_opts::fast), M given by its columns; None: it throws *)
  Variable solve : list vec -> vec -> option vec.
  Variable index_min : vec -> nat.                 (* arma::index_min *)
  Variable sortd : vec -> vec.                     (* arma::sort(., "descend") *)
  Local Open Scope num_scope.

  Definition half : N := n1 / (n1 + n1).
  Definition quarter : N := half * half.
  (* A * x, A.t() * r, M * c with M given by its columns of length k *)
  Definition mulA (x : vec) : vec := map (fun row => vdot row x) A.
  Definition combo (k : nat) (cols : list vec) (c : vec) : vec :=
    fold_left vadd (map2 vscale c cols) (repeat n0 k).
  Definition mulAt (r : vec) : vec := combo d A r.

  (* func_sq.hpp 41-45, 54-58 *)
  Definition residual (x : vec) : vec := vsub (mulA x) b.
  Definition sq_eval (x : vec) : N := vdot (residual x) (residual x) * half.
  Definition sq_grad (x : vec) : vec := mulAt (residual x).

  Record atoms := { at_atoms : list vec; at_coeffs : vec; at_sq : vec }.
  Definition no_atoms : atoms := {| at_atoms := []; at_coeffs := []; at_sq := [] |}.
  (* std::pow(norm(A * v, 2), 2) *)
  Definition sq_term (v : vec) : N := let r := nsqrt (vdot (mulA v) (mulA v)) in r * r.

  (* atoms.hpp 35-57; the newest atom is the first column *)
  Definition add_atom (v : vec) (c : N) (a : atoms) : atoms :=
    match at_atoms a with
    | [] => {| at_atoms := [v]; at_coeffs := [c]; at_sq := [sq_term v] |}
    | _ => {| at_atoms := v :: at_atoms a; at_coeffs := c :: at_coeffs a; at_sq := sq_term v :: at_sq a |}
    end.
  (* 60-63 *)
  Definition recover (a : atoms) : vec := combo d (at_atoms a) (at_coeffs a).

  Fixpoint drop_nth {X : Type} (i : nat) (l : list X) : list X :=
    match l with
    | [] => []
    | x :: r => match i with O => r | S j => x :: drop_nth j r end
    end.

  (* 91-98 *)
  Definition gaps (sqTerm : vec) (a : atoms) : vec :=
    let g := sq_grad (recover a) in
    vsub sqTerm (vmul (at_coeffs a) (map (fun t => vdot g t) (at_atoms a))).
  (* 88-132 *)
  Fixpoint prune_loop (fuel : nat) (F : N) (sqTerm : vec) (a : atoms) : outc atoms :=
    if (length (at_atoms a) <=? 1)%nat then Ret a                             (* 88 *)
    else
      match fuel with
      | O => More
      | S k =>
          let ind := index_min (gaps sqTerm a) in                             (* 99 *)
          let newAtoms := drop_nth ind (at_atoms a) in                        (* 102-109 *)
          match solve (map mulA newAtoms) b with                              (* 115-116 *)
          | None => Bad
          | Some newCoeffs =>
              let Fnew := sq_eval (combo d newAtoms newCoeffs) in             (* 119 *)
              if nlt F Fnew then Ret a                                        (* 121-123 *)
              else prune_loop k F (drop_nth ind sqTerm)
                     {| at_atoms := newAtoms; at_coeffs := newCoeffs; at_sq := drop_nth ind (at_sq a) |}
          end
      end.
  (* 84-132 *)
  Definition first_sq (a : atoms) : vec :=
    map2 (fun s c => half * s * (c * c)) (at_sq a) (at_coeffs a).             (* 86 *)
  Definition prune (F : N) (a : atoms) : outc atoms :=
    prune_loop (length (at_atoms a)) F (first_sq a) a.

  (* 163-192: [k] passes left *)
  Fixpoint enhance_loop (k : nat) (tau stepSize tolerance value : N) (x : vec) (a : atoms) : outc atoms :=
    match k with
    | O => Ret a
    | S k' =>
        let g := map (fun t => vdot t (sq_grad x)) (at_atoms a) in            (* 176-178 *)
        match project_l1 sortd (vsub (at_coeffs a) (vscale stepSize g)) tau with  (* 179-182 *)
        | Ret c =>
            let a' := {| at_atoms := at_atoms a; at_coeffs := c; at_sq := at_sq a |} in
            let x' := recover a' in                                           (* 184 *)
            let valueNew := sq_eval x' in
            if nlt (value - valueNew) tolerance then Ret a'                   (* 187-188 *)
            else enhance_loop k' tau stepSize tolerance valueNew x' a'
        | Bad => Bad
        | More => More
        end
    end.
  Definition enhance (maxIteration : nat) (tau stepSize tolerance : N) (a : atoms) : outc atoms :=
    let x := recover a in
    enhance_loop (maxIteration - 1) tau stepSize tolerance (sq_eval x) x a.

  (* update_span.hpp 49-77: the new atoms; the new coordinates are [recover] of them *)
  Definition span_update (isPrune : bool) (old s : vec) (a : atoms) : outc atoms :=
    let a1 := add_atom s n0 a in                                              (* 56 *)
    match solve (map mulA (at_atoms a1)) b with                               (* 59-60 *)
    | None => Bad
    | Some c =>
        let a2 := {| at_atoms := at_atoms a1; at_coeffs := c; at_sq := at_sq a1 |} in
        if isPrune
        then prune (quarter * sq_eval old + (half + quarter) * sq_eval (recover a2)) a2   (* 69-76 *)
        else Ret a2
    end.

  (* update_full_correction.hpp 61-83 *)
  Definition full_gamma (tau : N) (old s : vec) : N :=
    let v := vsub (vscale tau s) old in                                       (* 68 *)
    let Av := mulA v in
    let nv := nsqrt (vdot Av Av) in
    let g := vdot (vsub b (mulA old)) Av / (nv * nv) in                       (* 69-72 *)
    if nlt n1 g then n1 else g.                                               (* 73: std::min(gamma, 1.0) *)
  Definition full_update (tau stepSize tolerance : N) (old s : vec) (a : atoms) : outc atoms :=
    let gamma := full_gamma tau old s in
    let a1 := {| at_atoms := at_atoms a; at_coeffs := vscale (n1 - gamma) (at_coeffs a); at_sq := at_sq a |} in
    enhance 100 tau stepSize tolerance (add_atom s (gamma * tau) a1).         (* 74-78; tolerance is 1e-3 *)

  (* frank_wolfe_impl.hpp 74-95 calls Update with the point it returned last; [ss] are the
     directions of the successive iterations, the result the atoms after each of them *)
  Fixpoint span_iter (isPrune : bool) (ss : list vec) (x : vec) (a : atoms) : outc (list atoms) :=
    match ss with
    | [] => Ret []
    | s :: r =>
        match span_update isPrune x s a with
        | Ret a' => match span_iter isPrune r (recover a') a' with Ret l => Ret (a' :: l) | Bad => Bad | More => More end
        | Bad => Bad
        | More => More
        end
    end.
End Atoms.
