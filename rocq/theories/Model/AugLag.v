(** Model of ens::AugLagrangianFunction and ens::AugLagrangian.
    Files: /repo/include/ensmallen_bits/aug_lagrangian/
      aug_lagrangian_function_impl.hpp, aug_lagrangian_impl.hpp.

    The constrained problem is an objective with its gradient and a list of constraints
    with their gradients.  std::pow(c, 2) is c * c.  The inner optimizer (L_BFGS, see
    Model/LBFGS.v) is a parameter that maps its state, the multipliers, the penalty and
    the coordinates to new coordinates and state; it is assumed to return.
    [None]: a multiplier that does not exist is read or written. *)
From Coq Require Import List Arith Bool ZArith.
From Verif.Base Require Import Num Vec Size.
From Verif.Model Require Import Common SA.
Import ListNotations.

Section Function.
  Context {N : Num}.
  Notation vec := (list N).

  (* aug_lagrangian_function_impl.hpp 62-68: constraints i, i+1, ... *)
  Fixpoint aug_terms (sigma : N) (cs : list (vec -> N)) (lambda : vec) (x : vec) (obj : N) : option N :=
    match cs with
    | [] => Some obj
    | c :: cs' =>
        match lambda with
        | [] => None
        | l :: lambda' =>
            let k := c x in                                                   (* 64 *)
            aug_terms sigma cs' lambda' x
              (nadd obj (nadd (nmul (nopp l) k) (ndiv (nmul sigma (nmul k k)) (nofZ 2))))  (* 66-67 *)
        end
    end.
  (* 50-71 *)
  Definition aug_evaluate (f : vec -> N) (cs : list (vec -> N)) (lambda : vec) (sigma : N) (x : vec) : option N :=
    aug_terms sigma cs lambda x (f x).

  (* 86-95 *)
  Fixpoint aug_grad_terms (sigma : N) (cs : list ((vec -> N) * (vec -> vec))) (lambda : vec) (x : vec) (g : vec)
    : option vec :=
    match cs with
    | [] => Some g
    | (c, cg) :: cs' =>
        match lambda with
        | [] => None
        | l :: lambda' =>
            aug_grad_terms sigma cs' lambda' x
              (vadd g (vscale (nadd (nopp l) (nmul sigma (c x))) (cg x)))     (* 92-94 *)
        end
    end.
  (* 76-96 *)
  Definition aug_gradient (fg : vec -> vec) (cs : list ((vec -> N) * (vec -> vec))) (lambda : vec) (sigma : N)
      (x : vec) : option vec :=
    aug_grad_terms sigma cs lambda x (fg x).                                  (* 82-83 *)
End Function.

(** Events *)
Inductive aev (N : Num) : Type :=
| ABegin (x : list N)                       (* BeginOptimization                     *)
| AEnd (x : list N)                         (* EndOptimization                       *)
| AInner (x x' : list N)                    (* a run of the inner optimizer          *)
| AEval (x : list N) (v : N)                (* Evaluate callback                     *)
| ACon (x : list N) (i : nat) (v : N)       (* EvaluateConstraint callback           *)
| AStep (x : list N).                       (* StepTaken                             *)
Arguments ABegin {N}. Arguments AEnd {N}. Arguments AInner {N}. Arguments AEval {N}.
Arguments ACon {N}. Arguments AStep {N}.

Section Optimize.
  Context {N : Num} {S : Type}.
  Notation vec := (list N).
  Variable maxIterations : nat.
  Variables (thrFactor sigmaFactor : N).
  Variable tolerance : N.                     (* 1e3 * epsilon, 113 *)
  Variable f : vec -> N.
  Variable cs : list (vec -> N).
  Variable solve : list (aev N) -> S -> vec -> N -> vec -> vec * S.   (* lbfgs.Optimize *)
  Variable stop : list (aev N) -> bool.       (* some callback returns true *)

  (* 116-124, 166-175: the penalty; the callbacks are shown the squared constraint *)
  Fixpoint penalty_loop (k : list (vec -> N)) (i : nat) (x : vec) (pen : N) (term : bool) (tr : list (aev N))
    : N * bool * list (aev N) :=
    match k with
    | [] => (pen, term, tr)
    | c :: k' =>
        let p := nmul (c x) (c x) in
        let tr1 := ACon x i p :: tr in
        penalty_loop k' (Datatypes.S i) x (nadd pen p) (term || stop tr1) tr1
    end.

  (* 187-194; here the callbacks are shown the constraint itself *)
  Fixpoint lambda_loop (k : list (vec -> N)) (i : nat) (x lambda : vec) (sigma : N) (term : bool) (tr : list (aev N))
    : option (vec * bool * list (aev N)) :=
    match k with
    | [] => Some (lambda, term, tr)
    | c :: k' =>
        let p := c x in
        let tr1 := ACon x i p :: tr in
        match nth_error lambda i with
        | None => None
        | Some l => lambda_loop k' (Datatypes.S i) x (set_nth i (nsub l (nmul sigma p)) lambda) sigma
                      (term || stop tr1) tr1                                  (* 193 *)
        end
    end.

  Record ALRes : Type := {
    al_ret : bool;                            (* returned value                       *)
    al_x : vec;                               (* coordinates                          *)
    al_members : option (vec * N);            (* new members lambda and sigma, if set *)
    al_lambda : vec; al_sigma : N;            (* multipliers and penalty of augfunc   *)
    al_term : bool;                           (* member terminate                     *)
    al_inner : S;                             (* inner optimizer                      *)
    al_tr : list (aev N)                      (* events, oldest first                 *)
  }.

  Definition al_limit : nat := match maxIterations with O => size_max | Datatypes.S k => k end.

  Definition al_done (ret : bool) (x : vec) (m : option (vec * N)) (lambda : vec) (sigma : N) (term : bool) (s : S)
      (tr : list (aev N)) : outc ALRes :=
    Ret {| al_ret := ret; al_x := x; al_members := m; al_lambda := lambda; al_sigma := sigma; al_term := term;
           al_inner := s; al_tr := rev (AEnd x :: tr) |}.

  (* 133-220 *)
  Fixpoint al_loop (fuel it : nat) (x lambda : vec) (sigma thr last : N) (term : bool) (s : S) (tr : list (aev N))
    : outc ALRes :=
    if negb (negb (it =? al_limit) && negb term)                              (* 133 *)
    then al_done false x None lambda sigma term s tr                          (* 219-220 *)
    else
      match fuel with
      | O => More
      | Datatypes.S fuel' =>
          let '(x', s') := solve tr s lambda sigma x in                       (* 138 *)
          let tr1 := AInner x x' :: tr in
          let obj := f x' in                                                  (* 142 *)
          let tr2 := AEval x' obj :: tr1 in
          let t2 := term || stop tr2 in                                       (* 144-145 *)
          if nlt (nabs (nsub last obj)) tolerance && nlt (nofZ 500000) sigma  (* 149-150 *)
          then al_done true x' (Some (lambda, sigma)) lambda sigma t2 s' tr2  (* 152-156 *)
          else
            let '(pen, t3, tr3) := penalty_loop cs 0 x' n0 t2 tr2 in          (* 166-175 *)
            if t3 then al_done false x' None lambda sigma t3 s' tr3           (* 180-181, 219-220 *)
            else if nlt pen thr then                                          (* 183 *)
              match lambda_loop cs 0 x' lambda sigma t3 tr3 with
              | None => Bad
              | Some (lambda', t4, tr4) =>
                  let tr5 := AStep x' :: tr4 in
                  al_loop fuel' (Datatypes.S it) x' lambda' sigma (nmul thrFactor pen) obj  (* 198 *)
                    (t4 || stop tr5) s' tr5                                   (* 215 *)
              end
            else
              let sigma' := nmul sigma sigmaFactor in                         (* 204 *)
              if nle (ndiv nmax (nofZ 2)) sigma' then                         (* 206 *)
                al_done false x' None lambda sigma' t3 s' tr3                 (* 210-211 *)
              else
                let tr5 := AStep x' :: tr3 in
                al_loop fuel' (Datatypes.S it) x' lambda sigma' thr obj (t3 || stop tr5) s' tr5
      end.

  (* 80-132; [lambda], [sigma]: those of the AugLagrangianFunction; [term]: the member *)
  Definition auglag (fuel : nat) (term : bool) (s : S) (lambda : vec) (sigma : N) (x : vec) : outc ALRes :=
    let last := f x in                                                        (* 109 *)
    let '(_, t1, tr1) := penalty_loop cs 0 x n0 term [] in                    (* 116-124 *)
    al_loop fuel 0 x lambda sigma nmax last t1 s (ABegin x :: tr1).

  (* 59-78: the members are used if a multiplier vector is there, otherwise zeros and 10
     (aug_lagrangian_function_impl.hpp 21-31) *)
  Definition auglag_default (fuel : nat) (term : bool) (s : S) (mlambda : vec) (msigma : N) (x : vec) : outc ALRes :=
    match mlambda with
    | [] => auglag fuel term s (repeat n0 (length cs)) (nofZ 10) x
    | _ => auglag fuel term s mlambda msigma x
    end.
End Optimize.
