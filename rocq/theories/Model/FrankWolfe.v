(** Model of ens::FrankWolfe::Optimize with the update rules UpdateClassic and
    UpdateLineSearch.
    Files: /repo/include/ensmallen_bits/fw/frank_wolfe_impl.hpp, update_classic.hpp,
      update_linesearch.hpp, line_search/line_search_impl.hpp.

    The solver of the linear problem is a function of the gradient (Model/LpBall.v).  An
    update rule may keep state between iterations, so it is a function of all pairs
    (iterate, solution) so far, newest first; the iteration number is their number. *)
From Coq Require Import List Arith Bool ZArith.
From Verif.Base Require Import Num Vec Size.
From Verif.Model Require Import Common.
Import ListNotations.

Section FW.
  Context {N : Num}.
  Notation vec := (list N).
  Variable maxIterations : nat.
  Variable tolerance : N.
  Variable f : vec -> N * vec.                 (* f.EvaluateWithGradient *)
  Variable lmo : vec -> vec.                   (* linearConstrSolver.Optimize *)
  Variable rule : list (vec * vec) -> vec.     (* updateRule.Update *)
  Variable cb : CB N vec vec.

  Definition fw_done (v : N) (x : vec) (tr : list (ev N vec vec)) : Res N vec vec :=
    {| o_val := v; o_x := x; o_tr := rev (End x :: tr) |}.

  (* frank_wolfe_impl.hpp 79-116 *)
  Fixpoint fw_loop (fuel i : nat) (cur : N) (term : bool) (x : vec) (hist : list (vec * vec))
      (tr : list (ev N vec vec)) : outc (Res N vec vec) :=
    if negb (negb (i =? bound maxIterations) && negb term)                    (* 79 *)
    then Ret (fw_done cur x tr)                                               (* 115-116 *)
    else
      match fuel with
      | O => More
      | S fuel' =>
          let '(v, g) := f x in                                               (* 81 *)
          let g' := cs_grad cb tr x v g in
          let tr1 := EvG x v g g' :: tr in
          let t1 := term || cs_stop cb tr1 in                                 (* 83-84 *)
          let s := lmo g' in                                                  (* 91 *)
          if nlt (nabs (vdot (vsub x s) g')) tolerance                        (* 94-95 *)
          then Ret (fw_done v x tr1)                                          (* 100-101 *)
          else
            let x' := rule ((x, s) :: hist) in                                (* 105-108 *)
            let tr2 := St x' :: tr1 in
            fw_loop fuel' (S i) v (t1 || cs_stop cb tr2) x' ((x, s) :: hist) tr2  (* 109 *)
      end.

  (* 64-79 *)
  Definition frank_wolfe (fuel : nat) (x : vec) : outc (Res N vec vec) :=
    fw_loop fuel 1 nmax false x [] [Begin x].
End FW.

Section Rules.
  Context {N : Num}.
  Notation vec := (list N).

  (* (1 - gamma) * a + gamma * b *)
  Definition combine_pts (gamma : N) (a b : vec) : vec := vadd (vscale (nsub n1 gamma) a) (vscale gamma b).

  (* update_classic.hpp 46-54 *)
  Definition rule_classic (h : list (vec * vec)) : vec :=
    match h with
    | [] => []
    | (x, s) :: _ => combine_pts (ndiv (nofZ 2) (nadd (nofZ (Z.of_nat (length h))) (nofZ 2))) x s
    end.

  Variable lsMax : nat.
  Variable lsTol : N.
  Variable f : vec -> N.
  Variable grad : vec -> vec.

  (* line_search_impl.hpp 100-110 *)
  Definition ls_derivative (x0 dx : vec) (gamma : N) : N := vdot (grad (vadd x0 (vscale gamma dx))) dx.

  (* std::min(std::max(g, 0), 1) *)
  Definition clamp01 (g : N) : N := let h := if nlt g n0 then n0 else g in if nlt n1 h then n1 else h.

  (* 61-96; result: the new x2 and f there *)
  Fixpoint ls_secant (k : nat) (x1 x2 dx : vec) (gamma derivative secant : N) : vec * N :=
    match k with
    | O => let x := combine_pts gamma x1 x2 in (x, f x)                       (* 95-96 *)
    | S k' =>
        if nlt secant n0 then (x1, f x1)                                      (* 64-69 *)
        else
          let gammaNew := clamp01 (nsub gamma (ndiv derivative secant)) in    (* 72-74 *)
          let derivativeNew := ls_derivative x1 dx gammaNew in                (* 77-78 *)
          let secant' := ndiv (nsub derivativeNew derivative) (nsub gammaNew gamma) in  (* 79 *)
          if nlt (nabs derivativeNew) lsTol                                   (* 83 *)
          then let x := combine_pts gammaNew x1 x2 in (x, f x)                (* 87-88 *)
          else ls_secant k' x1 x2 dx gammaNew derivativeNew secant'
    end.

  (* 23-97 *)
  Definition line_search (x1 x2 : vec) : vec * N :=
    let dx := vsub x2 x1 in                                                   (* 37 *)
    let derivative := ls_derivative x1 dx n0 in                               (* 39-40 *)
    let derivativeNew := ls_derivative x1 dx n1 in                            (* 41-42 *)
    let secant := nsub derivativeNew derivative in                            (* 43 *)
    if nle n0 derivative then (x1, f x1)                                      (* 45-49 *)
    else if nle derivativeNew n0 then (x2, f x2)                              (* 50-53 *)
    else if nlt secant lsTol then (x1, f x1)                                  (* 54-58 *)
    else ls_secant lsMax x1 x2 dx n0 derivative secant.

  (* update_linesearch.hpp 68-80 *)
  Definition rule_linesearch (h : list (vec * vec)) : vec :=
    match h with [] => [] | (x, s) :: _ => fst (line_search x s) end.
End Rules.
