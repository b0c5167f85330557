(** Model of ens::L_BFGS.
    File: /repo/include/ensmallen_bits/lbfgs/lbfgs_impl.hpp.

    Matrices are the lists of their elements; a cube is the list of its slices.
    Simplifications: the scalars the code keeps in double are elements of the same
    type as the matrices; the user's function is a pure function of the point; loop
    counters are naturals (a size_t would wrap around after 2^64 iterations) and the
    conversion of a slice number to int is exact (numBasis < 2^31). *)
From Coq Require Import List Arith Bool ZArith.
From Verif.Base Require Import Num Vec.
From Verif.Model Require Import Common SA.
Import ListNotations.

Section LBFGS.
  Context {N : Num}.
  Notation vec := (list N).

  Definition nfinite (x : N) : bool := negb (nisnan x || nisinf x).          (* std::isfinite *)
  (* a *= c *)
  Definition vtimes (a : vec) (c : N) : vec := map (fun e => nmul e c) a.

  Variable numBasis : nat.

  (** ** ChooseScalingFactor, 75-106.  [tol] is 100 * epsilon, [normF] the Frobenius
      norm.  [None]: remainder by zero, or a slice that does not exist. *)
  Definition choose_scaling (tol : N) (normF : vec -> N) (itNum : nat) (g : vec)
      (s y : list vec) : option N :=
    match itNum with
    | S k =>                                                                  (* 86 *)
        if numBasis =? 0 then None else
        let pos := k mod numBasis in                                          (* 88 *)
        match nth_error s pos, nth_error y pos with
        | Some sm, Some ym =>
            let tmp := vdot ym ym in                                          (* 93 *)
            let denom := if nle tol tmp then tmp else n1 in                   (* 94 *)
            Some (ndiv (vdot sm ym) denom)                                    (* 96 *)
        | _, _ => None
        end
    | O =>
        let tmp := normF g in                                                 (* 100 *)
        Some (if nle tol tmp then ndiv n1 tmp else n1)                        (* 102 *)
    end.

  (** ** SearchDirection, 119-169 *)
  (* 138-155, [cnt] more rounds, i = limit + cnt *)
  Fixpoint sd_loop1 (s y : list vec) (itNum limit cnt : nat) (d rho alpha : vec)
    : option (vec * vec * vec) :=
    match cnt with
    | O => Some (d, rho, alpha)                                               (* i == limit *)
    | S c =>
        let i := limit + cnt in
        if numBasis =? 0 then None else
        let pos := (i + (numBasis - 1)) mod numBasis in                       (* 140 *)
        match nth_error s pos, nth_error y pos with
        | Some sm, Some ym =>
            let tmp := vdot ym sm in                                          (* 145 *)
            let r := if negb (neq tmp n0) then ndiv n1 tmp else n1 in         (* 147-148 *)
            let a := nmul r (vdot sm d) in                                    (* 150-151 *)
            if (itNum - i <? length rho) && (itNum - i <? length alpha) then
              sd_loop1 s y itNum limit c (vsub d (vscale a ym))               (* 153 *)
                (set_nth (itNum - i) r rho) (set_nth (itNum - i) a alpha)
            else None
        | _, _ => None
        end
    end.

  (* 158-165, i = limit, limit + 1, ...; [cnt] more rounds *)
  Fixpoint sd_loop2 (s y : list vec) (itNum i cnt : nat) (rho alpha d : vec) : option vec :=
    match cnt with
    | O => Some d
    | S c =>
        if numBasis =? 0 then None else
        let pos := i mod numBasis in                                          (* 160 *)
        match nth_error s pos, nth_error y pos,
              nth_error rho (itNum - i - 1), nth_error alpha (itNum - i - 1) with
        | Some sm, Some ym, Some r, Some a =>
            let beta := nmul r (vdot ym d) in                                 (* 161-162 *)
            sd_loop2 s y itNum (S i) c rho alpha
              (vadd d (vscale (nsub a beta) sm))                              (* 163-164 *)
        | _, _, _, _ => None
        end
    end.

  Definition search_direction (g : vec) (itNum : nat) (gamma : N) (s y : list vec) : option vec :=
    let rho := repeat n0 numBasis in                                          (* 134 *)
    let alpha := repeat n0 numBasis in                                        (* 135 *)
    let limit := if itNum <? numBasis then 0 else itNum - numBasis in         (* 137 *)
    match sd_loop1 s y itNum limit (itNum - limit) g rho alpha with
    | Some (d, rho, alpha) =>
        match sd_loop2 s y itNum limit (itNum - limit) rho alpha (vtimes d gamma) with  (* 156 *)
        | Some d => Some (vtimes d (nopp n1))                                 (* 168 *)
        | None => None
        end
    | None => None
    end.

  (** ** UpdateBasisSet, 185-198.  [None]: remainder by zero. *)
  Definition update_basis (itNum : nat) (x x_old g g_old : vec) (s y : list vec)
    : option (list vec * list vec) :=
    if numBasis =? 0 then None else
    let pos := itNum mod numBasis in                                          (* 195 *)
    if (pos <? length s) && (pos <? length y) then
      Some (set_nth pos (vsub x x_old) s, set_nth pos (vsub g g_old) y)       (* 196-197 *)
    else None.

  (** ** LineSearch, 219-333 *)
  Variable maxIterations : nat.
  Variables (armijo minGradientNorm wolfe factr minStep maxStep : N).
  Variable maxTrials : nat.
  Variable tol : N.                       (* 100 * epsilon                    *)
  Variables norm2 normF : vec -> N.       (* arma::norm(., 2), norm(., "fro") *)
  Variable f : vec -> N * vec.            (* f.EvaluateWithGradient           *)
  Variable cb : CB N vec vec.

  Record LS : Type := {
    ls_ok : bool;                          (* returned value                               *)
    ls_val : N;                            (* functionValue                                *)
    ls_x : vec;                            (* iterate                                      *)
    ls_g : vec;                            (* gradient                                     *)
    ls_step : N;                           (* finalStepSize                                *)
    ls_term : bool;                        (* the member terminate                         *)
    ls_trials : list (N * N * vec);        (* history of (step size, value, gradient after
                                              the callbacks), oldest first                 *)
    ls_tr : list (ev N vec vec)            (* events, newest first                         *)
  }.

  Definition inc : N := ndiv (nofZ 21) (nofZ 10).                             (* 257 *)
  Definition dec : N := ndiv n1 (nofZ 2).                                     (* 258 *)

  (* 263-326; [fuel] bounds the rounds, [k] is numIterations *)
  Fixpoint ls_loop (fuel k : nat) (x d : vec) (f0 slope lin : N) (step best bestObj : N)
      (term : bool) (trials : list (N * N * vec)) (tr : list (ev N vec vec)) : option LS :=
    match fuel with
    | O => None
    | S fuel' =>
        let p := vadd x (vscale step d) in                                    (* 267-268 *)
        let '(v, g) := f p in                                                 (* 269 *)
        if nisnan v then                                                      (* 271-275 *)
          Some {| ls_ok := false; ls_val := v; ls_x := x; ls_g := g; ls_step := n0;
                  ls_term := term; ls_trials := trials ++ [(step, v, g)]; ls_tr := tr |}
        else
          let g' := cs_grad cb tr p v g in
          let tr1 := EvG p v g g' :: tr in
          let t1 := term || cs_stop cb tr1 in                                 (* 277-278 *)
          let trials' := trials ++ [(step, v, g')] in
          let best' := if nlt v bestObj then step else best in                (* 280-284 *)
          let obj' := if nlt v bestObj then v else bestObj in
          let done := Some {| ls_ok := true; ls_val := v;
                  ls_x := vadd x (vscale best' d);                            (* 330 *)
                  ls_g := g'; ls_step := best';                               (* 331 *)
                  ls_term := t1; ls_trials := trials'; ls_tr := tr1 |} in
          let width :=
            if nlt (nadd f0 (nmul step lin)) v then Some dec                  (* 287-291 *)
            else
              let sd := vdot g' d in                                          (* 295-296 *)
              if nlt sd (nmul wolfe slope) then Some inc                      (* 298-302 *)
              else if nlt (nmul (nopp wolfe) slope) sd then Some dec          (* 305-309 *)
              else None in                                                    (* 312 *)
          match width with
          | None => done
          | Some w =>
              if nlt step minStep || nlt maxStep step || (maxTrials <=? S k)  (* 319-323 *)
              then done
              else ls_loop fuel' (S k) x d f0 slope lin (nmul step w) best' obj' t1 trials' tr1
          end
    end.

  Definition line_search (v0 : N) (x g d : vec) (term : bool) (tr : list (ev N vec vec))
    : option LS :=
    let slope := vdot g d in                                                  (* 234-235 *)
    if nlt n0 slope || negb (nfinite slope) then                              (* 238-244 *)
      Some {| ls_ok := false; ls_val := v0; ls_x := x; ls_g := g; ls_step := n0;
              ls_term := term; ls_trials := []; ls_tr := tr |}
    else ls_loop (S maxTrials) 0 x d v0 slope (nmul armijo slope) n1 n1 nmax term [] tr.

  (** ** Optimize, 351-497 *)
  Definition nmaxi (a b : N) : N := if nlt a b then b else a.                (* std::max *)

  (* the result and the member terminate afterwards *)
  Definition lb_done (v : N) (x : vec) (term : bool) (tr : list (ev N vec vec))
    : outc (Res N vec vec * bool) :=
    Ret ({| o_val := v; o_x := x; o_tr := rev (End x :: tr) |}, term).        (* 495-496 *)

  Fixpoint lb_loop (fuel itNum : nat) (s y : list vec) (v : N) (x g : vec) (term : bool)
      (tr : list (ev N vec vec)) : outc (Res N vec vec * bool) :=
    if negb (((maxIterations =? 0) || negb (itNum =? maxIterations)) && negb term)  (* 409-410 *)
    then lb_done v x term tr
    else
      match fuel with
      | O => More
      | S fuel' =>
          if nlt (norm2 g) minGradientNorm then lb_done v x term tr           (* 420-425 *)
          else if nisnan v then lb_done v x term tr                           (* 428-434 *)
          else
            match choose_scaling tol normF itNum g s y with                   (* 437 *)
            | None => Bad
            | Some gamma =>
                if neq gamma n0 then lb_done v x term tr                      (* 438-443 *)
                else if negb (nfinite gamma) then lb_done v x term tr         (* 445-450 *)
                else
                  match search_direction g itNum gamma s y with               (* 454 *)
                  | None => Bad
                  | Some d =>
                      match line_search v x g d term tr with                  (* 461-462 *)
                      | None => More
                      | Some l =>
                          let stop := lb_done (ls_val l) (ls_x l) (ls_term l) (ls_tr l) in
                          if negb (ls_ok l) then stop                         (* 463-466 *)
                          else if neq (ls_step l) n0 then stop                (* 470-475 *)
                          else
                            let denom := nmaxi (nmaxi (nabs v) (nabs (ls_val l))) n1 in  (* 479-481 *)
                            if nle (ndiv (nsub v (ls_val l)) denom) factr then stop   (* 482-487 *)
                            else
                              match update_basis itNum (ls_x l) x (ls_g l) g s y with  (* 490 *)
                              | None => Bad
                              | Some (s', y') =>
                                  let tr1 := St (ls_x l) :: ls_tr l in
                                  let t1 := ls_term l || cs_stop cb tr1 in    (* 492 *)
                                  lb_loop fuel' (S itNum) s' y' (ls_val l) (ls_x l) (ls_g l) t1 tr1
                              end
                      end
                  end
            end
      end.

  (* [term0] is the member terminate when Optimize() is called: the constructor
     (lbfgs_impl.hpp 49-59) sets it to false and nothing ever sets it back; [s0] and
     [y0] are the initial contents of the cubes (numBasis slices each) *)
  Definition lbfgs (fuel : nat) (term0 : bool) (s0 y0 : list vec) (x : vec)
    : outc (Res N vec vec * bool) :=
    let '(v, g) := f x in                                                     (* 400 *)
    let g' := cs_grad cb [] x v g in
    let tr1 := [EvG x v g g'] in
    let t1 := term0 || cs_stop cb tr1 in                                      (* 402-403 *)
    lb_loop fuel 0 s0 y0 v x g' t1 (Begin x :: tr1).                          (* 408 *)
End LBFGS.
