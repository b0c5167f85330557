(** Model of ens::GradientDescent::Optimize.
    File: /repo/include/ensmallen_bits/gradient_descent/gradient_descent_impl.hpp. *)
From Coq Require Import List Arith Bool.
From Verif.Base Require Import Num Vec Size.
From Verif.Model Require Import Common.
Import ListNotations.

Section GD.
  Context {N : Num}.
  Notation vec := (list N).
  Variable stepSize : N.
  Variable maxIterations : nat.
  Variable tolerance : N.
  Variable f : vec -> N * vec.            (* f.EvaluateWithGradient *)
  Variable cb : CB N vec vec.

  Definition gd_done (v : N) (x : vec) (tr : list (ev N vec vec)) : Res N vec vec :=
    {| o_val := v; o_x := x; o_tr := rev (End x :: tr) |}.

  (* 70-112; arguments: i, overallObjective, lastObjective, terminate, iterate, trace *)
  Fixpoint gd_loop (fuel i : nat) (overall last : N) (term : bool) (x : vec)
      (tr : list (ev N vec vec)) : option (Res N vec vec) :=
    if negb (negb (i =? bound maxIterations) && negb term)                    (* 70 *)
    then Some (gd_done overall x tr)                                          (* 111-112 *)
    else
      match fuel with
      | O => None
      | S fuel' =>
          let '(v, g) := f x in                                               (* 72 *)
          let g' := cs_grad cb tr x v g in
          let tr1 := EvG x v g g' :: tr in
          let t1 := term || cs_stop cb tr1 in                                 (* 74-75 *)
          if nisnan v || nisinf v then Some (gd_done v x tr1)                 (* 81-89 *)
          else if nlt (nabs (nsub last v)) tolerance then Some (gd_done v x tr1)  (* 91-98 *)
          else
            let x' := vsub x (vscale stepSize g') in                          (* 104 *)
            let tr2 := St x' :: tr1 in
            let t2 := t1 || cs_stop cb tr2 in                                 (* 105 *)
            gd_loop fuel' (S i) v v t2 x' tr2
      end.

  (* 59-70 *)
  Definition gd (fuel : nat) (x : vec) : option (Res N vec vec) :=
    gd_loop fuel 1 nmax nmax false x [Begin x].
End GD.

(* 121-158: the overload for categorical features: [true] when it goes on to
   Optimize(), [false] when it throws invalid_argument *)
Definition gd_categorical_ok (n_rows : nat) (categorical : list bool) (numCategories : list nat) : bool :=
  if negb (length categorical =? n_rows) then false
  else if negb (length numCategories =? n_rows) then false
  else negb (existsb (fun b => b) categorical).
