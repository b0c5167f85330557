(** swats/swats_update.hpp: Adam that switches to SGD with momentum. *)
From Coq Require Import List Arith Bool ZArith.
From Verif.Base Require Import Num Vec.
Import ListNotations.

Section Swats.
  Context {N : Num}.
  Variable pw : N -> nat -> N.            (* std::pow(double, size_t) *)
  Variables eps b1 b2 : N.
  Local Open Scope num_scope.

  (* m, v and iteration belong to the Policy (170-184); phaseSGD, sgdRate and
     sgdLambda to its parent, the SWATSUpdate object (187-205) *)
  Record swats : Type := {
    w_m : list N; w_v : list N; w_t : nat;
    w_phase : bool; w_rate : N; w_lambda : N
  }.
  (** 48-57: a new SWATSUpdate *)
  Definition parent0 : bool * N * N := (false, n0, n0).
  (** 106-115: a new Policy for n coordinates inside a given parent *)
  Definition swats_init (p : bool * N * N) (n : nat) : swats :=
    {| w_m := repeat n0 n; w_v := repeat n0 n; w_t := 0;
       w_phase := fst (fst p); w_rate := snd (fst p); w_lambda := snd p |}.
  Definition parent_of (s : swats) : bool * N * N := (w_phase s, w_rate s, w_lambda s).

  (** 124-169 *)
  Definition swats_up (s : swats) (x : list N) (h : N) (g : list N) : swats * list N :=
    let t := S (w_t s) in
    if w_phase s then
      let v := vadd (map (fun a => a * b1) (w_v s)) g in
      ({| w_m := w_m s; w_v := v; w_t := t; w_phase := true; w_rate := w_rate s; w_lambda := w_lambda s |},
       vsub x (vscale ((n1 - b1) * w_rate s) v))
    else
      let m := map2 (fun a b => a * b1 + (n1 - b1) * b) (w_m s) g in
      let v := map2 (fun a b => a * b2 + (n1 - b2) * (b * b)) (w_v s) g in
      let bc1 := n1 - pw b1 t in
      let bc2 := n1 - pw b2 t in
      let delta := map2 (fun a b => h * a / bc1 / (nsqrt (b / bc2) + eps)) m v in
      let x' := vsub x delta in
      let dg := vdot delta g in
      if negb (neq dg n0) then
        let rate := vdot delta delta / dg in
        let lambda := b2 * w_lambda s + (n1 - b2) * rate in
        let sgdRate := lambda / bc2 in
        if nlt (nabs (sgdRate - rate)) eps && (1 <? t)%nat then
          ({| w_m := m; w_v := repeat n0 (length v); w_t := t; w_phase := true; w_rate := sgdRate; w_lambda := lambda |}, x')
        else
          ({| w_m := m; w_v := v; w_t := t; w_phase := false; w_rate := sgdRate; w_lambda := lambda |}, x')
      else ({| w_m := m; w_v := v; w_t := t; w_phase := false; w_rate := w_rate s; w_lambda := w_lambda s |}, x').

  (** a sequence of updates, each (stepSize, gradient) *)
  Definition swats_run (s : swats) (x : list N) (l : list (N * list N)) : swats * list N :=
    fold_left (fun sx hg => swats_up (fst sx) (snd sx) (fst hg) (snd hg)) l (s, x).
End Swats.
