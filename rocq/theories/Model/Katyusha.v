(** Model of ens::KatyushaType<Proximal>::Optimize.
    File: /repo/include/ensmallen_bits/katyusha/katyusha_impl.hpp. *)
From Coq Require Import List Arith Bool ZArith.
From Verif.Base Require Import Num Vec Size Loop.
From Verif.Model Require Import Common VarRed SVRG.
Import ListNotations.

Section Katyusha.
  Context {N : Num}.
  Variable f : VFun N.
  Variable cb : VCB N.
  Variable proximal : bool.                                             (* template argument *)
  Variables (convexity lipschitz : N) (batchSize maxIterations : nat) (tolerance : N) (shuffle exactObjective : bool).
  Notation n := (vf_num f).
  Notation trace := (list (vev N)).
  Definition num (z : Z) : N := nofZ z.
  Definition stdmin (a b : N) : N := if nlt b a then b else a.          (* std::min *)

  (** 79-81 *)
  Definition knumBatches (inner : nat) : nat := inner / batchSize + (if n mod batchSize =? 0 then 0 else 1).
  (** 83-88 *)
  Definition tau1 : N := stdmin (ndiv n1 (num 2)) (nsqrt (ndiv (nmul (nofnat batchSize) convexity) (nmul (num 3) lipschitz))).
  Definition tau2 : N := ndiv n1 (num 2).
  Definition alpha : N := ndiv n1 (nmul (nmul (num 3) tau1) lipschitz).
  Definition kr (inner : nat) : N :=
    nadd n1 (stdmin (nmul alpha convexity) (ndiv n1 (ndiv (num 4) (nofnat inner)))).
  (** 91-96 *)
  Fixpoint knorm (r : N) (k : nat) (acc : N) : N := match k with O => acc | S k => knorm r k (nmul r (nadd acc n1)) end.
  Definition normalizer (inner : nat) : N := ndiv n1 (knorm (kr inner) (knumBatches inner) n1).

  Record kst : Type := { k_x : list N; k_y : list N; k_z : list N; k_w : list N; k_cw : N; k_f : nat; k_cur : nat; k_term : bool; k_tr : trace }.

  (** 192, 210-211, 216-229: the coupling steps *)
  Definition kat_x (x0 y z : list N) : list N := vadd (vadd (vscale tau1 z) (vscale tau2 x0)) (vscale (nsub (nsub n1 tau1) tau2) y).
  Definition kat_z (z full g g0 : list N) : list N :=
    vsub z (vscale alpha (vadd full (map (fun a => ndiv a (nofnat batchSize)) (vsub g g0)))).
  Definition kat_y (x w z z' : list N) : list N :=
    if proximal then vadd x (vscale (ndiv n1 (nmul (num 3) lipschitz)) w) else vadd x (vscale tau1 (vsub z' z)).

  (** 177-239: one step of the inner loop; None is the % 0 of 181.  The step event carries
      alpha (Katyusha has no step size member). *)
  Definition kbody (inner : nat) (x0 full : list N) (s : kst) : kst + option kst :=
    if negb ((k_f s <? inner) && negb (k_term s)) then inr (Some s) else
    if n =? 0 then inr None else
    let '(cur, tr) := if k_cur s mod n =? 0 then (0, if shuffle then VShuffle :: k_tr s else k_tr s) else (k_cur s, k_tr s) in
    let c := Nat.min batchSize (n - cur) in
    let x := kat_x x0 (k_y s) (k_z s) in
    let tr := VStep x alpha :: tr in
    let term := k_term s || vc_stop cb tr in
    let '(_, g, term, tr) := grad_at f cb x cur c term tr in
    let '(_, g0, term, tr) := grad_at f cb x0 cur c term tr in
    let z' := kat_z (k_z s) full g g0 in
    inl {| k_x := x; k_y := kat_y x (k_w s) (k_z s) z'; k_z := z'; k_w := vadd (k_w s) (vscale (k_cw s) x);
           k_cw := nmul (k_cw s) (kr inner); k_f := k_f s + c; k_cur := cur + c; k_term := term; k_tr := tr |}.

  Record hst : Type := { h_x : list N; h_x0 : list N; h_y : list N; h_z : list N; h_last : N; h_over : N; h_term : bool; h_i : nat; h_tr : trace }.
  Inductive hexit : Type := HDone (s : hst) | HConv (s : hst) | HBad | HMore.

  (** 116-241: one outer iteration.  The objective and all but the first batch of the full
      gradient are those of iterate0, the first batch is that of iterate (154). *)
  Definition hbody (fuel inner : nat) (s : hst) : hst + hexit :=
    if negb ((h_i s <? smax maxIterations) && negb (h_term s)) then inr (HDone s) else
    match eval_pass f cb batchSize fuel (h_x0 s) 0 n0 (h_term s) (h_tr s) with
    | None => inr HMore
    | Some (over, term, tr) =>
        if nisnan over || nisinf over || nlt (nabs (nsub (h_last s) over)) tolerance then
          inr (HConv {| h_x := h_x s; h_x0 := h_x0 s; h_y := h_y s; h_z := h_z s; h_last := h_last s; h_over := over;
                        h_term := term; h_i := h_i s; h_tr := tr |})
        else
        match full_gradient f cb batchSize Before fuel (h_x s) (h_x0 s) term tr with
        | None => inr HMore
        | Some (full, term, tr) =>
            match loop (kbody inner (h_x0 s) full) fuel
                       {| k_x := h_x s; k_y := h_y s; k_z := h_z s; k_w := map (fun _ => n0) (h_x s); k_cw := n1;
                          k_f := 0; k_cur := 0; k_term := term; k_tr := tr |} with
            | inl _ => inr HMore
            | inr None => inr HBad
            | inr (Some t) =>
                inl {| h_x := k_x t; h_x0 := vscale (normalizer inner) (k_w t); h_y := k_y t; h_z := k_z t; h_last := over;
                       h_over := over; h_term := k_term t; h_i := S (h_i s); h_tr := k_tr t |}
            end
        end
    end.

  (** 50-266 *)
  Definition katyusha (fuel innerIterations : nat) (x : list N) : outc (@vres N nat) :=
    let inner := inner_of f innerIterations in
    let fin (s : hst) v c tr := Ret {| vr_val := v; vr_x := h_x s; vr_tr := rev (VEnd (h_x s) :: tr); vr_conv := c; vr_st := inner |} in
    if batchSize =? 0 then Bad else                                     (* 79 *)
    match loop (hbody fuel inner) fuel {| h_x := x; h_x0 := x; h_y := x; h_z := x; h_last := nmax; h_over := n0;
                                          h_term := false; h_i := 0; h_tr := [VBegin x] |} with
    | inl _ => More
    | inr HMore => More
    | inr HBad => Bad
    | inr (HConv s) => fin s (h_over s) true (h_tr s)
    | inr (HDone s) =>
        if exactObjective then
          match eval_pass f cb batchSize fuel (h_x s) 0 n0 false (h_tr s) with
          | None => More
          | Some (v, _, tr) => fin s v false tr
          end
        else fin s (h_over s) false (h_tr s)
    end.
End Katyusha.
