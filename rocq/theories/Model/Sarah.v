(** Model of ens::SARAHType<UpdatePolicyType>::Optimize.
    File: /repo/include/ensmallen_bits/sarah/sarah_impl.hpp (line numbers are those of this
    file unless another one is named). *)
From Coq Require Import List Arith Bool.
From Verif.Base Require Import Num Vec Size Loop.
From Verif.Model Require Import Common VarRed SVRG.
Import ListNotations.

(** sarah_update.hpp and sarah_plus_update.hpp, Update: the new v and iterate *)
Definition sarah_v {N : Num} (v g g0 : list N) (c : nat) : list N := vadd v (map (fun a => ndiv a (nofnat c)) (vsub g g0)).
Definition sarah_x {N : Num} (x v : list N) (eta : N) : list N := vsub x (vscale eta v).
(** ... and the answer: SARAH never ends the inner loop, SARAH+ does when
    norm(v) <= gamma * vNorm *)
Definition sarah_early {N : Num} (v : list N) (vNorm : N) : bool := false.
Definition sarah_plus_early {N : Num} (norm : list N -> N) (gamma : N) (v : list N) (vNorm : N) : bool := nle (norm v) (nmul gamma vNorm).

Section Sarah.
  Context {N : Num}.
  Variable f : VFun N.
  Variable cb : VCB N.
  Variables (batchSize maxIterations : nat) (tolerance : N) (shuffle exactObjective : bool) (eta : N).  (* eta: stepSize *)
  Variable norm : list N -> N.                        (* arma::norm *)
  Variable early : list N -> N -> bool.               (* what Update answers, given v and vNorm *)
  Notation n := (vf_num f).
  Notation trace := (list (vev N)).

  Record qst : Type := { q_x : list N; q_x0 : list N; q_v : list N; q_f : nat; q_cur : nat; q_term : bool; q_tr : trace }.

  (** 158-218: one step of the inner loop; None is the % 0 of 162 *)
  Definition qbody (inner : nat) (vNorm : N) (s : qst) : qst + option qst :=
    if negb (q_f s <? inner) then inr (Some s) else
    if n =? 0 then inr None else
    let '(cur, tr) := if q_cur s mod n =? 0 then (0, if shuffle then VShuffle :: q_tr s else q_tr s) else (q_cur s, q_tr s) in
    let c := Nat.min batchSize (n - cur) in
    let '(_, g, term, tr) := grad_at f cb (q_x s) cur c (q_term s) tr in
    let '(_, g0, term, tr) := if 0 <? q_f s then grad_at f cb (q_x0 s) cur c term tr else (g, g, term, tr) in
    if term then inr (Some {| q_x := q_x s; q_x0 := q_x s; q_v := q_v s; q_f := q_f s; q_cur := cur; q_term := term; q_tr := tr |}) else
    let v := sarah_v (q_v s) g g0 c in
    let x := sarah_x (q_x s) v eta in
    if early v vNorm then
      inr (Some {| q_x := x; q_x0 := q_x s; q_v := v; q_f := q_f s; q_cur := cur; q_term := term; q_tr := tr |})
    else
      let tr := VStep x eta :: tr in
      inl {| q_x := x; q_x0 := q_x s; q_v := v; q_f := q_f s + c; q_cur := cur + c; q_term := term || vc_stop cb tr; q_tr := tr |}.

  Record ast : Type := { a_x : list N; a_last : N; a_over : N; a_term : bool; a_i : nat; a_tr : trace }.
  Inductive aexit : Type := ADone (s : ast) | AConv (s : ast) | ABad | AMore.

  (** 95-219: one outer iteration.  iterate0 still holds the point of the round before, or
      nothing; it is not read before it is set. *)
  Definition abody (fuel inner : nat) (s : ast) : ast + aexit :=
    if negb ((a_i s <? smax maxIterations) && negb (a_term s)) then inr (ADone s) else
    match eval_pass f cb batchSize fuel (a_x s) 0 n0 (a_term s) (a_tr s) with
    | None => inr AMore
    | Some (over, term, tr) =>
        if nisnan over || nisinf over || nlt (nabs (nsub (a_last s) over)) tolerance then
          inr (AConv {| a_x := a_x s; a_last := a_last s; a_over := over; a_term := term; a_i := a_i s; a_tr := tr |})
        else
        match full_gradient f cb batchSize Quiet fuel (a_x s) (a_x s) term tr with
        | None => inr AMore
        | Some (v, term, tr) =>
            if term then inr (ADone {| a_x := a_x s; a_last := over; a_over := over; a_term := term; a_i := a_i s; a_tr := tr |}) else
            match loop (qbody inner (norm v)) fuel
                       {| q_x := sarah_x (a_x s) v eta; q_x0 := []; q_v := v; q_f := 0; q_cur := 0; q_term := term; q_tr := tr |} with
            | inl _ => inr AMore
            | inr None => inr ABad
            | inr (Some t) =>
                inl {| a_x := q_x t; a_last := over; a_over := over; a_term := q_term t; a_i := S (a_i s); a_tr := q_tr t |}
            end
        end
    end.

  (** 50-243 *)
  Definition sarah (fuel innerIterations : nat) (x : list N) : outc (@vres N nat) :=
    let inner := inner_of f innerIterations in
    let fin (s : ast) v c tr := Ret {| vr_val := v; vr_x := a_x s; vr_tr := rev (VEnd (a_x s) :: tr); vr_conv := c; vr_st := inner |} in
    match loop (abody fuel inner) fuel {| a_x := x; a_last := nmax; a_over := n0; a_term := false; a_i := 0; a_tr := [VBegin x] |} with
    | inl _ => More
    | inr AMore => More
    | inr ABad => Bad
    | inr (AConv s) => fin s (a_over s) true (a_tr s)
    | inr (ADone s) =>
        if exactObjective then
          match eval_pass f cb batchSize fuel (a_x s) 0 n0 false (a_tr s) with
          | None => More
          | Some (v, _, tr) => fin s v false tr
          end
        else fin s (a_over s) false (a_tr s)
    end.
End Sarah.
