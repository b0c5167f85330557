(** Model of ens::SVRGType<SVRGUpdate, DecayPolicyType>::Optimize.
    File: /repo/include/ensmallen_bits/svrg/svrg_impl.hpp (line numbers are those of this
    file unless another one is named). *)
From Coq Require Import List Arith Bool.
From Verif.Base Require Import Num Vec Size Loop.
From Verif.Model Require Import Common VarRed.
Import ListNotations.

(** svrg_update.hpp 57-67: iterate -= stepSize * (fullGradient + (gradient - gradient0) / batchSize) *)
Definition svrg_update {N : Num} (x full g g0 : list N) (c : nat) (eta : N) : list N :=
  vsub x (vscale eta (vadd full (map (fun a => ndiv a (nofnat c)) (vsub g g0)))).

(** barzilai_borwein_decay.hpp 89-108.  The state is fullGradient0 (empty at first); the
    gradient argument is unused.  [norm] is arma::norm; pow(a, 2.0) is a * a;
    std::min(a, b) is (b < a) ? b : a. *)
Definition bb_update {N : Num} (norm : list N -> N) (epsilon maxStep : N)
    (d x x0 full : list N) (numBatches : nat) (eta : N) : list N * N :=
  match d with
  | [] => (full, eta)
  | _ =>
      let p := norm (vsub x x0) in
      let e := ndiv (ndiv (nmul p p) (nadd (vdot (vsub x x0) (vsub full d)) epsilon)) (nofnat numBatches) in
      (full, if nlt maxStep e then maxStep else e)
  end.

(** no_decay.hpp 70-78 *)
Definition no_decay {N : Num} (d : unit) (x x0 full : list N) (numBatches : nat) (eta : N) : unit * N := (d, eta).

Section SVRG.
  Context {N : Num} {D : Type}.
  Variable f : VFun N.
  Variable cb : VCB N.
  Variables (batchSize maxIterations : nat) (tolerance : N) (shuffle exactObjective : bool).
  (** InstDecayPolicyType::Update; its gradient argument, which both shipped policies
      ignore, is left out. *)
  Variable dp : D -> list N -> list N -> list N -> nat -> N -> D * N.
  Notation n := (vf_num f).
  Notation trace := (list (vev N)).

  (** 98-99: an innerIterations of 0 is replaced (in the member) by numFunctions *)
  Definition inner_of (innerIterations : nat) : nat := match innerIterations with O => n | _ => innerIterations end.

  (** 126-128 *)
  Definition numBatches : nat := n / batchSize + (if n mod batchSize =? 0 then 0 else 1).

  Record ist : Type := { i_x : list N; i_f : nat; i_cur : nat; i_term : bool; i_tr : trace }.

  (** 200-238: one step of the inner loop; None is the % 0 of 204.  [inr] is the end of the
      loop, by its condition or by the break of 228. *)
  Definition ibody (inner : nat) (x0 full : list N) (eta : N) (s : ist) : ist + option ist :=
    if negb (i_f s <? inner) then inr (Some s) else
    if n =? 0 then inr None else
    let '(cur, tr) := if i_cur s mod n =? 0 then (0, if shuffle then VShuffle :: i_tr s else i_tr s) else (i_cur s, i_tr s) in
    let c := Nat.min batchSize (n - cur) in
    let '(_, g, term, tr) := grad_at f cb (i_x s) cur c (i_term s) tr in
    let '(_, g0, term, tr) := grad_at f cb x0 cur c term tr in
    if term then inr (Some {| i_x := i_x s; i_f := i_f s; i_cur := cur; i_term := term; i_tr := tr |}) else
    let x := svrg_update (i_x s) full g g0 c eta in
    let tr := VStep x eta :: tr in
    inl {| i_x := x; i_f := i_f s + c; i_cur := cur + c; i_term := term || vc_stop cb tr; i_tr := tr |}.

  Record sst : Type := { s_x : list N; s_d : D; s_eta : N; s_last : N; s_over : N; s_term : bool; s_i : nat; s_tr : trace }.
  Inductive sexit : Type :=
  | SDone (s : sst)                 (* loop condition false or break (133, 148, 194) *)
  | SConv (s : sst)                 (* return at 157 or 166                          *)
  | SBad
  | SMore.

  (** 130-131 *)
  Definition smax : nat := match maxIterations with O => size_max | _ => maxIterations end.

  (** 133-243: one outer iteration *)
  Definition sbody (fuel inner : nat) (s : sst) : sst + sexit :=
    if negb ((s_i s <? smax) && negb (s_term s)) then inr (SDone s) else
    match eval_pass f cb batchSize fuel (s_x s) 0 n0 (s_term s) (s_tr s) with
    | None => inr SMore
    | Some (over, term, tr) =>
        let s1 last tr := {| s_x := s_x s; s_d := s_d s; s_eta := s_eta s; s_last := last; s_over := over;
                             s_term := term; s_i := s_i s; s_tr := tr |} in
        if term then inr (SDone (s1 (s_last s) tr)) else
        if nisnan over || nisinf over || nlt (nabs (nsub (s_last s) over)) tolerance then inr (SConv (s1 (s_last s) tr)) else
        match full_gradient f cb batchSize Hooked fuel (s_x s) (s_x s) term tr with
        | None => inr SMore
        | Some (full, term, tr) =>
            if term then inr (SDone {| s_x := s_x s; s_d := s_d s; s_eta := s_eta s; s_last := over; s_over := over;
                                       s_term := term; s_i := s_i s; s_tr := tr |}) else
            match loop (ibody inner (s_x s) full (s_eta s)) fuel
                       {| i_x := s_x s; i_f := 0; i_cur := 0; i_term := term; i_tr := tr |} with
            | inl _ => inr SMore
            | inr None => inr SBad
            | inr (Some t) =>
                let '(d, eta) := dp (s_d s) (i_x t) (s_x s) full numBatches (s_eta s) in
                inl {| s_x := i_x t; s_d := d; s_eta := eta; s_last := over; s_over := over;
                       s_term := i_term t; s_i := S (s_i s); s_tr := i_tr t |}
            end
        end
    end.

  Record vres (A : Type) : Type := { vr_val : N; vr_x : list N; vr_tr : trace;       (* oldest first *)
                          vr_conv : bool;                                  (* returned at 157 or 166 *)
                          vr_st : A                                        (* members after the call *) }.
  Arguments vr_val {A}. Arguments vr_x {A}. Arguments vr_tr {A}. Arguments vr_conv {A}. Arguments vr_st {A}.

  (** 60-268.  [inner], [d], [eta] are the members innerIterations, decay policy and
      stepSize when the call starts; they are returned as the call leaves them. *)
  Definition svrg (fuel innerIterations : nat) (d : D) (eta : N) (x : list N) : outc (vres (nat * D * N)) :=
    let inner := inner_of innerIterations in
    let fin (s : sst) v c tr := Ret {| vr_val := v; vr_x := s_x s; vr_tr := rev (VEnd (s_x s) :: tr); vr_conv := c;
                             vr_st := (inner, s_d s, s_eta s) |} in
    if batchSize =? 0 then Bad else                           (* 126: numFunctions / 0 *)
    match loop (sbody fuel inner) fuel {| s_x := x; s_d := d; s_eta := eta; s_last := nmax; s_over := n0;
                                          s_term := false; s_i := 0; s_tr := [VBegin x] |} with
    | inl _ => More
    | inr SMore => More
    | inr SBad => Bad
    | inr (SConv s) => fin s (s_over s) true (s_tr s)
    | inr (SDone s) =>
        if exactObjective then
          match eval_pass f cb batchSize fuel (s_x s) 0 n0 false (s_tr s) with
          | None => More
          | Some (v, _, tr) => fin s v false tr
          end
        else fin s (s_over s) false (s_tr s)
    end.
End SVRG.
Arguments vr_val {N A}. Arguments vr_x {N A}. Arguments vr_tr {N A}. Arguments vr_conv {N A}. Arguments vr_st {N A}.
