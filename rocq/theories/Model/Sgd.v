(** Model of ens::SGD<UpdatePolicy, DecayPolicy>::Optimize.
    File: /repo/include/ensmallen_bits/sgd/sgd_impl.hpp (all line numbers below
    refer to it unless another file is named). *)
From Coq Require Import List Arith Bool.
From Verif.Base Require Import Num Loop Size.
Import ListNotations.

(** A separable differentiable function (the [SeparableFunctionType] template
    argument; /repo/include/ensmallen_bits/function.hpp, 33-99).  Shuffle()
    permutes its internal order: the first argument of the evaluators is the
    number of Shuffle() calls made so far, so every (also random) reordering is
    covered.  Arguments: shuffles, iterate, first function, number of functions. *)
Record SepFun (N : Num) (X G : Type) : Type := {
  sf_num : nat;                                     (* NumFunctions()           *)
  sf_eval : nat -> X -> nat -> nat -> N;            (* Evaluate                 *)
  sf_evalgrad : nat -> X -> nat -> nat -> N * G     (* EvaluateWithGradient     *)
}.
Arguments sf_num {N X G}. Arguments sf_eval {N X G}. Arguments sf_evalgrad {N X G}.

(** What happens during an optimization, as seen by the user: callback
    invocations with the data passed to them, and calls of Shuffle().  [EvalGrad]
    stands for the evaluation of a batch (145-147) and the EvaluateWithGradient
    callback that follows it (149); [x] is the iterate, [begin]/[count] the batch. *)
Inductive event (N : Num) (X G : Type) : Type :=
| BeginOpt (x : X)
| EndOpt (x : X)
| BeginEpoch (x : X) (epoch : nat) (obj : N)
| EndEpoch (x : X) (epoch : nat) (obj : N)
| EvalGrad (x : X) (begin count : nat) (obj : N) (g : G)
| Step (x : X)
| Eval (x : X) (begin count : nat) (obj : N)
| Shuffled.
Arguments BeginOpt {N X G}. Arguments EndOpt {N X G}. Arguments BeginEpoch {N X G}.
Arguments EndEpoch {N X G}. Arguments EvalGrad {N X G}. Arguments Step {N X G}.
Arguments Eval {N X G}. Arguments Shuffled {N X G}.

(** The pack of callbacks.  Callbacks are stateful objects; their state is a
    function of what they have been shown, so the answer of the pack is a
    function of the history (newest event first, the current event included).
    [cb_stop h] is the combined boolean result; [cb_grad h g] is the gradient
    after the Gradient hooks had the chance to modify it (GradClipByNorm,
    GradClipByValue).  Simplification: callbacks do not modify the iterate. *)
Record Callbacks (N : Num) (X G : Type) : Type := {
  cb_stop : list (event N X G) -> bool;
  cb_grad : list (event N X G) -> G -> G
}.
Arguments cb_stop {N X G}. Arguments cb_grad {N X G}.

(** Configuration: the members of the SGD object (sgd.hpp, 160-200) that
    Optimize() reads.  [up]/[dp] are the instantiated update and decay policies
    (sgd_impl.hpp, 153 and 159): state, iterate, step size, gradient. *)
Record Cfg (N : Num) (X G U D : Type) : Type := {
  c_batch : nat;                       (* batchSize      *)
  c_max : nat;                         (* maxIterations  *)
  c_tol : N;                           (* tolerance      *)
  c_shuffle : bool;                    (* shuffle        *)
  c_exact : bool;                      (* exactObjective *)
  c_up : U -> X -> N -> G -> U * X;    (* InstUpdatePolicyType::Update *)
  c_dp : D -> X -> N -> G -> D * N     (* InstDecayPolicyType::Update; it
                                          receives the iterate after the step
                                          and may change stepSize          *)
}.
Arguments c_batch {N X G U D}. Arguments c_max {N X G U D}. Arguments c_tol {N X G U D}.
Arguments c_shuffle {N X G U D}. Arguments c_exact {N X G U D}.
Arguments c_up {N X G U D}. Arguments c_dp {N X G U D}.

(** Local variables and the mutable members (stepSize and the instantiated
    policies live in the SGD object and outlast the call). *)
Record st (N : Num) (X G U D : Type) : Type := {
  s_i : nat;                 (* i                 (130) *)
  s_cf : nat;                (* currentFunction   (97)  *)
  s_epoch : nat;             (* epoch             (98)  *)
  s_overall : N;             (* overallObjective  (99)  *)
  s_last : N;                (* lastObjective     (100) *)
  s_term : bool;             (* terminate         (103) *)
  s_x : X;                   (* iterate                 *)
  s_u : U; s_d : D; s_step : N;
  s_shuf : nat;              (* Shuffle() calls so far  *)
  s_tr : list (event N X G)  (* trace, newest first     *)
}.
Arguments s_i {N X G U D}. Arguments s_cf {N X G U D}. Arguments s_epoch {N X G U D}.
Arguments s_overall {N X G U D}. Arguments s_last {N X G U D}. Arguments s_term {N X G U D}.
Arguments s_x {N X G U D}. Arguments s_u {N X G U D}. Arguments s_d {N X G U D}.
Arguments s_step {N X G U D}. Arguments s_shuf {N X G U D}. Arguments s_tr {N X G U D}.

Record res (N : Num) (X G U D : Type) : Type := {
  r_val : N;                  (* the returned objective                  *)
  r_x : X;                    (* the iterate after the call              *)
  r_u : U; r_d : D; r_step : N;   (* members after the call              *)
  r_trace : list (event N X G)    (* what happened, oldest first         *)
}.
Arguments r_val {N X G U D}. Arguments r_x {N X G U D}. Arguments r_u {N X G U D}.
Arguments r_d {N X G U D}. Arguments r_step {N X G U D}. Arguments r_trace {N X G U D}.

Inductive outcome (A : Type) : Type :=
| Return (a : A)      (* normal return                                        *)
| UB                  (* undefined behaviour is reached                       *)
| Diverge.            (* not finished within the given number of loop steps   *)
Arguments Return {A}. Arguments UB {A}. Arguments Diverge {A}.

Section SGD.
  Context {N : Num} {X G U D : Type}.
  Variable c : Cfg N X G U D.
  Variable f : SepFun N X G.
  Variable cb : Callbacks N X G.

  (* 125-126 *)
  Definition actual_max : nat := if c_max c =? 0 then size_max else c_max c.

  (* terminate |= callback *)
  Definition ask (term : bool) (tr : list (event N X G)) : bool := term || cb_stop cb tr.

  (* How the main loop is left. *)
  Inductive exit : Type :=
  | Xloop (s : st N X G U D)                    (* loop condition false (130)  *)
  | Xret (s : st N X G U D)                     (* return at 181 or 190        *)
  | Xub.                                        (* % 0 at 166                  *)

  (* 166-206: the end of a pass; [s] has the updated counters. *)
  Definition epoch_end (s : st N X G U D) : st N X G U D + exit :=
    let n := sf_num f in
    (* 168-169; epoch++ *)
    let tr1 := EndEpoch (s_x s) (s_epoch s) (ndiv (s_overall s) (nofnat n)) :: s_tr s in
    let t1 := ask (s_term s) tr1 in
    let ep := S (s_epoch s) in
    let s1 := {| s_i := s_i s; s_cf := s_cf s; s_epoch := ep; s_overall := s_overall s;
                 s_last := s_last s; s_term := t1; s_x := s_x s; s_u := s_u s; s_d := s_d s;
                 s_step := s_step s; s_shuf := s_shuf s; s_tr := tr1 |} in
    if nisnan (s_overall s) || nisinf (s_overall s) then inr (Xret s1)         (* 175-182 *)
    else if nlt (nabs (nsub (s_last s) (s_overall s))) (c_tol c)
    then inr (Xret s1)                                                        (* 184-191 *)
    else
      (* 193-194 *)
      let tr2 := BeginEpoch (s_x s) ep (s_overall s) :: tr1 in
      let t2 := ask t1 tr2 in
      let more := negb (s_i s =? actual_max) in                                (* 197 *)
      inl {| s_i := s_i s;
             s_cf := if more then 0 else s_cf s;
             s_epoch := ep;
             s_overall := if more then n0 else s_overall s;
             s_last := if more then s_overall s else s_last s;
             s_term := t2; s_x := s_x s; s_u := s_u s; s_d := s_d s; s_step := s_step s;
             s_shuf := if c_shuffle c then S (s_shuf s) else s_shuf s;         (* 204-205 *)
             s_tr := if c_shuffle c then Shuffled :: tr2 else tr2 |}.

  (* 139-141 *)
  Definition effective_batch (s : st N X G U D) : nat :=
    Nat.min (Nat.min (c_batch c) (actual_max - s_i s)) (sf_num f - s_cf s).

  (* 130-207: one round of the loop *)
  Definition body (s : st N X G U D) : st N X G U D + exit :=
    if negb ((s_i s <? actual_max) && negb (s_term s)) then inr (Xloop s) else
    let k := effective_batch s in
    let '(obj, g) := sf_evalgrad f (s_shuf s) (s_x s) (s_cf s) k in            (* 145 *)
    let overall := nadd (s_overall s) obj in                                   (* 147 *)
    let tr1 := EvalGrad (s_x s) (s_cf s) k obj g :: s_tr s in
    let t1 := ask (s_term s) tr1 in                                            (* 149 *)
    let g' := cb_grad cb tr1 g in
    let '(u', x') := c_up c (s_u s) (s_x s) (s_step s) g' in                   (* 153 *)
    let tr2 := Step x' :: tr1 in
    let t2 := ask t1 tr2 in                                                    (* 156 *)
    let '(d', step') := c_dp c (s_d s) x' (s_step s) g' in                     (* 159 *)
    let s' := {| s_i := s_i s + k; s_cf := s_cf s + k;                         (* 162-163 *)
                 s_epoch := s_epoch s; s_overall := overall; s_last := s_last s;
                 s_term := t2; s_x := x'; s_u := u'; s_d := d'; s_step := step';
                 s_shuf := s_shuf s; s_tr := tr2 |} in
    if sf_num f =? 0 then inr Xub                                              (* 166: % 0 *)
    else if (s_cf s' mod sf_num f) =? 0 then epoch_end s' else inl s'.

  (* 94-103, 127-129: the state when the loop is entered *)
  Definition init (x : X) (u : U) (d : D) (step : N) : st N X G U D :=
    let tr := [BeginEpoch x 1 n0; BeginOpt x] in
    {| s_i := 0; s_cf := 0; s_epoch := 1; s_overall := n0; s_last := nmax;
       s_term := cb_stop cb tr; s_x := x; s_u := u; s_d := d; s_step := step;
       s_shuf := 0; s_tr := tr |}.

  (* 218-228: the exact objective, [fuel] rounds at most *)
  Fixpoint exact_loop (fuel : nat) (shuf : nat) (x : X) (i : nat) (acc : N)
      (tr : list (event N X G)) : option (N * list (event N X G)) :=
    if i <? sf_num f then
      match fuel with
      | O => None
      | S fuel' =>
          let k := Nat.min (c_batch c) (sf_num f - i) in
          let obj := sf_eval f shuf x i k in
          exact_loop fuel' shuf x (i + c_batch c) (nadd acc obj) (Eval x i k obj :: tr)
      end
    else Some (acc, tr).

  Definition finish (s : st N X G U D) (v : N) (tr : list (event N X G)) : res N X G U D :=
    {| r_val := v; r_x := s_x s; r_u := s_u s; r_d := s_d s; r_step := s_step s;
       r_trace := rev (EndOpt (s_x s) :: tr) |}.

  (* 63-233.  [u], [d], [step] are the members after the instantiation of the
     policies (105-121), which is modelled in Model/Reuse.v ([sgd_inst]). *)
  Definition optimize_with (fuel : nat) (u : U) (d : D) (step : N) (x : X)
    : outcome (res N X G U D) :=
    match loop body fuel (init x u d step) with
    | inl _ => Diverge
    | inr Xub => UB
    | inr (Xret s) => Return (finish s (s_overall s) (s_tr s))
    | inr (Xloop s) =>
        if c_exact c then
          match exact_loop fuel (s_shuf s) (s_x s) 0 n0 (s_tr s) with
          | None => Diverge
          | Some (v, tr) => Return (finish s v tr)
          end
        else Return (finish s (s_overall s) (s_tr s))
    end.
End SGD.
