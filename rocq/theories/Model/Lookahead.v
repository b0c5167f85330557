(** Model of ens::Lookahead::Optimize.
    File: /repo/include/ensmallen_bits/lookahead/lookahead_impl.hpp. *)
From Coq Require Import List Arith Bool.
From Verif.Base Require Import Num Vec Size Loop.
From Verif.Model Require Import Common Sgd.
Import ListNotations.

(** What happens during a call.  [LRun] is one call of baseOptimizer.Optimize() (145):
    where it starts, where it ends, what it returns and the events E it shows to the
    callbacks (the same pack is passed on). *)
Inductive lev (N : Num) (E : Type) : Type :=
| LBegin (x : list N)
| LRun (slow fast : list N) (obj : N) (inner : list E)
| LStep (x : list N)
| LEval (x : list N) (begin count : nat) (obj : N)
| LEnd (x : list N).
Arguments LBegin {N E}. Arguments LRun {N E}. Arguments LStep {N E}. Arguments LEval {N E}. Arguments LEnd {N E}.

(** One round, for the theorems: iterate before, iterate of the inner run, its
    objective, the step size used and the state of the decay policy after it. *)
Record lround (N : Num) (D : Type) : Type := { rd_slow : list N; rd_fast : list N; rd_obj : N; rd_step : N; rd_d : D }.
Arguments Build_lround {N D}. Arguments rd_slow {N D}. Arguments rd_fast {N D}. Arguments rd_obj {N D}.
Arguments rd_step {N D}. Arguments rd_d {N D}.

Section Lookahead.
  Context {N : Num} {B D E : Type}.
  Notation vec := (list N).
  (** baseOptimizer.Optimize(): maxIterations, state of the object, history so far,
      iterate; None if it does not return. *)
  Variable base : nat -> B -> list (lev N E) -> vec -> option (B * vec * N * list E).
  Variable has_max : bool.             (* HasMaxIterationsSignature<BaseOptimizerType> *)
  Variable base_max : nat.             (* the limit the base optimizer was made with   *)
  Variables (k maxIterations : nat) (tolerance : N) (exactObjective : bool).
  Variable dp : D -> vec -> N -> vec -> D * N.       (* InstDecayPolicyType::Update    *)
  Variable numFunctions batchSize : nat.             (* batchSize: the base's, or 1 (184-188) *)
  Variable feval : list (lev N E) -> vec -> nat -> nat -> N.  (* f.Evaluate(iterate, i, n), as f stands after a history *)
  Variable stop : list (lev N E) -> bool.            (* StepTaken, given the history, newest first *)

  (** 103 and lookahead.hpp 203-219 *)
  Definition inner_max : nat := if has_max then k else base_max.

  Record lst : Type := { l_b : B; l_d : D; l_step : N; l_x : vec; l_last : N; l_over : N; l_term : bool;
                         l_i : nat; l_tr : list (lev N E); l_log : list (lround N D) }.

  Inductive lexit : Type :=
  | LDone (s : lst)          (* the loop condition is false (138)    *)
  | LConv (s : lst)          (* return at 158 or 168                 *)
  | LHang.                   (* the base optimizer did not return    *)

  (** 136-137 *)
  Definition lmax : nat := match maxIterations with O => size_max | _ => maxIterations end.

  (** 138-178: one round.  The decay policy is consulted before the convergence tests
      and before the step is used (149). *)
  Definition lbody (s : lst) : lst + lexit :=
    if negb ((l_i s <? lmax) && negb (l_term s)) then inr (LDone s) else
    match base inner_max (l_b s) (l_tr s) (l_x s) with
    | None => inr LHang
    | Some (b, fast, obj, inner) =>
        let '(d, step) := dp (l_d s) (l_x s) (l_step s) fast in
        let log := {| rd_slow := l_x s; rd_fast := fast; rd_obj := obj; rd_step := step; rd_d := d |} :: l_log s in
        let tr := LRun (l_x s) fast obj inner :: l_tr s in
        if nisnan obj || nisinf obj || nlt (nabs (nsub (l_last s) obj)) tolerance
        then inr (LConv {| l_b := b; l_d := d; l_step := step; l_x := fast; l_last := l_last s; l_over := obj;
                           l_term := l_term s; l_i := l_i s; l_tr := tr; l_log := log |})
        else
          let x := vadd (l_x s) (vscale step (vsub fast (l_x s))) in
          let tr := LStep x :: tr in
          inl {| l_b := b; l_d := d; l_step := step; l_x := x; l_last := obj; l_over := obj;
                 l_term := l_term s || stop tr; l_i := S (l_i s); l_tr := tr; l_log := log |}
    end.

  (** 190-201 *)
  Fixpoint lexact (fuel : nat) (x : vec) (i : nat) (acc : N) (tr : list (lev N E)) : option (N * list (lev N E)) :=
    if i <? numFunctions then
      match fuel with
      | O => None
      | S fuel =>
          let n := Nat.min batchSize (numFunctions - i) in
          let obj := feval tr x i n in
          lexact fuel x (i + batchSize) (nadd acc obj) (LEval x i n obj :: tr)
      end
    else Some (acc, tr).

  Record lres : Type := { lr_val : N; lr_x : vec; lr_tr : list (lev N E);   (* oldest first *)
                          lr_log : list (lround N D);                       (* oldest first *)
                          lr_conv : bool;                                   (* left by 158 or 168 *)
                          lr_b : B; lr_d : D; lr_step : N                   (* members after the call *) }.
  Definition lfinish (s : lst) (conv : bool) (v : N) (tr : list (lev N E)) : lres :=
    {| lr_val := v; lr_x := l_x s; lr_tr := rev (LEnd (l_x s) :: tr); lr_log := rev (l_log s); lr_conv := conv;
       lr_b := l_b s; lr_d := l_d s; lr_step := l_step s |}.

  (** 76-206; [d], [step] are the members when the call starts (the decay policy
      instantiated, 124-131). *)
  Definition lookahead (fuel : nat) (b : B) (d : D) (step : N) (x : vec) : outc lres :=
    match loop lbody fuel {| l_b := b; l_d := d; l_step := step; l_x := x; l_last := nmax; l_over := n0;
                             l_term := false; l_i := 0; l_tr := [LBegin x]; l_log := [] |} with
    | inl _ => More
    | inr LHang => More
    | inr (LConv s) => Ret (lfinish s true (l_over s) (l_tr s))
    | inr (LDone s) =>
        if exactObjective then
          match lexact fuel (l_x s) 0 n0 (l_tr s) with
          | Some (v, tr) => Ret (lfinish s false v tr)
          | None => More
          end
        else Ret (lfinish s false (l_over s) (l_tr s))
    end.
End Lookahead.

(** SGD as base optimizer (Model/Sgd.v): its policies and step size are its state; the
    function and the callbacks are as the history left them. *)
Section SgdBase.
  Context {N : Num} {G U D : Type}.
  Notation ev := (event N (list N) G).
  Definition sgd_base (c : nat -> Cfg N (list N) G U D) (f : list (lev N ev) -> SepFun N (list N) G)
      (cb : list (lev N ev) -> Callbacks N (list N) G) (fuel : nat)
      (maxIter : nat) (b : U * D * N) (h : list (lev N ev)) (x : list N) : option ((U * D * N) * list N * N * list ev) :=
    let '(u, d, step) := b in
    match optimize_with (c maxIter) (f h) (cb h) fuel u d step x with
    | Return r => Some ((r_u r, r_d r, r_step r), r_x r, r_val r, r_trace r)
    | _ => None
    end.
End SgdBase.
