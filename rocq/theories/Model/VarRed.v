(** What SVRG, SARAH and Katyusha have in common: the events of a run, the passes over
    the data that compute the objective and the full gradient.
    Files: /repo/include/ensmallen_bits/{svrg/svrg,sarah/sarah,katyusha/katyusha}_impl.hpp. *)
From Coq Require Import List Arith Bool.
From Verif.Base Require Import Num Vec Size Loop.
From Verif.Model Require Import Common.
Import ListNotations.

(** What the user sees of a call.  A gradient event carries the value the function
    computed and what the Gradient hooks made of it (Callback::Gradient passes it by
    reference); [VGradQ] is a gradient evaluation no callback is told about.  A step
    carries the step size in force (optimizer.StepSize()). *)
Inductive vev (N : Num) : Type :=
| VBegin (x : list N)
| VEval (x : list N) (begin count : nat) (v : N)
| VGrad (x : list N) (begin count : nat) (g g' : list N)
| VGradQ (x : list N) (begin count : nat) (g : list N)
| VShuffle
| VStep (x : list N) (eta : N)
| VEnd (x : list N).
Arguments VBegin {N}. Arguments VEval {N}. Arguments VGrad {N}. Arguments VGradQ {N}.
Arguments VShuffle {N}. Arguments VStep {N}. Arguments VEnd {N}.

(** A separable differentiable function; the first argument of the evaluators is the
    number of Shuffle() calls made so far (as in Model/Sgd.v). *)
Record VFun (N : Num) : Type := {
  vf_num : nat;
  vf_eval : nat -> list N -> nat -> nat -> N;
  vf_grad : nat -> list N -> nat -> nat -> list N }.
Arguments vf_num {N}. Arguments vf_eval {N}. Arguments vf_grad {N}.

(** The callback pack: answers given the history, newest event first; [vc_hook h x g]
    is what the Gradient hooks make of a gradient. *)
Record VCB (N : Num) : Type := {
  vc_stop : list (vev N) -> bool;
  vc_hook : list (vev N) -> list N -> list N -> list N }.
Arguments vc_stop {N}. Arguments vc_hook {N}.

Definition is_shuffle {N : Num} (e : vev N) : bool := match e with VShuffle => true | _ => false end.
Definition shuffles {N : Num} (tr : list (vev N)) : nat := length (filter is_shuffle tr).

(** Which gradient goes into the sum, and is the callback told?
    [Hooked]: callback first, then the sum (svrg 184-188);
    [Before]: the sum first, then the callback (katyusha 163-167);
    [Quiet]: no callback (sarah 143-144). *)
Inductive gmode : Type := Hooked | Before | Quiet.

Section Pass.
  Context {N : Num}.
  Variable f : VFun N.
  Variable cb : VCB N.
  Variable b : nat.                              (* batchSize *)
  Notation n := (vf_num f).
  Notation trace := (list (vev N)).

  (** svrg 136-145, sarah 98-108, katyusha 119-129 and the final passes
      (251-263, 227-238, 249-261): the sum of the objectives of the batches. *)
  Fixpoint eval_pass (fuel : nat) (x : list N) (i : nat) (acc : N) (term : bool) (tr : trace) : option (N * bool * trace) :=
    if i <? n then
      match fuel with
      | O => None
      | S fuel =>
          let c := Nat.min b (n - i) in
          let v := vf_eval f (shuffles tr) x i c in
          let tr := VEval x i c v :: tr in
          eval_pass fuel x (i + b) (nadd acc v) (term || vc_stop cb tr) tr
      end
    else Some (acc, term, tr).

  (** A gradient evaluation of a batch with its callback. *)
  Definition grad_at (x : list N) (i c : nat) (term : bool) (tr : trace) : list N * list N * bool * trace :=
    let g := vf_grad f (shuffles tr) x i c in
    let g' := vc_hook cb tr x g in
    let tr := VGrad x i c g g' :: tr in
    (g, g', term || vc_stop cb tr, tr).

  (** svrg 178-191, sarah 137-147, katyusha 157-170: the other batches are added. *)
  Fixpoint grad_pass (m : gmode) (fuel : nat) (x : list N) (i : nat) (acc : list N) (term : bool) (tr : trace)
      : option (list N * bool * trace) :=
    if i <? n then
      match fuel with
      | O => None
      | S fuel =>
          let c := Nat.min b (n - i) in
          match m with
          | Hooked => let '(_, g', term, tr) := grad_at x i c term tr in
                      grad_pass m fuel x (i + c) (vadd acc g') term tr
          | Before => let '(g, _, term, tr) := grad_at x i c term tr in
                      grad_pass m fuel x (i + c) (vadd acc g) term tr
          | Quiet => let g := vf_grad f (shuffles tr) x i c in
                     grad_pass m fuel x (i + c) (vadd acc g) term (VGradQ x i c g :: tr)
          end
      end
    else Some (acc, term, tr).

  (** svrg 172-192, sarah 132-148, katyusha 153-171: the full gradient; the first batch
      is evaluated at [x1] (the same point as the others but in Katyusha). *)
  Definition full_gradient (m : gmode) (fuel : nat) (x1 x : list N) (term : bool) (tr : trace) : option (list N * bool * trace) :=
    let c := Nat.min b n in
    let '(_, g', term, tr) := grad_at x1 0 c term tr in
    match grad_pass m fuel x c g' term tr with
    | None => None
    | Some (s, term, tr) => Some (map (fun a => ndiv a (nofnat n)) s, term, tr)
    end.
End Pass.
