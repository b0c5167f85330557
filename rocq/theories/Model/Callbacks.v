(** Model of the callback dispatch and of the shipped callbacks.
    Files: /repo/include/ensmallen_bits/callbacks/*.hpp. *)
From Coq Require Import List Arith Bool.
From Verif.Base Require Import Num.
Import ListNotations.

(** ** Dispatch (callbacks.hpp) *)

(** One hook of one callback object.  [S] is the state of the object, [A] the
    arguments of the event (Gradient hooks may change the gradient, StepTaken
    hooks the coordinates). *)
Inductive Hook (S A : Type) : Type :=
| Absent                                    (* hasNone, e.g. 846-849          *)
| Void (h : S -> A -> S * A)                (* hasVoid, e.g. 818-835          *)
| Bool (h : S -> A -> S * A * bool).        (* hasBool, e.g. 801-816          *)
Arguments Absent {S A}. Arguments Void {S A}. Arguments Bool {S A}.

(* EvaluateFunction 214-262, GradientFunction 396-450, BeginEpochFunction 614-673,
   EndEpochFunction 703-763, StepTakenFunction 793-849,
   GenerationalStepTakenFunction 887-949: a void hook counts as false, a missing
   hook too. *)
Definition call {S A : Type} (h : Hook S A) (s : S) (a : A) : S * A * bool :=
  match h with
  | Absent => (s, a, false)
  | Void h => let '(s', a') := h s a in (s', a', false)
  | Bool h => h s a
  end.

(* Evaluate 276-289, EvaluateConstraint 371-386, Gradient 463-475, GradientConstraint
   559-573, BeginEpoch 685-700, EndEpoch 775-790, StepTaken 862-873,
   GenerationalStepTaken 966-979:  { result = result || XFunction(callbacks, ...)... }.
   The last component logs which callbacks were called and what they answered. *)
Fixpoint pass {S A : Type} (i : nat) (result : bool) (pack : list (Hook S A * S)) (a : A)
  : list S * A * bool * list (nat * bool) :=
  match pack with
  | [] => ([], a, result, [])
  | (h, s) :: rest =>
      if result then
        let '(ss, a', b, log) := pass (Datatypes.S i) true rest a in (s :: ss, a', b, log)
      else
        let '(s', a1, b1) := call h s a in
        let '(ss, a', b, log) := pass (Datatypes.S i) b1 rest a1 in
        (s' :: ss, a', b, (i, b1) :: log)
  end.
Definition dispatch {S A : Type} (pack : list (Hook S A * S)) (a : A) := pass 0 false pack a.

(* EvaluateWithGradient 591-609: all Evaluate hooks, then all Gradient hooks, with
   one shared result.  [ev] and [gr] are the two hooks of each callback. *)
Definition dispatch_eval_grad {S A : Type} (pack : list (Hook S A * Hook S A * S)) (a : A)
  : list S * A * bool * list (nat * bool) * list (nat * bool) :=
  let '(ss, a1, b1, log1) := pass 0 false (map (fun c => (fst (fst c), snd c)) pack) a in
  let '(ss', a2, b2, log2) :=
    pass 0 b1 (combine (map (fun c => snd (fst c)) pack) ss) a1 in
  (ss', a2, b2, log1, log2).

(* BeginOptimization 109-129, EndOptimization 183-203: every callback, in order;
   answers are discarded. *)
Fixpoint dispatch_all {S A : Type} (pack : list (Hook S A * S)) (a : A) : list S * A :=
  match pack with
  | [] => ([], a)
  | (h, s) :: rest =>
      let '(s', a1, _) := call h s a in
      let '(ss, a') := dispatch_all rest a1 in (s' :: ss, a')
  end.

(** ** EarlyStopAtMinLoss (early_stop_at_min_loss.hpp) *)
Record EarlyStop (N : Num) : Type := { es_best : N; es_steps : nat }.
Arguments es_best {N}. Arguments es_steps {N}.
(* 35-40; numeric_limits<double>::max() *)
Definition es_init {N : Num} : EarlyStop N := {| es_best := nmax; es_steps := 0 |}.
(* 71-98; [objective] is the reported one or the one computed by localFunc (78-81) *)
Definition es_end_epoch {N : Num} (patience : nat) (s : EarlyStop N) (objective : N)
  : EarlyStop N * bool :=
  if nlt objective (es_best s) then ({| es_best := objective; es_steps := 0 |}, false)
  else let steps := S (es_steps s) in
       ({| es_best := es_best s; es_steps := steps |}, patience <=? steps).
(* the answers given for a whole sequence of epochs *)
Fixpoint es_run {N : Num} (patience : nat) (s : EarlyStop N) (objs : list N)
  : EarlyStop N * list bool :=
  match objs with
  | [] => (s, [])
  | o :: r => let '(s1, b) := es_end_epoch patience s o in
              let '(s2, bs) := es_run patience s1 r in (s2, b :: bs)
  end.

(** ** StoreBestCoordinates (store_best_coordinates.hpp) *)
Record StoreBest (N : Num) (X : Type) : Type := { sb_obj : N; sb_x : option X }.
Arguments sb_obj {N X}. Arguments sb_x {N X}.
(* 31-32; bestCoordinates is an empty matrix ([None]) until something is stored *)
Definition sb_init {N : Num} {X : Type} : StoreBest N X := {| sb_obj := nmax; sb_x := None |}.
(* 42-54 *)
Definition sb_evaluate {N : Num} {X : Type} (s : StoreBest N X) (x : X) (o : N) : StoreBest N X :=
  if nlt o (sb_obj s) then {| sb_obj := o; sb_x := Some x |} else s.
Definition sb_run {N : Num} {X : Type} (evs : list (X * N)) : StoreBest N X :=
  fold_left (fun s e => sb_evaluate s (fst e) (snd e)) evs sb_init.

(** ** Gradient clipping *)
(* arma::clamp on one element *)
Definition clamp1 {N : Num} (lo hi v : N) : N :=
  if nlt v lo then lo else if nlt hi v then hi else v.
(* arma::clamp: throws when min > max ([None]) *)
Definition clamp {N : Num} (lo hi : N) (v : list N) : option (list N) :=
  if nlt hi lo then None else Some (map (clamp1 lo hi) v).
(* grad_clip_by_value.hpp, 41-49; gradient_clipping.hpp, 97-110 passes the clamped
   gradient to the wrapped policy. *)
Definition grad_clip_by_value {N : Num} (lo hi : N) (g : list N) : option (list N) := clamp lo hi g.
(* gradient_clipping.hpp, 97-110 *)
Definition gradient_clipping_update {N : Num} {U : Type} (lo hi : N)
    (inner : U -> list N -> N -> list N -> U * list N)
    (u : U) (x : list N) (step : N) (g : list N) : option (U * list N) :=
  match clamp lo hi g with None => None | Some g' => Some (inner u x step g') end.

(* grad_clip_by_norm.hpp, 42-52; [norm] is arma::norm *)
Definition grad_clip_by_norm {N : Num} (norm : list N -> N) (maxNorm : N) (g : list N) : list N :=
  let gn := norm g in
  if nlt maxNorm gn then map (fun v => ndiv v gn) (map (fun v => nmul maxNorm v) g) else g.
(* arma::norm of a vector *)
Definition euclid {N : Num} (g : list N) : N :=
  nsqrt (fold_left (fun a v => nadd a (nmul v v)) g n0).

(** ** QueryFront (query_front.hpp, 46-75): every queryRate-th call stores the
    objectives of the members of the first front. [None]: genCounter % 0. *)
Definition query_front {V : Type} (rate counter : nat) (objs : list V) (front : list nat)
    (store : list (list V)) (d : V) : option (nat * list (list V)) :=
  if rate =? 0 then None
  else Some (S counter,
             if counter mod rate =? 0 then store ++ [map (fun i => nth i objs d) front] else store).
