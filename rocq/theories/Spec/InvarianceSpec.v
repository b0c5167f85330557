(** Changing the coordinates: a sign and an offset for every coordinate, and a positive factor for
    the objective. *)
From Coq Require Import List Reals.
From Verif.Base Require Import Num Instances.
From Verif.Model Require Import Sgd Updates.
Import ListNotations.
Local Open Scope R_scope.

Fixpoint mapi (f : nat -> R -> R) (l : list R) : list R :=
  match l with [] => [] | a :: r => f 0%nat a :: mapi (fun i => f (S i)) r end.

(** ** One coordinate: iterate [x] becomes [sg * x + c], gradient [g] becomes [sg * k * g] *)
(** [up'] with the step sizes [eta h] follows [up] from the state [init], whatever the step sizes
    (all [ok]) and gradients *)
Definition follows {S : Type} (up up' : S -> R -> R -> R -> S * R) (init : S) (ok : R -> Prop) (eta : R -> R) (k : R) : Prop :=
  forall mx sg c x0 (l : list (R * R)), sg * sg = 1 -> Forall (fun hg => ok (fst hg)) l ->
  snd (run (N := RNum mx) up' init (sg * x0 + c) (map (fun hg => (eta (fst hg), sg * k * snd hg)) l))
  = sg * snd (run (N := RNum mx) up init x0 l) + c.

(** ** Functions *)
Section Moved.
  Variables (sg c : nat -> R) (k : R).
  Definition move (x : list R) : list R := mapi (fun i a => sg i * a + c i) x.
  Definition back (x : list R) : list R := mapi (fun i a => sg i * (a - c i)) x.
  Definition turn (g : list R) : list R := mapi (fun i a => sg i * k * a) g.
  (** the function x |-> k * f (back x), with its gradient *)
  Definition moved_function {mx : R} (f : SepFun (RNum mx) (list R) (list R)) : SepFun (RNum mx) (list R) (list R) :=
    Build_SepFun (RNum mx) (list R) (list R) (sf_num f)
      (fun s x b n => k * sf_eval f s (back x) b n)
      (fun s x b n => (k * fst (sf_evalgrad f s (back x) b n), turn (snd (sf_evalgrad f s (back x) b n)))).
  Definition moved_event {mx : R} (e : event (RNum mx) (list R) (list R)) : event (RNum mx) (list R) (list R) :=
    match e with
    | BeginOpt x => BeginOpt (move x)
    | EndOpt x => EndOpt (move x)
    | BeginEpoch x n v => BeginEpoch (N := RNum mx) (move x) n (k * v)
    | EndEpoch x n v => EndEpoch (N := RNum mx) (move x) n (k * v)
    | EvalGrad x b n v g => EvalGrad (N := RNum mx) (move x) b n (k * v) (turn g)
    | Step x => Step (move x)
    | Eval x b n v => Eval (N := RNum mx) (move x) b n (k * v)
    | Shuffled => Shuffled
    end.
  (** the second call does what the first does, in the new coordinates *)
  Definition moved_outcome {mx : R} {U D : Type} (o o' : outcome (res (RNum mx) (list R) (list R) U D)) : Prop :=
    match o, o' with
    | Return r, Return r' =>
        (r_val r' : R) = k * r_val r /\ r_x r' = move (r_x r) /\ r_trace r' = map moved_event (r_trace r)
    | UB, UB => True
    | Diverge, Diverge => True
    | _, _ => False
    end.
  (** the callbacks give the same answers in the new coordinates *)
  Definition moved_callbacks {mx : R} (cb cb' : Callbacks (RNum mx) (list R) (list R)) : Prop :=
    (forall tr, cb_stop cb' (map moved_event tr) = cb_stop cb tr) /\
    (forall tr g, cb_grad cb' (map moved_event tr) (turn g) = turn (cb_grad cb tr g)).
End Moved.

(** SGD with a coordinate-wise policy and no decay *)
Definition sgd_cfg {mx : R} {S : Type} (batch max : nat) (tol : R) (shuffle exact : bool) (up : S -> R -> R -> R -> S * R)
    : Cfg (RNum mx) (list R) (list R) (list S) unit :=
  {| c_batch := batch; c_max := max; c_tol := tol : T (RNum mx); c_shuffle := shuffle; c_exact := exact;
     c_up := vec_up (N := RNum mx) up; c_dp := fun d _ h _ => (d, h) |}.
