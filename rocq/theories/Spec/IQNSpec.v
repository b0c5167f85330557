(** Vocabulary for IQN (C57).  Traces are oldest first. *)
From Coq Require Import List Arith Bool Reals.
From Verif.Base Require Import Num Vec Size Instances.
From Verif.Model Require Import Common VarRed.
From Verif.Spec Require Import SgdSpec VarRedSpec LRSDPSpec SvecSpec.
Import ListNotations.

Section Spec.
  Context {N : Num}.
  Notation vec := (list N).
  Notation trace := (list (vev N)).

  (** The values in the trace are those of the function, the gradients averaged over the batch
      once the optimization has begun, and as the hooks left them. *)
  Definition begun (h : trace) : bool := existsb (fun e => match e with VBegin _ => true | _ => false end) h.
  Definition iq_computed (f : VFun N) (cb : VCB N) (tr : trace) : Prop :=
    forall h e rest, tr = h ++ e :: rest ->
    match e with
    | VEval x i c v => v = vf_eval f 0 x i c
    | VGrad x i c g g' => g = (if begun h then over_n c (vf_grad f 0 x i c) else vf_grad f 0 x i c) /\ g' = vc_hook cb (rev h) x g
    | _ => True
    end.

  (** The optimizer's memory is of some type S; [upd k x g s] is the step it makes from x with
      the gradient g of batch k, [still k x s] tells that batch k was last looked at in x. *)
  Context {S : Type}.
  Variable upd : nat -> vec -> vec -> S -> option (vec * S).
  Variable still : nat -> vec -> S -> bool.
  Variables (n b : nat) (eta : N).
  (** the size of batch k; there are [batches n b] *)
  Definition bsize (k : nat) : nat := Nat.min b (n - k * b).
  (** (first function, number of functions) of the batches in order *)
  Definition all_batches : list (nat * nat) := map (fun k => (k * b, bsize k)) (seq 0 (batches n b)).

  (** A visit of a batch: at which point; gradient before and after the hooks, and the point
      reached, unless nothing is done. *)
  Record ivisit : Type := { y_k : nat; y_x : vec; y_move : option (vec * vec * vec) }.
  Definition visit_events (v : ivisit) : trace :=
    match y_move v with
    | None => []
    | Some (g, g', to) => [VGrad (y_x v) (y_k v * b) (bsize (y_k v)) g g'; VStep to eta]
    end.
  Fixpoint visits (x : vec) (s : S) (l : list ivisit) (x' : vec) (s' : S) : Prop :=
    match l with
    | [] => x' = x /\ s' = s
    | v :: r => y_x v = x /\
        match y_move v with
        | None => still (y_k v) x s = true /\ visits x s r x' s'
        | Some (_, g', to) => still (y_k v) x s = false /\ length g' = length x /\
            exists s1, upd (y_k v) x g' s = Some (to, s1) /\ visits to s1 r x' s'
        end
    end.

  (** An iteration: the visits, then the objectives of the batches at the point reached. *)
  Record ipass : Type := { a_visits : list ivisit; a_x : vec; a_evals : list (@oeval N) }.
  Definition a_value (p : ipass) : N := ndiv (total (a_evals p)) (nofnat n).
  Definition pass_events (p : ipass) : trace := flat_map visit_events (a_visits p) ++ evs_of (a_x p) (a_evals p).
  (** Every batch is visited once, the first one last; every function is evaluated once. *)
  Definition pass_ok (p : ipass) : Prop :=
    map y_k (a_visits p) = seq 1 (batches n b - 1) ++ [0] /\ map fst (a_evals p) = all_batches.
  Fixpoint passes (x : vec) (s : S) (l : list ipass) (x' : vec) (s' : S) : Prop :=
    match l with
    | [] => x' = x /\ s' = s
    | p :: r => pass_ok p /\ exists s1, visits x s (a_visits p) (a_x p) s1 /\ passes (a_x p) s1 r x' s'
    end.

  Variables (tol : N) (cb : VCB N) (lim : nat).
  (** the objective ends the optimization *)
  Definition final (v : N) : bool := nisnan v || nisinf v || nlt v tol.
  (** What a call reports: the gradients [first] of the batches at a random point, then
      iterations.  It ends after the first one whose average objective is small (or not finite),
      or, if a callback asked to stop, at the end of that iteration, or after [lim] of them. *)
  Definition iqn_report (first : list (@geval N)) (init x : vec) (s : S) (value : N) (xf : vec) (tr : trace) (conv : bool) : Prop :=
    map fst first = all_batches /\
    exists ps s',
      passes x s ps xf s' /\
      (let pre := grs_of init first ++ [VBegin x] in
       tr = pre ++ flat_map pass_events ps ++ [VEnd xf] /\
       length ps <= lim /\
       (forall l p r, ps = l ++ p :: r -> ~ vasked cb (pre ++ flat_map pass_events l) /\ (r <> [] -> final (a_value p) = false)) /\
       value = last (map a_value ps) n0 /\
       if conv then ps <> [] /\ final value = true
       else (forall p, In p ps -> final (a_value p) = false) /\ (length ps = lim \/ vasked cb (pre ++ flat_map pass_events ps))).
End Spec.
Arguments ivisit : clear implicits. Arguments ipass : clear implicits.

(** ---- the quasi-Newton step, over the real numbers ---- *)
Section Real.
  Local Open Scope R_scope.
  Variable p : nat.                                  (* number of elements of the iterate *)
  Notation vec := (list R).
  Notation mat := (nat -> nat -> R).
  Definition comp (v : vec) (i : nat) : R := nth i v 0.
  Definition mvR (A : mat) (v : vec) (i : nat) : R := sum_n p (fun j => A i j * comp v j).
  Definition dotv_ (u v : nat -> R) : R := sum_n p (fun i => u i * v i).
  Definition diff (u v : vec) (i : nat) : R := comp u i - comp v i.

  (** What is known of a batch: the points it was looked at and its gradients there (hooks
      included), newest first.  The Hessian approximation starts as the identity and is updated
      with the BFGS formula. *)
  Fixpoint hess (h : list (vec * vec)) : mat :=
    match h with
    | (x, g) :: (((t, y) :: _) as h') =>
        let Q := hess h' in
        let s := diff x t in
        let d := diff g y in
        let Qs := fun i => sum_n p (fun j => Q i j * s j) in
        fun i j => Q i j + d i * d j / dotv_ d s - Qs i * Qs j / dotv_ s Qs
    | _ => fun i j => if i =? j then 1 else 0
    end.
  Definition newest (h : list (vec * vec)) : vec * vec := match h with e :: _ => e | [] => ([], []) end.
  (** The gradient at z of the batch's quadratic model around the newest point. *)
  Definition model_gradient (h : list (vec * vec)) (z : vec) (i : nat) : R :=
    sum_n p (fun j => hess h i j * (comp z j - comp (fst (newest h)) j)) + comp (snd (newest h)) i.
End Real.

(** What is known of batch k after the visits l (oldest first), newest first: where it was
    looked at and its average gradient there; at the start, the initial point. *)
Definition known {N : Num} (first : list (@geval N)) (init : list N) (l : list (ivisit N)) (k : nat) : list (list N * list N) :=
  rev (flat_map (fun v => if y_k v =? k then match y_move v with Some (_, g', _) => [(y_x v, g')] | None => [] end else []) l) ++
  match nth_error first k with Some q => [(init, over_n (snd (fst q)) (snd (snd q)))] | None => [] end.
(** The difference between the average gradient over the functions and the average over the
    batches of their average gradients, at the start. *)
Definition gap (n b : nat) (first : list ((nat * nat) * (list R * list R))) (i : nat) : R :=
  (sum_n (length first) (fun k => comp (snd (snd (nth k first ((0, 0)%nat, ([], []))))) i) / INR n -
   sum_n (length first) (fun k => comp (snd (snd (nth k first ((0, 0)%nat, ([], []))))) i / INR (bsize n b k)) / INR (length first))%R.
(** Positive definite; the condition on the curvature along a history. *)
Definition posdef (p : nat) (A : nat -> nat -> R) : Prop :=
  forall v : nat -> R, (exists i, i < p /\ v i <> 0%R) -> (0 < sum_n p (fun i => v i * sum_n p (fun j => A i j * v j)))%R.
Fixpoint curved (p : nat) (h : list (list R * list R)) : Prop :=
  match h with
  | (x, g) :: (((t, y) :: _) as h') => (0 < dotv_ p (diff g y) (diff x t))%R /\ curved p h'
  | _ => True
  end.
