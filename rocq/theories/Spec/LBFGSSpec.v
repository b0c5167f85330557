(** Specification of L-BFGS, independent of the code: the textbook two-loop recursion,
    the BFGS inverse-Hessian matrices, the line search and the run. *)
From Coq Require Import List Arith Bool ZArith Reals.
From Verif.Base Require Import Num Vec.
From Verif.Model Require Import Common.
From Verif.Spec Require Import CommonSpec.
Import ListNotations.

Section Rec.
  Context {N : Num}.
  Notation vec := (list N).

  Definition curvature_weight (s y : vec) : N :=
    if neq (vdot y s) n0 then n1 else ndiv n1 (vdot y s).

  (** Nocedal's recursion over the pairs (s, y), newest first *)
  Fixpoint two_loop (gamma : N) (pairs : list (vec * vec)) (q : vec) : vec :=
    match pairs with
    | [] => map (fun e => nmul e gamma) q
    | (s, y) :: older =>
        let a := nmul (curvature_weight s y) (vdot s q) in
        let r := two_loop gamma older (vsub q (vscale a y)) in
        vadd r (vscale (nsub a (nmul (curvature_weight s y) (vdot y r))) s)
    end.
  (** the search direction: the negated result *)
  Definition direction (gamma : N) (pairs : list (vec * vec)) (g : vec) : vec :=
    map (fun e => nmul e (nopp n1)) (two_loop gamma pairs g).

  (** scaling of the initial matrix, from the newest pair if there is one *)
  Definition scaling (tol : N) (normF : vec -> N) (pairs : list (vec * vec)) (g : vec) : N :=
    match pairs with
    | [] => if nle tol (normF g) then ndiv n1 (normF g) else n1
    | (s, y) :: _ => ndiv (vdot s y) (if nle tol (vdot y y) then vdot y y else n1)
    end.

  (** ** A history of updates of the stored pairs: the k-th update (counted from [k])
      sees new and old iterate, new and old gradient *)
  Fixpoint feed (upd : nat -> vec -> vec -> vec -> vec -> list vec -> list vec -> option (list vec * list vec))
      (k : nat) (us : list (vec * vec * (vec * vec))) (s y : list vec) : option (list vec * list vec) :=
    match us with
    | [] => Some (s, y)
    | (x, x_old, (g, g_old)) :: r =>
        match upd k x x_old g g_old s y with
        | Some (s', y') => feed upd (S k) r s' y'
        | None => None
        end
    end.
  Definition difference (u : vec * vec * (vec * vec)) : vec * vec :=
    (vsub (fst (fst u)) (snd (fst u)), vsub (fst (snd u)) (snd (snd u))).

  (** ** Line search *)
  Section Search.
    Variables (armijo wolfe minStep maxStep : N) (maxTrials : nat).
    Variable f : vec -> N * vec.
    (** a trial: step size, value, gradient (after the callbacks) *)
    Notation trial := (N * N * vec)%type.
    Definition t_step (t : trial) : N := fst (fst t).
    Definition t_val (t : trial) : N := snd (fst t).
    Definition t_grad (t : trial) : vec := snd t.
    Definition at_step (x d : vec) (a : N) : vec := vadd x (vscale a d).

    (** the first trial has step 1, each later one 2.1 times or half the previous one *)
    Definition step_sizes (ts : list trial) : Prop :=
      (forall t, nth_error ts 0 = Some t -> t_step t = n1) /\
      (forall i t u, nth_error ts i = Some t -> nth_error ts (S i) = Some u ->
         t_step u = nmul (t_step t) (ndiv (nofZ 21) (nofZ 10)) \/
         t_step u = nmul (t_step t) (ndiv n1 (nofZ 2))).
    (** every trial shows the objective at its point *)
    Definition trial_values (x d : vec) (ts : list trial) : Prop :=
      forall t, In t ts -> t_val t = fst (f (at_step x d (t_step t))).

    (** sufficient decrease and the two-sided curvature condition *)
    Definition strong_wolfe (v0 slope : N) (d : vec) (t : trial) : Prop :=
      nlt (nadd v0 (nmul (t_step t) (nmul armijo slope))) (t_val t) = false /\
      nlt (vdot (t_grad t) d) (nmul wolfe slope) = false /\
      nlt (nmul (nopp wolfe) slope) (vdot (t_grad t) d) = false.
    Definition gave_up (ts : list trial) (t : trial) : Prop :=
      nlt (t_step t) minStep = true \/ nlt maxStep (t_step t) = true \/ maxTrials <= length ts.

    (** [a] is the step of the first trial with the least value (1 if no trial is below
        the largest finite number) *)
    Definition best_step (ts : list trial) (a : N) : Prop :=
      (exists i t, nth_error ts i = Some t /\ t_step t = a /\ nlt (t_val t) nmax = true /\
         forall j u, nth_error ts j = Some u ->
           nlt (t_val u) (t_val t) = false /\ (j < i -> nlt (t_val t) (t_val u) = true)) \/
      (a = n1 /\ forall t, In t ts -> nlt (t_val t) nmax = false).

    (** a successful search from [x] (value [v0], gradient [g]) along [d] *)
    Definition searched (v0 : N) (x g d : vec) (ts : list trial) (a : N) (v' : N) (x' g' : vec) : Prop :=
      nlt n0 (vdot g d) = false /\
      step_sizes ts /\ trial_values x d ts /\
      1 <= length ts <= Nat.max 1 maxTrials /\
      (forall t, In t ts -> nisnan (t_val t) = false) /\
      best_step ts a /\ x' = at_step x d a /\
      exists before t, ts = before ++ [t] /\ v' = t_val t /\ g' = t_grad t /\
        (strong_wolfe v0 (vdot g d) d t \/ gave_up ts t).

    (** the events of a search: one per trial *)
    Definition search_events (x d : vec) (ts : list trial) (tr : list (ev N vec vec)) : Prop :=
      Forall2 (fun t e => exists g, e = EvG (at_step x d (t_step t)) (t_val t) g (t_grad t) /\
                                    g = snd (f (at_step x d (t_step t)))) ts tr.
  End Search.

  (** ** The run *)
  Record point : Type := { p_x : vec; p_v : N; p_g : vec }.
  (** differences of consecutive points, oldest first *)
  Fixpoint pairs_of (ps : list point) : list (vec * vec) :=
    match ps with
    | p :: ((q :: _) as r) => (vsub (p_x q) (p_x p), vsub (p_g q) (p_g p)) :: pairs_of r
    | _ => []
    end.
  (** the [m] most recent pairs, newest first *)
  Definition memory (m : nat) (ps : list point) : list (vec * vec) := firstn m (rev (pairs_of ps)).

  Section Run.
    Variables (numBasis maxIterations : nat) (armijo minGradientNorm wolfe factr minStep maxStep : N) (maxTrials : nat).
    Variables (tol : N) (norm2 normF : vec -> N) (f : vec -> N * vec).
    Notation searched := (searched armijo wolfe minStep maxStep maxTrials f).

    Definition larger (a b : N) : N := if nlt a b then b else a.
    (** the relative decrease from [v] to [v'] does not exceed factr *)
    Definition stable (v v' : N) : Prop :=
      nle (ndiv (nsub v v') (larger (larger (nabs v) (nabs v')) n1)) factr = true.
    (** scaling and direction after the points [ps], whose last one has gradient [g] *)
    Definition scale_at (ps : list point) (g : vec) : N := scaling tol normF (memory numBasis ps) g.
    Definition dir_at (ps : list point) (g : vec) : vec := direction (scale_at ps g) (memory numBasis ps) g.

    (** [q] follows the points [ps], the last of which is [p] *)
    Definition follows (ps : list point) (p q : point) : Prop :=
      nlt (norm2 (p_g p)) minGradientNorm = false /\ nisnan (p_v p) = false /\
      neq (scale_at ps (p_g p)) n0 = false /\
      (exists ts a, searched (p_v p) (p_x p) (p_g p) (dir_at ps (p_g p)) ts a (p_v q) (p_x q) (p_g q) /\
                    neq a n0 = false) /\
      ~ stable (p_v p) (p_v q).
    Definition legal (ps : list point) : Prop :=
      forall i p q, nth_error ps i = Some p -> nth_error ps (S i) = Some q -> follows (firstn (S i) ps) p q.

    (** how a run that has visited the points [ps] ends, with value [v] and iterate [x];
        [stopped]: a callback has asked to stop, in this call or an earlier one *)
    Inductive ends (ps : list point) (p : point) (stopped : Prop) : N -> vec -> Prop :=
    | e_limit : maxIterations <> 0 -> length ps = S maxIterations -> ends ps p stopped (p_v p) (p_x p)
    | e_stopped : stopped -> ends ps p stopped (p_v p) (p_x p)
    | e_gradient : nlt (norm2 (p_g p)) minGradientNorm = true -> ends ps p stopped (p_v p) (p_x p)
    | e_nan : nisnan (p_v p) = true -> ends ps p stopped (p_v p) (p_x p)
    | e_scaling : neq (scale_at ps (p_g p)) n0 = true \/ nisnan (scale_at ps (p_g p)) = true \/
                  nisinf (scale_at ps (p_g p)) = true -> ends ps p stopped (p_v p) (p_x p)
    | e_uphill : (let slope := vdot (p_g p) (dir_at ps (p_g p)) in
                  nlt n0 slope = true \/ nisnan slope = true \/ nisinf slope = true) ->
                 ends ps p stopped (p_v p) (p_x p)
    | e_nan_trial : forall a v, v = fst (f (at_step (p_x p) (dir_at ps (p_g p)) a)) -> nisnan v = true ->
                    ends ps p stopped v (p_x p)
    | e_no_progress : forall ts a v x g,
        searched (p_v p) (p_x p) (p_g p) (dir_at ps (p_g p)) ts a v x g ->
        neq a n0 = true \/ stable (p_v p) v -> ends ps p stopped v x.
  End Run.
End Rec.

(** ** The BFGS matrices over the reals *)
Local Open Scope R_scope.
Fixpoint rsum (n : nat) (u : nat -> R) : R :=
  match n with O => 0 | S k => rsum k u + u k end.
Definition at_ (v : list R) (i : nat) : R := nth i v 0.
Definition rdot (n : nat) (u v : nat -> R) : R := rsum n (fun i => u i * v i).

Definition Mat := nat -> nat -> R.
Definition mid : Mat := fun i j => if Nat.eqb i j then 1 else 0.
Definition mmul (n : nat) (A B : Mat) : Mat := fun i j => rsum n (fun k => A i k * B k j).
Definition mtrans (A : Mat) : Mat := fun i j => A j i.
Definition mv (n : nat) (A : Mat) (x : nat -> R) : nat -> R := fun i => rsum n (fun j => A i j * x j).

(** rho = 1 / (y.s), or 1 when y.s = 0 *)
Definition rho (n : nat) (s y : list R) : R :=
  if Req_EM_T (rdot n (at_ y) (at_ s)) 0 then 1 else 1 / rdot n (at_ y) (at_ s).
(** H' = (I - rho s y^T) H (I - rho y s^T) + rho s s^T *)
Definition bfgs_update (n : nat) (s y : list R) (H : Mat) : Mat :=
  let V := fun i j => mid i j - rho n s y * at_ y i * at_ s j in
  fun i j => mmul n (mtrans V) (mmul n H V) i j + rho n s y * at_ s i * at_ s j.
(** H for the pairs, newest first, starting with gamma I *)
Fixpoint bfgs_inverse (n : nat) (gamma : R) (pairs : list (list R * list R)) : Mat :=
  match pairs with
  | [] => fun i j => gamma * mid i j
  | (s, y) :: older => bfgs_update n s y (bfgs_inverse n gamma older)
  end.
