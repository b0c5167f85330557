(** What PSO and ParallelSGD keep from one call of Optimize() to the next.
    Files: /repo/include/ensmallen_bits/pso/pso_impl.hpp, pso/init_policies/default_init.hpp,
    pso/update_policies/lbest_update.hpp, parallel_sgd/parallel_sgd_impl.hpp,
    parallel_sgd/decay_policies/exponential_backoff.hpp. *)
From Coq Require Import List Arith Bool ZArith.
From Verif.Base Require Import Num Vec.
From Verif.Model Require Import Common SA PSO ParallelSgd.
Import ListNotations.

Section Swarm.
  Context {N : Num}.
  Notation vec := (list N).
  Local Open Scope num_scope.
  (** lbest_update.hpp 105 *)
  Definition lbest_chi (phi : N) : N :=
    nofZ 2 / nabs (nofZ 2 - phi - nsqrt ((phi - nofZ 4) * phi)).
  (** 101-105: [phi] is a static local variable, so the first call in the program sets it for every
      PSO object ([None]: no call so far); [None] as a result: the assertion of 102 fails *)
  Definition lbest_initialize (phi : option N) (c1 c2 : N) : option (N * N) :=
    let p := match phi with Some p => p | None => c1 + c2 end in
    if nlt (nofZ 4) p then Some (p, lbest_chi p) else None.

  (** a call of Optimize(): the function, the callbacks, the random numbers for the positions, the
      velocities and the updates, and the starting point *)
  Record pso_in : Type := {
    pi_f : vec -> N; pi_cb : CB N vec vec; pi_us : list vec; pi_vs : list vec;
    pi_r1 : nat -> nat -> vec; pi_r2 : nat -> nat -> vec; pi_x : vec }.
  (** pso_impl.hpp 68-100: the bounds are members that the init policy takes by reference
      (default_init.hpp 57-58, 75-88), so the object keeps what it made of them; the second part of
      the state is the static variable.  Columns of one row or more; the assertions on the sizes of the bounds
      (91-94) are not modelled. *)
  Definition pso_call (maxIterations horizonSize : nat) (tol c1 c2 : N) (o : (vec * vec) * option N) (i : pso_in)
    : outc (Res N vec vec * ((vec * vec) * option N)) :=
    let '(lo, up) := init_bounds (fst (fst o)) (snd (fst o)) (length (pi_x i)) in
    match lbest_initialize (snd o) c1 c2 with
    | None => Bad
    | Some (p, chi) =>
        match pso_optimize maxIterations horizonSize tol (pi_f i)
                (fun it => lbest_velocity chi c1 c2 (pi_r1 i it) (pi_r2 i it)) (pi_cb i)
                (map (init_position lo up) (pi_us i)) (pi_vs i) (pi_x i) with
        | Some (Ret r) => Ret (r, ((lo, up), Some p))
        | Some Bad | None => Bad
        | Some More => More
        end
    end.
End Swarm.
Arguments pso_in : clear implicits.

Section Parallel.
  Context {N : Num}.
  Notation vec := (list N).
  (** the state of the policy after StepSize(1), ..., StepSize(k) *)
  Fixpoint backoff_after (q : nat) (beta : N) (st : nat * N) (k : nat) : nat * N :=
    match k with
    | O => st
    | S k' => snd (backoff q beta (backoff_after q beta st k') (S k'))
    end.
  (** the answer of the i-th call *)
  Definition backoff_step_size (q : nat) (beta : N) (st : nat * N) (i : nat) : N :=
    fst (backoff q beta (backoff_after q beta st (pred i)) i).
  (** the number of rounds that asked for a step size *)
  Definition rounds (tr : list (oev N)) : nat :=
    length (filter (fun e => match e with OEpoch _ _ _ _ _ => true | _ => false end) tr).
  (** the function, its gradients, the callbacks, the shuffles and the schedule of the threads *)
  Record psgd_in : Type := {
    pg_f : vec -> N; pg_perm : list (oev N) -> list nat -> list nat; pg_cbE : list (oev N) -> bool;
    pg_grad : list (oev N) -> list (pev N) -> nat -> list (nat * N);
    pg_cbG : list (oev N) -> list (pev N) -> bool; pg_cbS : list (oev N) -> list (pev N) -> bool;
    pg_sched : list (oev N) -> list nat; pg_n : nat; pg_x : vec }.
  (** parallel_sgd_impl.hpp 134: the decay policy is a member of the optimizer *)
  Definition psgd_call (maxIterations : nat) (tol : N) (shuffle : bool) (threads share q : nat) (beta : N) (fuel : nat)
      (o : nat * N) (i : psgd_in) : outc (N * vec * list (oev N) * (nat * N)) :=
    match psgd maxIterations tol shuffle threads share (pg_f i) (backoff_step_size q beta o) (pg_perm i) (pg_cbE i)
            (pg_grad i) (pg_cbG i) (pg_cbS i) (pg_sched i) (pg_n i) fuel (pg_x i) with
    | Ret (v, x, tr) => Ret ((v, x, tr), backoff_after q beta o (rounds tr))
    | Bad => Bad
    | More => More
    end.
End Parallel.
Arguments psgd_in : clear implicits.
