(** Model of ens::POP_CMAES::Optimize (IPOP and BIPOP CMA-ES).
    File: /repo/include/ensmallen_bits/cmaes/pop_cmaes_impl.hpp (48-158).

    A run of CMAES::Optimize from the user's starting point is a parameter: run
    number, population size and step size give its result (value, point and events)
    and the number of function evaluations it adds to the member
    functionEvaluations.  Counters are natural numbers (no wrap-around). *)
From Coq Require Import List Arith Bool.
From Verif.Base Require Import Num.
From Verif.Model Require Import Common Callbacks.
Import ListNotations.

Section Pop.
  Context {N : Num}.
  Notation vec := (list N).
  Notation res := (Res N vec vec).
  Variable bipop : bool.
  Variables (maxRestarts maxFunctionEvaluations lambda0 : nat) (step0 : N).
  Variable run : nat -> nat -> N -> res * nat.
  Variable grow : nat -> nat.                  (* currentLargeLambda *= populationFactor *)
  Variable small : nat -> nat -> nat -> nat * N. (* 116-120: restart, default and current large lambda *)

  (** what StoreBestCoordinates, first of the callbacks, does during a run (CMAES
      only makes Evaluate callbacks) *)
  Definition watch (s : StoreBest N vec) (r : res) : StoreBest N vec :=
    fold_left (fun s e => match e with Ev x v => sb_evaluate s x v | _ => s end) (o_tr r) s.

  Record pst : Type := {
    q_sbc : StoreBest N vec; q_best : StoreBest N vec; q_obj : N;
    q_large : nat; q_fe : nat; q_total : nat; q_lb : nat; q_sb : nat; q_runs : list (res * nat)   (* newest first *)
  }.

  (** 81-151; [k] restarts left, [restart] the number of the restart *)
  Fixpoint pop_loop (k restart : nat) (s : pst) : pst :=
    match k with
    | O => s
    | S k' =>
        let big := negb bipop || (q_lb s <=? q_sb s) || (restart =? 0) || (restart =? maxRestarts - 1) in
        let large := if big then grow (q_large s) else q_large s in
        let '(lam, st) := if big then (large, step0) else small restart lambda0 large in
        let '(r, cost) := run (S restart) lam st in
        let sbc := watch (q_sbc s) r in
        let fe := q_fe s + cost in
        let better := nlt (o_val r) (q_obj s) in
        let s' := {| q_sbc := sbc; q_best := if better then sbc else q_best s;
                     q_obj := if better then o_val r else q_obj s;
                     q_large := large; q_fe := fe; q_total := q_total s + fe;
                     q_lb := if big then q_lb s + fe else q_lb s;
                     q_sb := if big then q_sb s else q_sb s + fe; q_runs := (r, cost) :: q_runs s |} in
        if maxFunctionEvaluations <=? q_total s' then s' else pop_loop k' (S restart) s'
    end.

  (** 54-157: the value returned, the iterate afterwards (None: an empty matrix) and
      the runs with their costs, oldest first.  (lambda0 is the population size after the first run,
      which replaces 0 by its default.) *)
  Definition pop_optimize : N * option vec * list (res * nat) :=
    let '(r, cost) := run 0 lambda0 step0 in
    let sbc := watch sb_init r in
    let s := pop_loop maxRestarts 0
      {| q_sbc := sbc; q_best := sbc; q_obj := o_val r; q_large := lambda0; q_fe := cost; q_total := 0;
         q_lb := 0; q_sb := 0; q_runs := [(r, cost)] |} in
    (sb_obj (q_best s), sb_x (q_best s), rev (q_runs s)).

  (** All callbacks of a call that made the runs [rs]: those of the runs, then
      EndOptimization with the iterate of the last run (148, 156). *)
  Definition pop_events (rs : list (res * nat)) : list (ev N vec vec) :=
    flat_map (fun r => o_tr (fst r)) rs ++
    match rev rs with (r, _) :: _ => [End (o_x r)] | [] => [] end.
End Pop.
