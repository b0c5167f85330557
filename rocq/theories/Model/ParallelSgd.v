(** Model of ens::ParallelSGD.
    Files: /repo/include/ensmallen_bits/parallel_sgd/parallel_sgd_impl.hpp and decay_policies/.

    The iterate is a list of elements; a sparse gradient is the list of its non-zero elements
    (position, value) in the order of the iterators, with positions inside the iterate.

    Threads run as interleaved steps chosen by a schedule (a list of thread numbers).  A step is
    one evaluation of a gradient, one atomic subtraction, one load or one store of the shared flag
    [terminate] (the flag is an ordinary bool).  A gradient is computed while other threads write
    the iterate, so it is any function of the history so far.  The answers of the callbacks are
    functions of the history as well.  Products of thread number and share size are assumed
    not to exceed size_t. *)
From Coq Require Import List Arith Bool ZArith.
From Verif.Base Require Import Num.
From Verif.Model Require Import Common SA.
Import ListNotations.

Section Par.
  Context {N : Num}.
  Notation vec := (list N).
  Notation sparse := (list (nat * N)).

  Inductive pev : Type :=
  | PGrad (t idx : nat) (g : sparse) (ask : bool)  (* thread t: gradient of function idx, and the callbacks' answer *)
  | PSub (t p : nat) (a : N)                       (* element p of the iterate reduced by a *)
  | PTaken (t idx : nat) (ask : bool)              (* StepTaken and its answer *)
  | PLoad (t : nat) (b : bool)                     (* terminate read *)
  | PStore (t : nat) (b : bool).                   (* terminate written *)

  Record sh : Type := { s_it : vec; s_term : bool; s_log : list pev }.   (* shared; newest event first *)
  Inductive phase : Type :=
  | AtGrad                                         (* loop test, 151-153 *)
  | LoadG (ask : bool) (u : sparse)                (* 163: terminate |= ... *)
  | StoreG (b : bool) (u : sparse)
  | AtSub (u : sparse)                             (* 168-183 *)
  | LoadS (ask : bool)                             (* 184: terminate |= ... *)
  | StoreS (b : bool).
  Record loc : Type := { l_j : nat; l_ph : phase }.

  Definition sub_at (p : nat) (a : N) (x : vec) : vec :=                    (* UpdateLocation 24-46 *)
    match nth_error x p with Some b => set_nth p (nsub b a) x | None => x end.

  Variables (share : nat) (order : list nat) (step : N).
  Variable grad : list pev -> nat -> sparse.
  Variables (cbG cbS : list pev -> bool).

  Definition emit (e : pev) (s : sh) : sh := {| s_it := s_it s; s_term := s_term s; s_log := e :: s_log s |}.
  Definition scaled (g : sparse) : sparse := map (fun '(p, a) => (p, nmul step a)) g.   (* 181 *)
  Definition in_loop (t j : nat) : bool := (j <? (t + 1) * share) && (j <? length order).   (* 152 *)

  (* one step of thread t; None: it has left its loop *)
  Definition pstep (t : nat) (s : sh) (l : loc) : option (sh * loc) :=
    let idx := nth (l_j l) order 0 in
    match l_ph l with
    | AtGrad =>
        if in_loop t (l_j l) then
          let g := grad (s_log s) idx in                                     (* 161 *)
          let ask := cbG (PGrad t idx g false :: s_log s) in
          Some (emit (PGrad t idx g ask) s, {| l_j := l_j l; l_ph := LoadG ask (scaled g) |})
        else None
    | LoadG ask u => Some (emit (PLoad t (s_term s)) s, {| l_j := l_j l; l_ph := StoreG (s_term s || ask) u |})
    | StoreG b u =>
        Some ({| s_it := s_it s; s_term := b; s_log := PStore t b :: s_log s |}, {| l_j := l_j l; l_ph := AtSub u |})
    | AtSub ((p, a) :: u) =>
        Some ({| s_it := sub_at p a (s_it s); s_term := s_term s; s_log := PSub t p a :: s_log s |},
              {| l_j := l_j l; l_ph := AtSub u |})
    | AtSub [] =>
        let ask := cbS (PTaken t idx false :: s_log s) in
        Some (emit (PTaken t idx ask) s, {| l_j := l_j l; l_ph := LoadS ask |})
    | LoadS ask => Some (emit (PLoad t (s_term s)) s, {| l_j := l_j l; l_ph := StoreS (s_term s || ask) |})
    | StoreS b =>
        Some ({| s_it := s_it s; s_term := b; s_log := PStore t b :: s_log s |}, {| l_j := S (l_j l); l_ph := AtGrad |})
    end.

  (* the parallel region (142-187): the schedule names a thread for each step; a thread that
     does not exist or has finished does nothing *)
  Fixpoint pexec (sched : list nat) (s : sh) (ls : list loc) : sh * list loc :=
    match sched with
    | [] => (s, ls)
    | t :: r =>
        match nth_error ls t with
        | Some l => match pstep t s l with Some (s', l') => pexec r s' (set_nth t l' ls) | None => pexec r s ls end
        | None => pexec r s ls
        end
    end.
  Definition start (T : nat) : list loc := map (fun t => {| l_j := t * share; l_ph := AtGrad |}) (seq 0 T).   (* 151 *)
  Fixpoint finished_from (t : nat) (ls : list loc) : bool :=
    match ls with
    | [] => true
    | l :: r => match l_ph l with AtGrad => negb (in_loop t (l_j l)) | _ => false end && finished_from (S t) r
    end.
  Definition finished (ls : list loc) : bool := finished_from 0 ls.
End Par.
Arguments pev : clear implicits. Arguments sh : clear implicits. Arguments loc : clear implicits. Arguments phase : clear implicits.

(** ** The loop over epochs (96-193) *)
Section Loop.
  Context {N : Num}.
  Notation vec := (list N).
  Inductive oev : Type :=                              (* events of the main thread *)
  | OBegin (x : vec) | OEnd (x : vec)
  | OEval (x : vec) (v : N)
  | OEpoch (i : nat) (order : list nat) (step : N) (es : list (pev N)) (x : vec).   (* one parallel region; oldest event first *)

  Variables (maxIterations : nat) (tolerance : N) (shuffle : bool) (T share : nat).
  Variable f : vec -> N.                               (* Evaluate: the sum over all functions *)
  Variable step : nat -> N.                            (* decayPolicy.StepSize, called once for i = 1, 2, ... *)
  Variable perm : list oev -> list nat -> list nat.    (* arma::shuffle *)
  Variable cbE : list oev -> bool.                     (* answer of the Evaluate callbacks *)
  Variable grad : list oev -> list (pev N) -> nat -> list (nat * N).
  Variables (cbG cbS : list oev -> list (pev N) -> bool).
  Variable sched : list oev -> list nat.               (* the schedule of the epoch *)

  Fixpoint psgd_loop (fuel i : nat) (order : list nat) (x : vec) (last : N) (term : bool) (tr : list oev)
    : outc (N * vec * list oev) :=
    match fuel with
    | O => More
    | S fuel' =>
        if (i =? bound maxIterations) || term then Ret (last, x, rev (OEnd x :: tr))      (* 100, 189-193 *)
        else
          let v := f x in                                                                  (* 105 *)
          let tr := OEval x v :: tr in
          let term := cbE tr in                                                            (* 107 *)
          if nisnan v || nisinf v then Ret (v, x, rev (OEnd x :: tr))                      (* 114-122 *)
          else if nlt (nabs (nsub last v)) tolerance then Ret (v, x, rev (OEnd x :: tr))   (* 124-131 *)
          else
            let a := step i in                                                             (* 134 *)
            let order := if shuffle then perm tr order else order in                       (* 137-141 *)
            let '(s, ls) := pexec share order a (grad tr) (cbG tr) (cbS tr) (sched tr)
                              {| s_it := x; s_term := term; s_log := [] |} (start share T) in
            if finished share order ls then
              psgd_loop fuel' (S i) order (s_it s) v (s_term s) (OEpoch i order a (rev (s_log s)) (s_it s) :: tr)
            else More
    end.
  (* [nmax]: DBL_MAX (85); visitationOrder 0, 1, ... (93-94), [n] functions *)
  Definition psgd (n : nat) (fuel : nat) (x0 : vec) : outc (N * vec * list oev) :=
    psgd_loop fuel 1 (seq 0 n) x0 nmax false [OBegin x0].
End Loop.
Arguments oev : clear implicits.

(** ExponentialBackoff::StepSize (decay_policies/exponential_backoff.hpp 55-63); [q]: the integer
    part of firstBackoffEpoch / beta *)
Definition backoff {N : Num} (q : nat) (beta : N) (st : nat * N) (i : nat) : N * (nat * N) :=
  let '(cutoff, step) := st in
  if cutoff <=? i then let s := nmul step beta in (s, (cutoff + q, s)) else (step, (cutoff, step)).
