(** Vocabulary for Lookahead. *)
From Coq Require Import List Arith Bool.
From Verif.Base Require Import Num Vec Size.
From Verif.Model Require Import Lookahead.
From Verif.Spec Require Import SgdSpec.
Import ListNotations.

Section Lk.
  Context {N : Num} {B D E : Type}.
  Notation vec := (list N).

  (** where a round leads: slow + step * (fast - slow) *)
  Definition moves_to (r : lround N D) : vec :=
    vadd (rd_slow r) (vscale (rd_step r) (vsub (rd_fast r) (rd_slow r))).

  (** what the callbacks are shown of the rounds: every inner run, and StepTaken after
      every one of them but a converged last one *)
  Fixpoint shown (conv : bool) (inner : list (list E)) (rs : list (lround N D)) : list (lev N E) :=
    match rs, inner with
    | r :: rs, i :: inner =>
        LRun (rd_slow r) (rd_fast r) (rd_obj r) i ::
        (match rs with [] => if conv then [] else [LStep (moves_to r)] | _ => [LStep (moves_to r)] end) ++
        shown conv inner rs
    | _, _ => []
    end.

  (** rounds that follow one another: each starts where the one before led, has not
      converged (unless it is the last of a converged run), and uses the step size the
      decay policy makes of the one before *)
  Fixpoint follow (tol : N) (dp : D -> vec -> N -> vec -> D * N) (conv : bool) (x : vec) (d : D) (step prev : N)
      (rs : list (lround N D)) (final : vec) : Prop :=
    match rs with
    | [] => conv = false /\ final = x
    | r :: rs' =>
        rd_slow r = x /\ (rd_d r, rd_step r) = dp d x step (rd_fast r) /\
        match rs' with
        | [] => converged tol prev (rd_obj r) = conv /\ final = if conv then rd_fast r else moves_to r
        | _ => converged tol prev (rd_obj r) = false /\
               follow tol dp conv (moves_to r) (rd_d r) (rd_step r) (rd_obj r) rs' final
        end
    end.

  (** the batches of the final evaluation *)
  Definition full_batches (n bs : nat) : list nat := map (fun j => j * bs) (seq 0 ((n + bs - 1) / bs)).
  Definition is_leval (e : lev N E) : bool := match e with LEval _ _ _ _ => true | _ => false end.
End Lk.

Section Report.
  Context {N : Num} {B D E : Type}.
  Notation vec := (list N).
  Variable base : nat -> B -> list (lev N E) -> vec -> option (B * vec * N * list E).
  Variables (has_max : bool) (base_max k maxIterations : nat) (tolerance : N) (exactObjective : bool).
  Variable dp : D -> vec -> N -> vec -> D * N.
  Variable numFunctions batchSize : nat.
  Variable feval : list (lev N E) -> vec -> nat -> nat -> N.
  Variable stop : list (lev N E) -> bool.

  (** every inner run in a trace (oldest first), after the history h, is a call of the base optimizer *)
  Definition runs_base (h : list (lev N E)) (tr : list (lev N E)) : Prop :=
    forall pre slow fast obj inner post, tr = pre ++ LRun slow fast obj inner :: post ->
      exists b b', base (if has_max then k else base_max) b (rev pre ++ h) slow = Some (b', fast, obj, inner).
  (** StepTaken was asked to stop only at the very end *)
  Definition stops_there (h tr : list (lev N E)) : Prop :=
    forall pre y post, tr = pre ++ LStep y :: post -> stop (LStep y :: rev pre ++ h) = true -> post = [].
  Definition asked_last (h tr : list (lev N E)) : Prop :=
    exists pre y, tr = pre ++ [LStep y] /\ stop (LStep y :: rev pre ++ h) = true.

  (** the final evaluation: batch after batch, at x *)
  Definition evaluated_at (x : vec) (h evs : list (lev N E)) : Prop :=
    forall pre e post, evs = pre ++ e :: post -> exists b,
      nth_error (full_batches numFunctions batchSize) (length pre) = Some b /\
      let n := Nat.min batchSize (numFunctions - b) in e = LEval x b n (feval (rev pre ++ h) x b n).
  Definition obj_of (e : lev N E) : N := match e with LEval _ _ _ o => o | _ => n0 end.

  (** What a call does.  [d0] and [step0] are the decay policy and the step size it starts with. *)
  Definition lookahead_report (x0 : vec) (d0 : D) (step0 : N) (r : @lres N B D E) : Prop :=
    exists inners evs, length inners = length (lr_log r) /\
      (* the rounds *)
      follow tolerance dp (lr_conv r) x0 d0 step0 nmax (lr_log r) (lr_x r) /\
      length (lr_log r) <= limit maxIterations /\
      (* what the callbacks see *)
      lr_tr r = LBegin x0 :: shown (lr_conv r) inners (lr_log r) ++ evs ++ [LEnd (lr_x r)] /\
      (forall e, In e evs -> is_leval e = true) /\
      runs_base [LBegin x0] (shown (lr_conv r) inners (lr_log r)) /\
      (* requests to stop *)
      stops_there [LBegin x0] (shown (lr_conv r) inners (lr_log r)) /\
      (lr_conv r = false -> length (lr_log r) < limit maxIterations -> asked_last [LBegin x0] (shown (lr_conv r) inners (lr_log r))) /\
      (* the value *)
      (if exactObjective && negb (lr_conv r)
       then lr_val r = fold_left nadd (map obj_of evs) n0 /\
            (0 < batchSize -> length evs = length (full_batches numFunctions batchSize) /\
               evaluated_at (lr_x r) (rev (shown (lr_conv r) inners (lr_log r)) ++ [LBegin x0]) evs)
       else evs = [] /\ lr_val r = last (map rd_obj (lr_log r)) n0).

End Report.
