(** What the reporting callbacks should show, as functions of the events of a run. *)
From Coq Require Import List Arith Bool Reals.
From Verif.Base Require Import Num.
From Verif.Model Require Import Reporting.
Import ListNotations.

Section S.
Context {N : Num} {X : Type}.
Notation rev_ := (rev_ (N := N) (X := X)).

(** the objective after some events: the last one evaluated, plus the constraints evaluated since *)
Definition value_at (evs : list rev_) : N :=
  fold_left (fun o e => match e with REval v => v | REvalC v => nadd o v | _ => o end) evs n0.
(** the norm of the last gradient *)
Definition norm_at (evs : list rev_) : option N :=
  fold_left (fun o e => match e with RGrad g => Some g | _ => o end) evs None.
Definition start_at (evs : list rev_) : option X :=
  fold_left (fun o e => match e with RBegin x => Some x | _ => o end) evs None.
Definition is_end_epoch (e : rev_) : bool := match e with REndEpoch _ _ _ => true | _ => false end.
Definition is_step (e : rev_) : bool := match e with RStep _ _ => true | _ => false end.
Definition is_eval (e : rev_) : bool := match e with REval _ | REvalC _ => true | _ => false end.
Definition is_grad (e : rev_) : bool := match e with RGrad _ => true | _ => false end.
Definition is_begin_epoch (e : rev_) : bool := match e with RBeginEpoch => true | _ => false end.
Definition count (p : rev_ -> bool) (evs : list rev_) : nat := length (filter p evs).

Record rec_ := mkRec { rc_loss : N; rc_norm : option N; rc_step : option N; rc_time : N }.
(** The iterations a report is about: the epochs if any epoch ended, else the steps. *)
Definition recorded (evs : list rev_) : list rec_ :=
  flat_map (fun k =>
    let before := firstn k evs in
    match nth_error evs k with
    | Some (REndEpoch v q t) => [mkRec v (norm_at before) q t]
    | Some (RStep q t) => if existsb is_end_epoch evs then [] else [mkRec (value_at before) (norm_at before) q t]
    | _ => []
    end) (seq 0 (length evs)).
Definition opt_list (o : option N) : list N := match o with Some v => [v] | None => [] end.

(** row j of the table, with k iterations from row to row *)
Definition row_ok (recs : list rec_) (k j : nat) (w : row (N := N)) : Prop :=
  exists r, nth_error recs (j * k) = Some r /\
    w_iter w = j * k /\ w_loss w = rc_loss r /\ w_norm w = rc_norm r /\ w_step w = rc_step r /\ w_time w = rc_time r /\
    (j = 0 -> w_change w = n0) /\
    (forall j', j = S j' -> exists r', nth_error recs (j' * k) = Some r' /\ w_change w = nsub (rc_loss r') (rc_loss r)).
End S.

(** conversion of a real to size_t *)
Definition trunc_ok (trunc : R -> option nat) : Prop :=
  forall x k, (INR k <= x < INR k + 1)%R -> trunc x = Some k.
