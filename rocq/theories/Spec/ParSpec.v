(** Reading the events of a parallel region (oldest first). *)
From Coq Require Import List Arith Bool Permutation.
From Verif.Base Require Import Num.
From Verif.Model Require Import ParallelSgd.
Import ListNotations.

Section S.
  Context {N : Num}.
  (** the functions whose gradient was computed, with the thread *)
  Definition computed (es : list (pev N)) : list (nat * nat) :=
    flat_map (fun e => match e with PGrad t idx _ _ => [(t, idx)] | _ => [] end) es.
  (** the elements of all gradients computed, times the step size *)
  Definition wanted (step : N) (es : list (pev N)) : list (nat * N) :=
    flat_map (fun e => match e with PGrad _ _ g _ => map (fun '(p, a) => (p, nmul step a)) g | _ => [] end) es.
  (** the subtractions made *)
  Definition applied (es : list (pev N)) : list (nat * N) :=
    flat_map (fun e => match e with PSub _ p a => [(p, a)] | _ => [] end) es.
  (** the amounts for element p *)
  Definition amounts (p : nat) (us : list (nat * N)) : list N :=
    flat_map (fun '(q, a) => if q =? p then [a] else []) us.
  (** whether a callback asked to stop *)
  Definition par_asked (es : list (pev N)) : bool :=
    existsb (fun e => match e with PGrad _ _ _ b => b | PTaken _ _ b => b | _ => false end) es.
End S.

(** [rounds ... i h a x last body xf vf]: epochs i, i + 1, ... after the events h (newest first),
    starting from x with the last objective [last]; [a]: a callback has asked to stop in the epoch
    before; the events are [body], the iterate and objective at the end are xf and vf *)
Inductive rounds {N : Num} (limit : nat) (tolerance : N) (n T share : nat) (f : list N -> N) (step : nat -> N)
  (cbE : list (oev N) -> bool)
  : nat -> list (oev N) -> bool -> list N -> N -> list (oev N) -> list N -> N -> Prop :=
| rounds_stop i h a x last : i = limit \/ a = true ->
    rounds limit tolerance n T share f step cbE i h a x last [] x last
| rounds_end i h a x last v :
    i < limit -> f x = v ->
    nisnan v = true \/ nisinf v = true \/ nlt (nabs (nsub last v)) tolerance = true ->
    rounds limit tolerance n T share f step cbE i h a x last [OEval x v] x v
| rounds_go i h a x last v order es x' body xf vf :
    i < limit -> f x = v -> nisnan v = false -> nisinf v = false -> nlt (nabs (nsub last v)) tolerance = false ->
    Permutation order (seq 0 n) ->
    Permutation (map snd (computed es)) (firstn (T * share) order) ->
    Permutation (applied es) (wanted (step i) es) ->
    x' = fold_left (fun y '(p, a) => sub_at p a y) (applied es) x ->
    rounds limit tolerance n T share f step cbE (S i) (OEpoch i order (step i) es x' :: OEval x v :: h)
      (cbE (OEval x v :: h) || par_asked es) x' v body xf vf ->
    rounds limit tolerance n T share f step cbE i h a x last (OEval x v :: OEpoch i order (step i) es x' :: body) xf vf.
(** the objectives computed by the main thread, and its epochs *)
Definition objectives {N : Num} (tr : list (oev N)) : list N :=
  flat_map (fun e => match e with OEval _ v => [v] | _ => [] end) tr.
Definition epochs {N : Num} (tr : list (oev N)) : list (list nat * list (pev N)) :=
  flat_map (fun e => match e with OEpoch _ o _ es _ => [(o, es)] | _ => [] end) tr.
