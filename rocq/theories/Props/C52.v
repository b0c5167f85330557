(** C52: SWATS switches from Adam to SGD at most once, at the documented point. *)
From Coq Require Import List Reals ZArith Lra.
From Verif.Base Require Import Num Instances Vec.
From Verif.Model Require Import Swats.
From Verif.Spec Require Import UpdatesSpec SwatsSpec.
From Verif.Proof Require Import SwatsProof.
Import ListNotations.
Local Open Scope R_scope.

(** As long as the switching criterion has not been met by any earlier history, an
    update is exactly an Adam step, and SWATS enters the SGD phase at this update if
    and only if the criterion holds now. *)
Theorem C52_adam_phase :
  forall (mx : R) (n : nat) (eps b1 b2 : R) (x : list R) (H : hist) (h : R) (g : list R),
  dims n (H ++ [(h, g)]) ->
  (forall P Q, H = P ++ Q -> ~ switches n eps b1 b2 P) ->
  let run := swats_run (N := RNum mx) pow eps b1 b2 (swats_init (N := RNum mx) parent0 n) x in
  snd (run (H ++ [(h, g)])) = vsub (N := RNum mx) (snd (run H)) (adam_delta n eps b1 b2 (H ++ [(h, g)])) /\
  (w_phase (fst (run (H ++ [(h, g)]))) = true <-> switches n eps b1 b2 (H ++ [(h, g)])).
Proof. exact adam_phase. Qed.
Print Assumptions C52_adam_phase.

(** After the first history l1 that meets the criterion SWATS stays in the SGD
    phase forever with the averaged rate reached there: the iterate moves by
    momentum SGD with the constant step (1 - beta1) * rate, whatever step sizes the
    optimizer passes. *)
Theorem C52_sgd_phase :
  forall (mx : R) (n : nat) (eps b1 b2 : R) (x : list R) (l1 l2 : hist),
  length x = n -> dims n (l1 ++ l2) ->
  switches n eps b1 b2 l1 ->
  (forall P p Q, l1 = P ++ p :: Q -> ~ switches n eps b1 b2 P) ->
  let run := swats_run (N := RNum mx) pow eps b1 b2 (swats_init (N := RNum mx) parent0 n) x in
  w_phase (fst (run (l1 ++ l2))) = true /\
  w_rate (fst (run (l1 ++ l2))) = avg_rate n eps b1 b2 l1 /\
  snd (run (l1 ++ l2)) = tab n (fun i => nth i (snd (run l1)) 0 -
      (1 - b1) * avg_rate n eps b1 b2 l1 * weighted (geom b1) (unit_steps (coord i l2))).
Proof. exact sgd_phase. Qed.
Print Assumptions C52_sgd_phase.

(** The phase and the rate belong to the SWATSUpdate object, not to the run: a second
    optimization with the same object never uses Adam again. *)
Theorem C52_fresh_run_starts_with_adam_refuted :
  forall (mx : R) (n : nat) (eps b1 b2 : R) (p : bool * R * R) (x : list R) (l : hist),
  fst (fst p) = true -> length x = n -> dims n l ->
  let run := swats_run (N := RNum mx) pow eps b1 b2 (swats_init (N := RNum mx) p n) x in
  w_phase (fst (run l)) = true /\
  snd (run l) = tab n (fun i => nth i x 0 - (1 - b1) * snd (fst p) * weighted (geom b1) (unit_steps (coord i l))).
Proof. exact second_run. Qed.
Print Assumptions C52_fresh_run_starts_with_adam_refuted.

(** Two equal gradients: the criterion is met at the second update, not before. *)
Example C52_example :
  switches 1 1 (1/2) (1/2) [(1, [1]); (1, [1])] /\
  (forall P p Q, [(1, [1]); (1, [1])] = P ++ p :: Q -> ~ switches 1 1 (1/2) (1/2) P) /\
  dims 1 [(1, [1]); (1, [1])].
Proof. split; [apply ex_switches|]. split; [apply ex_switches|]. intros h g [E|[E|[]]]; injection E as <- <-; reflexivity. Qed.
