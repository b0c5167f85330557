(** C16: differential evolution. *)
From Coq Require Import List Arith Bool ZArith Lia.
From Verif.Base Require Import Num Vec Instances.
From Verif.Model Require Import Common SA DE.
From Verif.Spec Require Import CommonSpec DESpec.
From Verif.Proof Require Import DEProof.
Import ListNotations.

(** Over any ordered number type (IEEE doubles included), for every objective,
    random numbers, callbacks and limits with at least three members, of which at
    least one initial one has an objective below DBL_MAX: Optimize() never fails,
    and when it returns (the random index loops have ended) its events are the
    evaluations of the initial members x0 + noise_i, followed by at most
    maxGenerations generations (see Spec/DESpec.v: members are only replaced by
    strictly better candidates, built from a best member).  The value returned
    equals the objective at the returned point; no initial member beats it; and no
    accepted candidate does, unless the tolerance test ended the run: then the best
    member m may be better, but by less than the tolerance. *)
Theorem C16_differential_evolution :
  forall {N : Num} (P maxGenerations : nat) (CR w tolerance inf : N) f noise draws unif
         (cb : CB N (list N) (list N)) fuel (x0 : list N),
  OrdLaws N -> 3 <= P -> nlt nmax inf = true -> (forall i, length (noise i) = length x0) ->
  (exists i, i < P /\ nlt (f (vadd (noise i) x0)) nmax = true) ->
  exists o, de_optimize P maxGenerations CR w tolerance inf f noise draws unif cb fuel x0 = Some o /\ o <> Bad /\
  forall r, o = Ret r ->
  let p := map (fun i => vadd (noise i) x0) (seq 0 P) in
  exists n es p', n <= maxGenerations /\
    o_tr r = map (fun y => Ev y (f y)) p ++ Begin x0 :: es ++ [End (o_x r)] /\ generations CR w f n p es p' /\
    neq (o_val r) (f (o_x r)) = true /\
    (forall y, In y p -> nlt (f y) (o_val r) = false) /\
    ((n = maxGenerations \/ asked cb (o_tr r)) /\ is_best f p' (o_x r) /\
     (forall y, In (St y) es -> nlt (f y) (o_val r) = false) \/
     exists m, is_best f p' m /\ nlt (nabs (nsub (o_val r) (f m))) tolerance = true /\
      (forall y, In (St y) es -> nlt (f y) (f m) = false)).
Proof. intros N P mg CR w tol inf f noise draws unif cb fuel x0 L HP HI HN HE. exact (de_ok P mg CR w tol inf f noise draws unif cb fuel x0 L HP HI HN HE). Qed.
Print Assumptions C16_differential_evolution.

Theorem C16_too_small_population_rejected :
  forall {N : Num} (P maxGenerations : nat) (CR w tolerance inf : N) f noise draws unif cb fuel (x0 : list N),
  de_optimize P maxGenerations CR w tolerance inf f noise draws unif cb fuel x0 = None <-> P < 3.
Proof.
  intros. unfold de_optimize. destruct (Nat.ltb_spec P 3); [tauto|]. split; [|lia].
  destruct (de_init _ _ _ _ _ _) as [s t]. discriminate.
Qed.
Print Assumptions C16_too_small_population_rejected.

Definition quiet16 {N : Num} : CB N (list N) (list N) := {| cs_stop := fun _ => false; cs_grad := fun _ _ _ g => g |}.

(** A best element exists only if some initial objective is below DBL_MAX: otherwise
    the iterate ends up empty (or, with at least one generation, the sizes clash). *)
Definition nan16 := de_optimize (N := F64) 3 0 n0 n1 n0 finf (fun _ => fnan) (fun _ => [n0]) (fun _ => 0) (fun _ => []) quiet16 5 [n1].
Lemma nan16_ok : match nan16 with Some (Ret r) => length (o_x r) = 0 | _ => False end.
Proof. vm_compute. reflexivity. Qed.
Theorem C16_keeps_the_shape_refuted :
  exists x0 f r, de_optimize (N := F64) 3 0 n0 n1 n0 finf f (fun _ => [n0]) (fun _ => 0) (fun _ => []) quiet16 5 x0
            = Some (Ret r) /\ length x0 = 1 /\ length (o_x r) = 0.
Proof.
  exists [n1], (fun _ => fnan). change (exists r, nan16 = Some (Ret r) /\ length [n1 : F64] = 1 /\ length (o_x r) = 0).
  pose proof nan16_ok as H.
  destruct nan16 as [[r| |]|]; try contradiction. exists r. split; [reflexivity|]. split; [reflexivity|exact H].
Qed.
Print Assumptions C16_keeps_the_shape_refuted.

(** The two random members need not differ: the loop condition of line 111 only
    rejects m = member = l, which never happens.  Here l = m = 1 for member 0. *)
Theorem C16_random_members_distinct_refuted :
  exists p, draw_until (fun p => p mod 3) (fun l => l =? 0) 5 1 = Some (1, p) /\
            draw_until (fun _ => 1 mod 3) (fun m => (m =? 0) && (m =? 1)) 5 p = Some (1, S p).
Proof. exists 2. split; reflexivity. Qed.

Definition r16 (mg : nat) (tol : Z) :=
  de_optimize (N := ZNum) 3 mg 1%Z 1%Z tol (2 * nmax)%Z (fun x => fold_right (fun a s => a * a + s)%Z 0%Z x)
    (fun i => [Z.of_nat i; 0%Z]) (fun p => p) (fun k => if Nat.even k then [0%Z; 0%Z] else [1%Z; 0%Z]) quiet16 5 [3%Z; 1%Z].
(** two generations improve the population *)
Example C16_run : match r16 3 1%Z with
  | Some (Ret r) => (o_val r, o_x r, length (o_tr r)) = (1%Z, [0%Z; 1%Z], 27) | _ => False end.
Proof. vm_compute. reflexivity. Qed.
