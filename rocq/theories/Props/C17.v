(** C17: conventional neural evolution. *)
From Coq Require Import List Arith Bool ZArith Lia.
From Verif.Base Require Import Num Vec Size SortIdx Instances.
From Verif.Model Require Import Common SA DE CNE.
From Verif.Spec Require Import CommonSpec CNESpec.
From Verif.Proof Require Import CNEProof.
Import ListNotations.

(** Over any ordered number type (IEEE doubles included), for every objective, sorting
    function, random numbers, callbacks and accepted parameters (e is the number of
    elite members): a run that returns consists of evaluations of populations, each
    the offspring of the one before (see Spec/CNESpec.v: the best member survives
    unchanged, the other elite members are mutated, the rest is made of elite
    members).  Optimize() returns the objective of the returned point, which belongs
    to the last evaluated population and is not beaten by any member of any evaluated
    population.  It ends at the generation limit, on request, or when two consecutive
    best objectives differ by less than the tolerance. *)
Theorem C17_cne :
  forall {N : Num} (P maxGenerations fl : nat) (mutationProb mutationSize tolerance inf : N) f sort_index noise
         parents coin mu mz (cb : CB N (list N) (list N)) (x0 : list N) e,
  OrdLaws N -> (forall l, no_nan l -> sorted_index l (sort_index l)) ->
  nisnan inf = false -> (forall y, nlt inf (f y) = false) ->
  (forall i, length (noise i) = length x0) ->
  (forall g i, length (mu g i) = length x0 /\ length (mz g i) = length x0) ->
  fl <= size_max -> cne_elite P fl = Some e ->
  exists o, cne_optimize P maxGenerations fl mutationProb mutationSize tolerance inf f sort_index noise parents coin mu mz cb x0 = Some o /\
  (1 <= maxGenerations -> cs_stop cb [Ev x0 (f x0)] = false -> (forall y, nisnan (f y) = false) -> exists r, o = Ret r) /\
  forall r, o = Ret r ->
  let p0 := map (fun i => vadd (noise i) x0) (seq 0 P) in
  exists ps pf, 1 <= length ps <= maxGenerations /\ hd_error ps = Some p0 /\
    lineage f mutationProb mutationSize e p0 (tl ps ++ [pf]) /\
    o_tr r = [Ev x0 (f x0); Begin x0] ++ flat_map (evaluated f) ps ++ [Ev (o_x r) (o_val r); End (o_x r)] /\
    o_val r = f (o_x r) /\ In (o_x r) (last ps []) /\
    (forall q y, In q ps -> In y q -> nlt (f y) (o_val r) = false) /\
    (length ps = maxGenerations \/ asked cb (o_tr r) \/
     exists v w, least f (last ps []) v /\
       (length ps = 1 /\ w = f x0 \/ 1 < length ps /\ least f (last (removelast ps) []) w) /\
       nlt (nabs (nsub w v)) tolerance = true).
Proof.
  intros N P mg fl mp ms tol inf f si noise par coin mu mz cb x0 e L HS HI HF HN HM HFL HE.
  exact (cne_ok P mg fl mp ms tol inf f si noise par coin mu mz cb x0 L HS HI HF HN HM HFL e HE).
Qed.
Print Assumptions C17_cne.

(** Accepted parameters: at least four members, an elite of at least two, and either
    room for two children or (selectPercent above 1, or the wrap-around below) an
    elite larger than the population. *)
Theorem C17_parameters : forall P fl e, fl <= size_max -> cne_elite P fl = Some e ->
  4 <= P /\ 2 <= e /\ (e + 2 <= P \/ P < e).
Proof. exact cne_elite_ok. Qed.
Print Assumptions C17_parameters.

(** A selection percentage that selects nobody is accepted when the population size
    is odd: numElite-- wraps around. *)
Theorem C17_empty_elite_rejected_refuted :
  (forall P, 4 <= P -> P + 1 < size_max -> Nat.odd P = true -> cne_elite P 0 = Some size_max) /\ 5 + 1 < size_max.
Proof.
  split.
  - intros P HP HM HO. unfold cne_elite. destruct (Nat.ltb_spec P 4); [lia|].
    assert (E0 : sub64 P 0 = P) by (unfold sub64; simpl; lia). rewrite E0, HO.
    assert (E1 : sub64 0 1 = size_max) by (unfold sub64; cbn [Nat.leb]; lia). rewrite E1.
    destruct (Nat.ltb_spec size_max 2); [lia|]. unfold sub64.
    destruct (Nat.leb_spec size_max P); [lia|]. destruct (Nat.ltb_spec (S size_max - (size_max - P)) 2); [lia|reflexivity].
  - apply size_max_ge. discriminate.
Qed.
Print Assumptions C17_empty_elite_rejected_refuted.

Definition quiet17 : CB ZNum (list Z) (list Z) := {| cs_stop := fun _ => false; cs_grad := fun _ _ _ g => g |}.
Definition r17 (mg : nat) (x0 : list Z) :=
  cne_optimize (N := ZNum) 4 mg 2 1%Z 1%Z 0%Z nmax (fun x => fold_right (fun a s => a * a + s)%Z 0%Z x) (isort_index (N := ZNum))
    (fun i => [Z.of_nat i + 1; 2]%Z) (fun _ i => (i, S i)) (fun _ _ k => Nat.even k)
    (fun _ i => [0; 0]%Z) (fun _ i => [-1; -1]%Z) quiet17 x0.
(** three generations *)
Example C17_run : match r17 3 [3%Z; 1%Z] with
  | Some (Ret r) => (o_val r, o_x r, length (o_tr r)) = (5%Z, [2%Z; 1%Z], 28) | _ => False end.
Proof. vm_compute. reflexivity. Qed.

(** The starting point is not a member of the population, so the result can be
    worse than it. *)
Theorem C17_not_worse_than_start_refuted : match r17 1 [0%Z; 0%Z] with
  | Some (Ret r) => o_val r = 5%Z /\ (fold_right (fun a s => a * a + s) 0 [0; 0] = 0)%Z | _ => False end.
Proof. vm_compute. split; reflexivity. Qed.
Print Assumptions C17_not_worse_than_start_refuted.

(** Without a generation (maxGenerations = 0, or a stop request at the first
    evaluation) the index vector is empty when its first element is read. *)
Theorem C17_no_generation_refuted : r17 0 [0%Z; 0%Z] = Some Bad.
Proof. vm_compute. reflexivity. Qed.
Print Assumptions C17_no_generation_refuted.
