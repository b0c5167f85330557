(** C19: CMA-ES. *)
From Coq Require Import List Arith Bool ZArith Lia.
From Verif.Base Require Import Num Size Vec SortIdx Instances.
From Verif.Model Require Import Common CMAES.
From Verif.Spec Require Import CommonSpec CMAESSpec.
From Verif.Proof Require Import CMAESProof.
Import ListNotations.

Section Full.
Context {N : Num}.
Variables (maxIterations lambda patience : nat) (tolerance big : N).
Variable feval : list N -> nat -> nat -> N.
Variables (n batchSize : nat) (cs : list (nat * nat)).
Variable tf : list N -> list N.
Variable w : list N.
Variable A : Type.
Variable sample : nat -> A -> option (list (list N)).
Variable adapt : nat -> A -> N -> list (list N) -> list nat -> list N -> A * N.
Variable sort_index : list N -> list nat.
Variable cb : CB N (list N) (list N).

(** FullSelection sums all n functions, each once, whatever the batch size. *)
Theorem C19_full_selection_sums_everything :
  0 < batchSize -> exists l, full_chunks n batchSize = Some l /\ covers n l.
Proof. apply full_chunks_ok. Qed.

(** Any separable objective, transformation, weights, sampling and adaptation rule,
    callbacks and limits, full selection: if Optimize() returns, its events are the
    evaluation of the start, and then at most maxIterations - 1 generations as
    described in Spec/CMAESSpec.v (the members are the steps drawn from the distribution, around the mean; the mean
    moves by the weighted steps of the best members; a better mean is recorded and
    shown by StepTaken).  The iterate returned is the transformed best mean b and the
    value its objective, summed over all functions.  The run ends by its limit, a
    request, a diverging step size, a NaN or infinite objective, or because the best
    objective changed by less than the tolerance for patience + 1 generations. *)
Theorem C19_cmaes : forall a0 sigma0 x r,
  (forall l : list N, no_nan l -> sorted_index l (sort_index l)) ->
  (forall i a d, sample i a = Some d -> length d = lambda) ->
  full_chunks n batchSize = Some cs ->
  cma_optimize maxIterations lambda patience tolerance big feval cs (fun _ _ => cs) tf w A sample adapt sort_index cb a0 sigma0 x = Ret r ->
  exists es bs sigma b, length bs <= bound maxIterations - 1 /\
    gens feval cs tf lambda w A sample adapt 1 x sigma0 a0 x es bs sigma b /\
    o_val r = total feval cs (tf b) /\ o_x r = tf b /\
    o_tr r = map (Ev (tf x)) (values feval cs (tf x)) ++ Begin (tf x) :: es ++ [End (tf b)] /\
    (length bs = bound maxIterations - 1 \/ asked cb (o_tr r) \/ nisnan sigma || nlt big sigma = true \/
     nisnan (total feval cs (tf b)) || nisinf (total feval cs (tf b)) = true \/
     calm tolerance patience (nmax :: map (fun b => total feval cs (tf b)) bs)).
Proof.
  intros a0 sigma0 x r HS HA _ E.
  exact (cma_ok maxIterations lambda patience tolerance big feval cs tf w A sample adapt sort_index cb HS HA a0 sigma0 x r E).
Qed.

(** The result is never worse than the start, and its value is the objective of the
    point returned. *)
Theorem C19_not_worse_than_start : forall a0 sigma0 x r, OrdLaws N ->
  (forall l : list N, no_nan l -> sorted_index l (sort_index l)) ->
  (forall i a d, sample i a = Some d -> length d = lambda) ->
  full_chunks n batchSize = Some cs ->
  cma_optimize maxIterations lambda patience tolerance big feval cs (fun _ _ => cs) tf w A sample adapt sort_index cb a0 sigma0 x = Ret r ->
  o_val r = total feval cs (o_x r) /\ nlt (total feval cs (tf x)) (o_val r) = false.
Proof.
  intros a0 sigma0 x r O HS HA _ E.
  destruct (cma_ok maxIterations lambda patience tolerance big feval cs tf w A sample adapt sort_index cb HS HA a0 sigma0 x r E)
    as (es & bs & sigma & b & _ & G & V & X & _).
  rewrite V, X. split; [reflexivity|].
  destruct (gens_better _ _ _ _ _ _ _ _ O _ _ _ _ _ _ _ _ _ G) as [->|Q]; [apply (ol_irrefl _ O)|].
  apply (ol_le_not_lt _ O). apply (ol_lt_le _ O). exact Q.
Qed.

(** It returns whenever no objective is NaN and the Cholesky loop ends. *)
Theorem C19_returns : forall a0 sigma0 x, w <> [] -> 0 < lambda ->
  (forall l : list N, no_nan l -> sorted_index l (sort_index l)) ->
  (forall i a d, sample i a = Some d -> length d = lambda) ->
  (forall y, nisnan (total feval cs y) = false) -> (forall i a, sample i a <> None) ->
  exists r, cma_optimize maxIterations lambda patience tolerance big feval cs (fun _ _ => cs) tf w A sample adapt sort_index cb a0 sigma0 x = Ret r.
Proof.
  intros a0 sigma0 x W L HS HA NN SA.
  exact (cma_returns maxIterations lambda patience tolerance big feval cs tf w A sample adapt sort_index cb HS HA a0 sigma0 x W L NN SA).
Qed.
End Full.
Print Assumptions C19_full_selection_sums_everything.
Print Assumptions C19_cmaes.
Print Assumptions C19_not_worse_than_start.
Print Assumptions C19_returns.

(** RandomSelection with m = floor(n * fraction): ceil(m / batchSize) evaluations, each of
    a batch that starts at one of the n functions and stays within them.  Which functions is
    left to the random numbers: some may be counted twice and others not at all. *)
Theorem C19_random_selection : forall n m bs sel, 0 < n -> 0 < bs ->
  exists l, random_chunks n m bs sel = Some l /\
    Forall (fun c => fst c < n /\ snd c = Nat.min bs (n - fst c)) l /\
    length l * bs < m + bs /\ m <= length l * bs.
Proof. exact random_chunks_ok. Qed.
Print Assumptions C19_random_selection.
Example C19_random_selection_ex : random_chunks 5 4 3 (fun i => 4 - i) = Some [(4, 1); (1, 3)].
Proof. reflexivity. Qed.

Definition quiet19 {N : Num} : CB N (list N) (list N) := {| cs_stop := fun _ => false; cs_grad := fun _ _ _ g => g |}.
Definition parts19 (x : list ZNum) (b k : nat) : ZNum :=
  fold_left Z.add (map (fun i => match i with O => 0 | _ => nth 0 x 0 * nth 0 x 0 + 1 end)%Z (seq b k)) 0%Z.
Definition run19 (mi : nat) (select : nat -> nat -> list (nat * nat)) (w : list Z) (x0 s : Z) :=
  cma_optimize (N := ZNum) mi 2 0 1%Z 100%Z parts19 [(0, 1); (1, 1)] select (fun x => x) w unit
    (fun _ _ => Some [[s]; [0]])%Z (fun _ a sg _ _ _ => (a, sg)) isort_index quiet19 tt 1%Z [x0].

(** With RandomSelection the value compared with the full objective of the start is
    a sum over some of the functions only: here one of two is chosen, the "best"
    point is worse than the start, and the value returned is not its objective. *)
Theorem C19_random_selection_not_worse_refuted :
  random_chunks 2 1 1 (fun _ => 0) = Some [(0, 1)] /\
  exists r, run19 2 (fun _ _ => [(0, 1)]) [1%Z] 0 5 = Ret r /\ o_val r = 0%Z /\ o_x r = [5%Z] /\
    total parts19 [(0, 1); (1, 1)] [0%Z] = 1%Z /\ total parts19 [(0, 1); (1, 1)] (o_x r) = 26%Z.
Proof. split; [reflexivity|]. eexists. split; [vm_compute; reflexivity|]. repeat split; reflexivity. Qed.
Print Assumptions C19_random_selection_not_worse_refuted.

(** A population of one has no parents: w(0) does not exist. *)
Theorem C19_single_member_refuted : run19 2 (fun _ _ => [(0, 1); (1, 1)]) [] 0 5 = Bad.
Proof. vm_compute. reflexivity. Qed.

(** Row and column vectors can be optimized; a matrix iterate with several rows and
    columns makes the first generation throw (the step has the wrong shape). *)
Theorem C19_vector_iterates : forall rows cols, 0 < rows -> 0 < cols ->
  (draw_shape rows cols = Some (rows, cols) <-> rows = 1 \/ cols = 1).
Proof.
  intros r c R C. unfold draw_shape, mul_shape. cbn [fst snd].
  destruct (Nat.ltb_spec c r) as [Q|Q].
  - destruct (Nat.eqb_spec (r * c) r) as [E|E].
    + split; [intros _; right; nia|intros _]. do 2 f_equal. nia.
    + split; [discriminate|]. intros [H|H]; subst; nia.
  - destruct (Nat.eqb_spec c (r * c)) as [E|E].
    + split; [intros _; left; nia|intros _]. do 2 f_equal. nia.
    + split; [discriminate|]. intros [H|H]; subst; nia.
Qed.
Print Assumptions C19_vector_iterates.
Theorem C19_matrix_iterates_refuted : draw_shape 3 2 = None /\ draw_shape 2 2 = None.
Proof. split; reflexivity. Qed.

(** batchSize = 0 makes the evaluation loop endless. *)
Theorem C19_zero_batch_refuted : forall n, 0 < n -> full_chunks n 0 = None.
Proof. intros n H. unfold full_chunks. destruct (Nat.ltb_spec 0 n); [reflexivity|lia]. Qed.

(** Full selection: the mean improves twice. *)
Example C19_run : match run19 3 (fun _ _ => [(0, 1); (1, 1)]) [1%Z] 5 (-2) with
  | Ret r => (o_val r, o_x r, length (o_tr r)) = (2%Z, [1%Z], 18) | _ => False end.
Proof. vm_compute. reflexivity. Qed.
