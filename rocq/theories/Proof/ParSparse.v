From Coq Require Import List Arith Bool ZArith Reals Lra Lia Permutation.
From Verif.Base Require Import Num Instances Size.
From Verif.Model Require Import Common SA ParallelSgd Problems ProblemsN.
From Verif.Spec Require Import ParSpec ParSerialSpec.
From Verif.Proof Require Import SAProof ParProof ParRun ParSerial.
Import ListNotations.
Local Open Scope R_scope.

(** function i of SparseTestFunction, as ParallelSGD sees its gradient *)
Definition sparse_fn (i : nat) (x : list R) : list (nat * R) := nonzeros 0 (sparse_gradient x i 1).

Lemma nonzeros_zero : forall n from, nonzeros from (repeat 0 n) = [].
Proof. induction n as [|n IH]; intros from; simpl; [reflexivity|]. destruct (Req_EM_T 0 0); [apply IH|congruence]. Qed.
Lemma nonzeros_put : forall n i from v, nonzeros from (put i v (repeat 0 n)) =
  if (i <? n)%nat then (if Req_EM_T v 0 then [] else [((from + i)%nat, v)]) else [].
Proof.
  induction n as [|n IH]; intros i from v; [destruct i; reflexivity|]. destruct i as [|i]; simpl.
  - rewrite nonzeros_zero, Nat.add_0_r. reflexivity.
  - destruct (Req_EM_T 0 0); [|congruence]. rewrite IH. replace (S from + i)%nat with (from + S i)%nat by lia. reflexivity.
Qed.
Lemma sparse_fn_eq i x : sparse_fn i x =
  match nth_error x i with Some a => if Req_EM_T (2 * a + co sparse_bi i) 0 then [] else [(i, 2 * a + co sparse_bi i)] | None => [] end.
Proof.
  unfold sparse_fn, sparse_gradient. simpl. rewrite nonzeros_put. simpl.
  destruct (nth_error x i) as [a|] eqn:E.
  - assert (L : (i < length x)%nat) by (apply nth_error_Some; congruence). apply Nat.ltb_lt in L. rewrite L.
    assert (Q : co x i = a) by exact (nth_error_nth x i 0 E). rewrite Q. reflexivity.
  - apply nth_error_None in E. destruct (Nat.ltb_spec i (length x)); [lia|reflexivity].
Qed.
Lemma sparse_separate mx : separate (N := RNum mx) 4 (fun i p => p = i) sparse_fn.
Proof.
  constructor; change (T (RNum mx)) with R.
  - intros i x y _ H. rewrite !sparse_fn_eq. pose proof (H i eq_refl) as Q. change (T (RNum mx)) with R in Q. rewrite Q. reflexivity.
  - intros i x p a _ I. rewrite sparse_fn_eq in I. destruct (nth_error x i) as [b|]; [|destruct I].
    destruct (Req_EM_T _ _); [destruct I|]. destruct I as [I|[]]. injection I as -> _. reflexivity.
  - intros i x _. rewrite sparse_fn_eq. destruct (nth_error x i) as [b|]; [|constructor].
    destruct (Req_EM_T _ _); repeat constructor. intros [].
  - intros i j p _ _ -> H. exact H.
Qed.
Lemma sparse_pass mx (h : R) (x : list R) i : (i < 4)%nat ->
  nth_error (serial_pass (N := RNum mx) h sparse_fn 4 x) i = option_map (fun a => a - h * (2 * a + co sparse_bi i)) (nth_error x i).
Proof.
  intros L. destruct (nth_error x i) as [a|] eqn:E.
  - destruct (Req_EM_T (2 * a + co sparse_bi i) 0) as [Z|NZ].
    + cbn [option_map]. rewrite Z, Rmult_0_r, Rminus_0_r, <- E.
      apply (pass_other (N := RNum mx) 4 _ sparse_fn (sparse_separate mx) h x i). intros j g _ I. change (T (RNum mx)) with R in *. rewrite sparse_fn_eq in I.
      destruct (nth_error x j) as [b|] eqn:Ej; [|destruct I]. destruct (Req_EM_T _ _) as [|NZ]; [destruct I|]. destruct I as [I|[]].
      injection I as -> _. rewrite E in Ej. injection Ej as ->. auto.
    + refine (eq_trans (pass_element (N := RNum mx) 4 _ sparse_fn (sparse_separate mx) h x i i (2 * a + co sparse_bi i) L _) _).
      * change (T (RNum mx)) with R. rewrite sparse_fn_eq, E. destruct (Req_EM_T _ _); [contradiction|]. left. reflexivity.
      * change (T (RNum mx)) with R. rewrite E. reflexivity.
  - refine (eq_trans (pass_other (N := RNum mx) 4 _ sparse_fn (sparse_separate mx) h x i _) E).
    intros j g _ I. change (T (RNum mx)) with R in *. rewrite sparse_fn_eq in I.
    destruct (nth_error x j) as [b|] eqn:Ej; [|destruct I]. destruct (Req_EM_T _ _) as [|NZ]; [destruct I|]. destruct I as [I|[]].
    injection I as -> _. congruence.
Qed.
Lemma pass_length mx (h : R) (x : list R) : length x = 4%nat -> length (serial_pass (N := RNum mx) h sparse_fn 4 x) = 4%nat.
Proof.
  intros L. 
  assert (S1 : forall p a (y : list R), length (sub_at (N := RNum mx) p a y) = length y).
  { intros p a y. unfold sub_at. change (T (RNum mx)) with R. destruct (nth_error y p) as [b|]; [|reflexivity]. apply set_nth_length. }
  unfold serial_pass. 
  assert (S2 : forall g (y : list R), length (fold_left (fun z '(p, a) => sub_at (N := RNum mx) p (nmul (n := RNum mx) h a) z) g y) = length y).
  { induction g as [|[p a] g IH]; intros y; [reflexivity|]. simpl fold_left. refine (eq_trans (IH _) _). apply S1. }
  assert (S3 : forall l (y : list R), length (fold_left (fun y i => fold_left (fun z '(p, a) => sub_at (N := RNum mx) p (nmul (n := RNum mx) h a) z) (sparse_fn i y) y) l y) = length y).
  { induction l as [|i l IH]; intros y; [reflexivity|]. simpl fold_left. refine (eq_trans (IH _) _). apply S2. }
  exact (eq_trans (S3 (seq 0 4) x) L).
Qed.
(** the run: each element keeps its direction from the minimiser *)
Lemma sparse_serial mx limit tolerance f step : forall fuel i (x : list R) last v (xf : list R), length x = 4%nat ->
  serial_run (N := RNum mx) limit tolerance f step sparse_fn 4 fuel i x last = Some (v, xf) ->
  exists e, (i + e <= Nat.max i limit \/ limit < i)%nat /\ length xf = 4%nat /\
    forall k, (k < 4)%nat -> co xf k + co sparse_bi k / 2 = shrink step i e * (co x k + co sparse_bi k / 2).
Proof.
  induction fuel as [|fuel IH]; intros i x last v xf L E; [discriminate|]. simpl serial_run in E.
  assert (Z : forall w, Some (w, x) = Some (v, xf) -> exists e, (i + e <= Nat.max i limit \/ limit < i)%nat /\ length xf = 4%nat /\
    forall k, (k < 4)%nat -> co xf k + co sparse_bi k / 2 = shrink step i e * (co x k + co sparse_bi k / 2)).
  { intros w Q. injection Q as _ <-. exists 0%nat. split; [lia|]. split; [exact L|]. intros k _. simpl. ring. }
  destruct (Nat.eqb_spec i limit) as [|NI]; [exact (Z _ E)|]. destruct (Rltb _ _); [exact (Z _ E)|].
  destruct (IH _ _ _ _ _ (pass_length mx (step i) x L) E) as (e & A & B & C). exists (S e). split; [lia|]. split; [exact B|].
  intros k Hk. simpl shrink. change (T (RNum mx)) with R in *. rewrite (C k Hk).
  assert (Q : co (serial_pass (N := RNum mx) (step i) sparse_fn 4 x) k = co x k - step i * (2 * co x k + co sparse_bi k)).
  { unfold co at 1 2 3. destruct (nth_error x k) as [a|] eqn:Ek; [|apply nth_error_None in Ek; lia].
    pose proof (sparse_pass mx (step i) x k Hk) as P. change (T (RNum mx)) with R in P. rewrite Ek in P. simpl in P.
    rewrite (nth_error_nth x k 0 Ek). exact (nth_error_nth _ k 0 P). }
  change (T (RNum mx)) with R in *. rewrite Q. field.
Qed.
Lemma sparse_run mx maxIterations (tolerance : R) f (step : nat -> R) shuffle T share perm cbE grad cbG cbS sched :
  (forall h l, Permutation (perm h l) l) -> (4 <= T * share)%nat ->
  (forall h, cbE h = false) -> (forall h0 h, cbG h0 h = false) -> (forall h0 h, cbS h0 h = false) ->
  (forall x v h0 h idx, (idx < 4)%nat -> exists y, seen (N := RNum mx) x h y /\ grad (OEval (N := RNum mx) x v :: h0) h idx = sparse_fn idx y) ->
  forall fuel (x0 : list R) v (xf : list R) full, length x0 = 4%nat ->
  psgd (N := RNum mx) maxIterations tolerance shuffle T share f step perm cbE grad cbG cbS sched 4 fuel x0 = Ret (v, xf, full) ->
  exists e, (e < bound maxIterations)%nat /\ length xf = 4%nat /\
    forall k, (k < 4)%nat -> co xf k + co sparse_bi k / 2 = shrink step 1 e * (co x0 k + co sparse_bi k / 2).
Proof.
  intros A1 A2 A3 A4 A5 A6 fuel x0 v xf full L E.
  pose proof (psgd_serial (N := RNum mx) 4 _ sparse_fn (sparse_separate mx) maxIterations tolerance f step shuffle T share perm cbE grad cbG cbS sched
    A1 A2 A3 A4 A5 A6 fuel x0 v xf full E) as S1.
  destruct (sparse_serial mx _ _ _ _ _ _ _ _ _ _ L S1) as (e & B & C & D). exists e. split; [|split; [exact C|exact D]].
  assert (1 <= bound maxIterations)%nat by (unfold bound; destruct maxIterations; lia). lia.
Qed.
