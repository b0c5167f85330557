(** Sums over batches. *)
From Coq Require Import List Arith Reals Lra Lia Permutation.
From Verif.Spec Require Import Gradient LpSpec SvecSpec ProblemsSpec.
From Verif.Model Require Import Problems ProblemsN.
From Verif.Proof Require Import ProximalProof LRSDPProof PrimalDualProof.
Import ListNotations.
Local Open Scope R_scope.

Lemma fold_sum {A} (f : A -> R) l : forall o, fold_left (fun o a => o + f a) l o = o + sumR (map f l).
Proof. induction l as [|a l IH]; intros o; cbn [fold_left map sumR]; [lra|]. rewrite IH. lra. Qed.
Lemma fold_Rplus l : forall o, fold_left Rplus l o = o + sumR l.
Proof. induction l as [|a l IH]; intros o; cbn [fold_left sumR]; [lra|]. rewrite IH. lra. Qed.
Lemma sumR_map_ext {A} (f g : A -> R) l : (forall a, In a l -> f a = g a) -> sumR (map f l) = sumR (map g l).
Proof. intros H. f_equal. apply map_ext_in. exact H. Qed.
Lemma sumR_map_scal {A} (f : A -> R) c l : sumR (map (fun a => c * f a) l) = c * sumR (map f l).
Proof. induction l as [|a l IH]; cbn [map sumR]; [lra|]. rewrite IH. lra. Qed.
Lemma sumR_map_plus {A} (f g : A -> R) l : sumR (map (fun a => f a + g a) l) = sumR (map f l) + sumR (map g l).
Proof. induction l as [|a l IH]; cbn [map sumR]; [lra|]. rewrite IH. lra. Qed.
Lemma batch_sum_eq vo b s term o : batch_sum vo b s term o = o + sumR (map (fun j => term (nth j vo 0%nat)) (seq b s)).
Proof. unfold batch_sum. apply (fold_sum (fun j => term (nth j vo 0%nat))). Qed.
(** sums over consecutive batches *)
Lemma sum_batches (f : nat -> R) : forall sizes b,
  sumR (map (fun q => sumR (map f (seq (fst q) (snd q)))) (batches_from b sizes)) = sumR (map f (seq b (list_sum sizes))).
Proof.
  induction sizes as [|s r IH]; intros b; [reflexivity|]. cbn [batches_from map sumR fst snd]. rewrite IH.
  change (list_sum (s :: r)) with (s + list_sum r)%nat. rewrite seq_app, map_app, sumR_app. reflexivity.
Qed.
Lemma sum_sizes : forall sizes b, sumR (map (fun q => INR (snd q)) (batches_from b sizes)) = INR (list_sum sizes).
Proof. induction sizes as [|s r IH]; intros b; [reflexivity|]. cbn [batches_from map sumR fst snd]. rewrite IH.
  change (list_sum (s :: r)) with (s + list_sum r)%nat. rewrite plus_INR. reflexivity. Qed.
Lemma nth_seq_id (vo : list nat) n : length vo = n -> map (fun j => nth j vo 0%nat) (seq 0 n) = vo.
Proof.
  intros <-. apply (nth_ext _ _ 0%nat 0%nat). { rewrite map_length, seq_length. reflexivity. }
  intros i Hi. rewrite map_length, seq_length in Hi. rewrite (nth_indep _ 0%nat (nth 0 vo 0%nat)) by (rewrite map_length, seq_length; exact Hi).
  rewrite (map_nth (fun j => nth j vo 0%nat)), seq_nth by exact Hi. reflexivity.
Qed.
Lemma sum_order n vo (f : nat -> R) : Permutation (firstn n vo) (seq 0 n) -> sum_n n (fun j => f (nth j vo 0%nat)) = sum_n n f.
Proof.
  intros P. unfold sum_n. pose proof (Permutation_length P) as L. rewrite seq_length in L.
  rewrite (sumR_map_ext _ (fun j => f (nth j (firstn n vo) 0%nat))).
  2:{ intros j Hj. apply in_seq in Hj. rewrite <- (firstn_skipn n vo) at 1. rewrite app_nth1 by lia. reflexivity. }
  rewrite <- (map_map (fun j => nth j (firstn n vo) 0%nat) f), nth_seq_id by exact L.
  apply sumR_perm, Permutation_map, P.
Qed.
Lemma full_order n vo : Permutation vo (seq 0 n) -> Permutation (firstn n vo) (seq 0 n).
Proof. intros P. pose proof (Permutation_length P) as L. rewrite seq_length in L. rewrite firstn_all2 by lia. exact P. Qed.

(** ---- vectors ---- *)
Lemma put_length p v : forall g, length (put p v g) = length g.
Proof. revert p. intros p g. revert p. induction g as [|a g IH]; intros [|p]; cbn [put length]; auto. Qed.
Lemma nth_put_same v : forall g p, (p < length g)%nat -> nth p (put p v g) 0 = v.
Proof. induction g as [|a g IH]; intros [|p] H; cbn [put nth length] in *; try lia; auto. apply IH. lia. Qed.
Lemma nth_put_other v : forall g p i, i <> p -> nth i (put p v g) 0 = nth i g 0.
Proof. induction g as [|a g IH]; intros [|p] [|i] H; cbn [put nth]; auto; try congruence. Qed.
Lemma add_at_length p v g : length (add_at p v g) = length g. Proof. apply put_length. Qed.
Lemma nth_add_at p v g i : (i < length g)%nat -> nth i (add_at p v g) 0 = nth i g 0 + (if Nat.eqb p i then v else 0).
Proof.
  intros H. unfold add_at. destruct (Nat.eqb_spec p i) as [->|Hn].
  - rewrite nth_put_same by exact H. reflexivity.
  - rewrite nth_put_other by auto. lra.
Qed.
Lemma nth_repeat0 n i : nth i (repeat 0 n) 0 = 0.
Proof. revert i. induction n; intros [|i]; cbn [repeat nth]; auto. Qed.
Lemma fold_add n (h : nat -> nat) (term : nat -> R) : forall l g, length g = n ->
  length (fold_left (fun g j => add_at (h j) (term (h j)) g) l g) = n /\
  forall i, (i < n)%nat -> nth i (fold_left (fun g j => add_at (h j) (term (h j)) g) l g) 0 =
    nth i g 0 + sumR (map (fun j => if Nat.eqb (h j) i then term i else 0) l).
Proof.
  induction l as [|j l IH]; intros g L; cbn [fold_left map sumR].
  - split; [exact L|]. intros i Hi. lra.
  - destruct (IH (add_at (h j) (term (h j)) g)) as [A B]. { rewrite add_at_length. exact L. }
    split; [exact A|]. intros i Hi. rewrite B by exact Hi. rewrite nth_add_at by (rewrite L; exact Hi).
    destruct (Nat.eqb_spec (h j) i) as [->|]; lra.
Qed.
Lemma batch_add_length n vo b s term : length (batch_add n vo b s term) = n.
Proof. unfold batch_add. apply (fold_add n (fun j => nth j vo 0%nat) term (seq b s) (repeat 0 n)). apply repeat_length. Qed.
Lemma batch_add_nth n vo b s term i : (i < n)%nat ->
  nth i (batch_add n vo b s term) 0 = sumR (map (fun j => if Nat.eqb (nth j vo 0%nat) i then term i else 0) (seq b s)).
Proof.
  intros H. unfold batch_add. rewrite (proj2 (fold_add n (fun j => nth j vo 0%nat) term (seq b s) (repeat 0 n) (repeat_length 0 n)) i H).
  rewrite nth_repeat0. lra.
Qed.
Lemma sum_delta n i v : (i < n)%nat -> sum_n n (fun p => if Nat.eqb p i then v else 0) = v.
Proof.
  intros H. rewrite (sum_n_ext n _ (fun p => (if Nat.eqb i p then 1 else 0) * v)).
  - rewrite (sum_n_delta n (fun _ => v) i H). reflexivity.
  - intros p _. rewrite Nat.eqb_sym. destruct (Nat.eqb i p); lra.
Qed.
Lemma batch_add_all n vo term i : Permutation vo (seq 0 n) -> (i < n)%nat -> nth i (batch_add n vo 0 n term) 0 = term i.
Proof.
  intros P H. rewrite batch_add_nth by exact H. fold (sum_n n (fun j => if Nat.eqb (nth j vo 0%nat) i then term i else 0)).
  rewrite (sum_order n vo (fun p => if Nat.eqb p i then term i else 0) (full_order n vo P)). apply sum_delta. exact H.
Qed.
Lemma batch_add_eq n vo term : Permutation vo (seq 0 n) -> batch_add n vo 0 n term = map term (seq 0 n).
Proof.
  intros P. apply (nth_ext _ _ 0 0). { rewrite batch_add_length, map_length, seq_length. reflexivity. }
  intros i Hi. rewrite batch_add_length in Hi. rewrite batch_add_all by assumption.
  rewrite (nth_indep _ 0 (term 0%nat)) by (rewrite map_length, seq_length; exact Hi). rewrite map_nth, seq_nth by exact Hi. reflexivity.
Qed.
Lemma batch_add_add_up n vo term : vectors_add_up n (fun b s => batch_add n vo b s term) (batch_add n vo 0 n term).
Proof.
  intros sizes E. split. { intros q _. rewrite !batch_add_length. reflexivity. }
  intros i. destruct (Nat.lt_ge_cases i n) as [H|H].
  - rewrite (sumR_map_ext _ (fun q => sumR (map (fun j => if Nat.eqb (nth j vo 0%nat) i then term i else 0) (seq (fst q) (snd q))))).
    2:{ intros q _. apply batch_add_nth. exact H. }
    rewrite (sum_batches (fun j => if Nat.eqb (nth j vo 0%nat) i then term i else 0)), E. rewrite batch_add_nth by exact H. reflexivity.
  - rewrite (nth_overflow (batch_add n vo 0 n term)) by (rewrite batch_add_length; exact H).
    rewrite (sumR_map_ext _ (fun _ => 0 * 0)). { rewrite sumR_map_scal. lra. }
    intros q _. rewrite nth_overflow by (rewrite batch_add_length; exact H). lra.
Qed.

(** ---- the separable problems ---- *)
Lemma sphere_values n vo x : values_add_up n (sphere_evaluate vo x) (sphere_full n vo x).
Proof.
  intros sizes E. unfold sphere_full, sphere_evaluate.
  rewrite (sumR_map_ext _ (fun q => sumR (map (fun j => co x (nth j vo 0%nat) ^ 2) (seq (fst q) (snd q))))).
  2:{ intros q _. rewrite (batch_sum_eq vo _ _ (fun p => co x p ^ 2)). lra. }
  rewrite (sum_batches (fun j => co x (nth j vo 0%nat) ^ 2)), E, (batch_sum_eq vo _ _ (fun p => co x p ^ 2)). lra.
Qed.
Lemma sphere_value n vo x : Permutation vo (seq 0 n) -> sphere_full n vo x = sum_n n (fun p => co x p ^ 2).
Proof.
  intros P. unfold sphere_full, sphere_evaluate. rewrite batch_sum_eq.
  rewrite <- (sum_order n vo (fun p => co x p ^ 2) (full_order n vo P)). unfold sum_n. lra.
Qed.
Lemma styblinski_tang_values n vo x : values_add_up n (styblinski_tang_evaluate vo x) (styblinski_tang_full n vo x).
Proof.
  intros sizes E. unfold styblinski_tang_full, styblinski_tang_evaluate. set (t := fun p => co x p ^ 4 - 16 * co x p ^ 2 + 5 * co x p).
  rewrite (sumR_map_ext _ (fun q => /2 * sumR (map (fun j => t (nth j vo 0%nat)) (seq (fst q) (snd q))))).
  2:{ intros q _. rewrite batch_sum_eq. unfold Rdiv. lra. }
  rewrite sumR_map_scal, (sum_batches (fun j => t (nth j vo 0%nat))), E, batch_sum_eq. unfold Rdiv. lra.
Qed.
Lemma styblinski_tang_value n vo x : Permutation vo (seq 0 n) ->
  styblinski_tang_full n vo x = sum_n n (fun p => (co x p ^ 4 - 16 * co x p ^ 2 + 5 * co x p) / 2).
Proof.
  intros P. unfold styblinski_tang_full, styblinski_tang_evaluate. rewrite batch_sum_eq. unfold Rdiv. rewrite sum_n_scal_r.
  rewrite <- (sum_order n vo (fun p => co x p ^ 4 - 16 * co x p ^ 2 + 5 * co x p) (full_order n vo P)). unfold sum_n. lra.
Qed.
Lemma schwefel_values n vo x : values_add_up n (schwefel_evaluate vo x) (schwefel_full n vo x).
Proof.
  intros sizes E. unfold schwefel_full, schwefel_evaluate. set (t := fun p => co x p * sin (sqrt (Rabs (co x p)))).
  rewrite (sumR_map_ext _ (fun q => sumR (map (fun j => t (nth j vo 0%nat)) (seq (fst q) (snd q))) + - (4189829/10000) * INR (snd q))).
  2:{ intros q _. rewrite batch_sum_eq. lra. }
  rewrite sumR_map_plus, sumR_map_scal, (sum_batches (fun j => t (nth j vo 0%nat))), sum_sizes, E, batch_sum_eq. lra.
Qed.
Lemma schwefel_value n vo x : Permutation vo (seq 0 n) ->
  schwefel_full n vo x = sum_n n (fun p => co x p * sin (sqrt (Rabs (co x p)))) - 4189829/10000 * INR n.
Proof.
  intros P. unfold schwefel_full, schwefel_evaluate. rewrite batch_sum_eq.
  rewrite <- (sum_order n vo (fun p => co x p * sin (sqrt (Rabs (co x p)))) (full_order n vo P)). unfold sum_n. lra.
Qed.
Lemma rastrigin_values n vo x sizes : list_sum sizes = n ->
  sumR (map (fun q => rastrigin_evaluate n vo x (fst q) (snd q)) (batches_from 0 sizes)) =
  rastrigin_full n vo x + (INR (length sizes) - 1) * (10 * INR n).
Proof.
  intros E. unfold rastrigin_full, rastrigin_evaluate. set (t := fun p => co x p ^ 2 - 10 * cos (2 * PI * co x p)).
  rewrite (sumR_map_ext _ (fun q => sumR (map (fun j => t (nth j vo 0%nat)) (seq (fst q) (snd q))) + 10 * INR n)).
  2:{ intros q _. rewrite batch_sum_eq. lra. }
  rewrite sumR_map_plus, (sum_batches (fun j => t (nth j vo 0%nat))), E, batch_sum_eq.
  assert (K : forall l b, sumR (map (fun _ => 10 * INR n) (batches_from b l)) = INR (length l) * (10 * INR n)).
  { clear. induction l as [|s l IH]; intros b. { cbn. lra. } cbn [batches_from map sumR]. rewrite IH. cbn [length]. rewrite (S_INR (length l)). lra. }
  rewrite K. lra.
Qed.
Lemma rastrigin_value n vo x : Permutation vo (seq 0 n) ->
  rastrigin_full n vo x = sum_n n (fun p => co x p ^ 2 - 10 * cos (2 * PI * co x p)) + 10 * INR n.
Proof.
  intros P. unfold rastrigin_full, rastrigin_evaluate. rewrite batch_sum_eq.
  rewrite <- (sum_order n vo (fun p => co x p ^ 2 - 10 * cos (2 * PI * co x p)) (full_order n vo P)). unfold sum_n. lra.
Qed.
Lemma sgd_test_values vo x : values_add_up 3 (sgd_test_evaluate vo x) (sgd_test_evaluate vo x 0 3).
Proof.
  intros sizes E. unfold sgd_test_evaluate.
  rewrite (sumR_map_ext _ (fun q => sumR (map (fun j => sgd_test_term x (nth j vo 0%nat)) (seq (fst q) (snd q))))).
  2:{ intros q _. rewrite batch_sum_eq. lra. }
  rewrite (sum_batches (fun j => sgd_test_term x (nth j vo 0%nat))), E, batch_sum_eq. lra.
Qed.
Lemma sgd_test_value vo x : Permutation vo (seq 0 3) ->
  sgd_test_evaluate vo x 0 3 = - exp (- Rabs (co x 0)) + co x 1 ^ 2 + (co x 2 ^ 4 + 3 * co x 2 ^ 2).
Proof.
  intros P. unfold sgd_test_evaluate. rewrite batch_sum_eq.
  pose proof (sum_order 3 vo (sgd_test_term x) (full_order 3 vo P)) as H. unfold sum_n in H. rewrite H. cbn [seq map sumR sgd_test_term]. lra.
Qed.
Lemma sparse_values x : values_add_up 4 (sparse_evaluate x) (sparse_full x).
Proof.
  intros sizes E. unfold sparse_full, sparse_evaluate. set (t := fun j => co x j * co x j + co sparse_bi j * co x j + co sparse_intercepts j).
  rewrite (sumR_map_ext _ (fun q => sumR (map t (seq (fst q) (snd q))))).
  2:{ intros q _. rewrite (fold_sum t). lra. }
  rewrite (sum_batches t), E, (fold_sum t). lra.
Qed.
(** assignments to distinct entries *)
Lemma fold_put n (w : nat -> R) : forall l g, length g = n ->
  length (fold_left (fun g j => put j (w j) g) l g) = n /\
  forall i, (i < n)%nat -> nth i (fold_left (fun g j => put j (w j) g) l g) 0 = if in_dec Nat.eq_dec i l then w i else nth i g 0.
Proof.
  induction l as [|j l IH]; intros g L; cbn [fold_left]; [split; [exact L|reflexivity]|].
  destruct (IH (put j (w j) g)) as [A B]. { rewrite put_length. exact L. } split; [exact A|]. intros i Hi. rewrite B by exact Hi.
  destruct (in_dec Nat.eq_dec i l) as [Hl|Hl]; destruct (in_dec Nat.eq_dec i (j :: l)) as [Hj|Hj]; cbn [In] in *; try tauto.
  - destruct Hj as [->|]; [|tauto]. apply nth_put_same. rewrite L. exact Hi.
  - apply nth_put_other. intros ->. tauto.
Qed.
Lemma sparse_gradient_nth x b s i : (i < length x)%nat ->
  nth i (sparse_gradient x b s) 0 = sumR (map (fun j => if Nat.eqb j i then 2 * co x i + co sparse_bi i else 0) (seq b s)).
Proof.
  intros H. unfold sparse_gradient.
  rewrite (proj2 (fold_put (length x) (fun j => 2 * co x j + co sparse_bi j) (seq b s) (repeat 0 (length x)) (repeat_length _ _)) i H).
  rewrite nth_repeat0. set (v := 2 * co x i + co sparse_bi i).
  assert (K : forall s b, sumR (map (fun j => if Nat.eqb j i then v else 0) (seq b s)) = if in_dec Nat.eq_dec i (seq b s) then v else 0).
  { clear. induction s as [|s IH]; intros b; [reflexivity|]. cbn [seq map sumR]. rewrite IH.
    destruct (in_dec Nat.eq_dec i (seq (S b) s)) as [H|H]; destruct (in_dec Nat.eq_dec i (b :: seq (S b) s)) as [H'|H'];
      destruct (Nat.eqb_spec b i) as [Hb|Hb]; cbn [In] in H'; try lra; try (exfalso; tauto); try (destruct H'; exfalso; tauto).
    apply in_seq in H. lia. }
  rewrite K. reflexivity.
Qed.
Lemma sparse_vectors x : length x = 4%nat -> vectors_add_up 4 (sparse_gradient x) (sparse_gradient x 0 4).
Proof.
  intros L sizes E. assert (Ln : forall b s, length (sparse_gradient x b s) = length x).
  { intros b s. apply (fold_put (length x) (fun j => 2 * co x j + co sparse_bi j) (seq b s) (repeat 0 (length x)) (repeat_length _ _)). }
  split. { intros q _. rewrite !Ln. reflexivity. }
  intros i. destruct (Nat.lt_ge_cases i (length x)) as [H|H].
  - rewrite (sumR_map_ext _ (fun q => sumR (map (fun j => if Nat.eqb j i then 2 * co x i + co sparse_bi i else 0) (seq (fst q) (snd q))))).
    2:{ intros q _. apply sparse_gradient_nth. exact H. }
    rewrite (sum_batches (fun j => if Nat.eqb j i then 2 * co x i + co sparse_bi i else 0)), E. rewrite sparse_gradient_nth by exact H. reflexivity.
  - rewrite (nth_overflow (sparse_gradient x 0 4)) by (rewrite Ln; exact H).
    rewrite (sumR_map_ext _ (fun _ => 0 * 0)). { rewrite sumR_map_scal. lra. }
    intros q _. rewrite nth_overflow by (rewrite Ln; exact H). lra.
Qed.
Lemma sparse_gradient_eq x : length x = 4%nat -> sparse_gradient x 0 4 = map (fun i => 2 * co x i + co sparse_bi i) (seq 0 4).
Proof. intros L. destruct x as [|a [|b [|c [|d [|]]]]]; try discriminate L. reflexivity. Qed.
Lemma sparse_partial x j : (j < 4)%nat -> length x = 4%nat -> co (sparse_partial_gradient x j) j = co (sparse_gradient x 0 4) j.
Proof.
  intros H L. rewrite sparse_gradient_eq by exact L. unfold sparse_partial_gradient, co at 1. rewrite nth_put_same by (rewrite repeat_length; lia).
  destruct j as [|[|[|[|j]]]]; [reflexivity..|lia].
Qed.

(** ---- generalized Rosenbrock ---- *)
Definition gr_term (x : list R) (p : nat) : R := 100 * (co x p ^ 2 - co x (p + 1)) ^ 2 + (1 - co x p) ^ 2.
Definition gr_a (x : list R) (p : nat) : R := 400 * (co x p ^ 3 - co x p * co x (p + 1)) + 2 * (co x p - 1).
Definition gr_b (x : list R) (p : nat) : R := 200 * (co x (p + 1) - co x p ^ 2).
Lemma gr_full_eq n x : gr_full n x = sum_n (n - 1) (gr_term x).
Proof. unfold gr_full. rewrite (fold_sum (gr_term x)). unfold sum_n. lra. Qed.
Lemma gr_values n vo x : Permutation (firstn (n - 1) vo) (seq 0 (n - 1)) -> values_add_up (n - 1) (gr_evaluate vo x) (gr_full n x).
Proof.
  intros P sizes E. unfold gr_evaluate.
  rewrite (sumR_map_ext _ (fun q => sumR (map (fun j => gr_term x (nth j vo 0%nat)) (seq (fst q) (snd q))))).
  2:{ intros q _. rewrite (batch_sum_eq vo _ _ (gr_term x)). lra. }
  rewrite (sum_batches (fun j => gr_term x (nth j vo 0%nat))), E, gr_full_eq, <- (sum_order (n - 1) vo (gr_term x) P). reflexivity.
Qed.
Lemma gr_order_first n : Permutation (firstn (n - 1) (first_order n)) (seq 0 (n - 1)).
Proof.
  unfold first_order. destruct n as [|n]; [reflexivity|]. replace (S n - 1)%nat with n by lia.
  rewrite seq_S, firstn_app, seq_length, Nat.sub_diag, firstn_O, app_nil_r, firstn_all2 by (rewrite seq_length; lia). reflexivity.
Qed.
Lemma gr_order_shuffle perm n : (forall l, Permutation (perm l) l) -> Permutation (firstn (n - 1) (gr_shuffle perm n)) (seq 0 (n - 1)).
Proof. intros H. apply full_order. apply H. Qed.
(** entry i of the full gradient *)
Definition gr_entry (n : nat) (x : list R) (i : nat) : R :=
  (if Nat.ltb i (n - 1) then gr_a x i else 0) + (if Nat.ltb 0 i then gr_b x (i - 1) else 0).
Lemma gr_loop n x : forall m g, (m <= n)%nat -> length g = n ->
  let g' := fold_left (fun g i =>
    let g1 := put i (400 * (co x i ^ 3 - co x i * co x (i + 1)) + 2 * (co x i - 1)) g in
    if Nat.ltb 0 i then add_at i (200 * (co x i - co x (i - 1) ^ 2)) g1 else g1) (seq 0 m) g in
  length g' = n /\ forall i, (i < n)%nat -> nth i g' 0 =
    if Nat.ltb i m then gr_a x i + (if Nat.ltb 0 i then gr_b x (i - 1) else 0) else nth i g 0.
Proof.
  induction m as [|m IH]; intros g Hm L g'; [split; [exact L|reflexivity]|].
  unfold g'. rewrite seq_S, fold_left_app. cbn [fold_left Nat.add]. destruct (IH g ltac:(lia) L) as [A B].
  set (h := fold_left _ (seq 0 m) g) in *. set (v := 400 * _ + _). set (w := 200 * _).
  assert (Lp : length (put m v h) = n) by (rewrite put_length; exact A). split.
  - destruct (Nat.ltb 0 m); [rewrite add_at_length|]; exact Lp.
  - intros i Hi.
    assert (Q : nth i (if Nat.ltb 0 m then add_at m w (put m v h) else put m v h) 0 =
                nth i (put m v h) 0 + (if Nat.eqb m i then (if Nat.ltb 0 m then w else 0) else 0)).
    { destruct (Nat.ltb 0 m). - rewrite nth_add_at by (rewrite Lp; exact Hi). reflexivity. - destruct (Nat.eqb m i); lra. }
    rewrite Q. destruct (Nat.eqb_spec m i) as [->|Hn].
    + rewrite nth_put_same by (rewrite A; exact Hi). replace (Nat.ltb i (S i)) with true by (symmetry; apply Nat.ltb_lt; lia).
      unfold v, gr_a, w, gr_b. destruct (Nat.ltb_spec 0 i); [|reflexivity]. replace (i - 1 + 1)%nat with i by lia. reflexivity.
    + rewrite nth_put_other by auto. rewrite B by exact Hi. rewrite Rplus_0_r.
      destruct (Nat.ltb_spec i m); destruct (Nat.ltb_spec i (S m)); try lia; reflexivity.
Qed.
Lemma gr_full_gradient_nth n x : (2 <= n)%nat ->
  length (gr_full_gradient n x) = n /\ forall i, (i < n)%nat -> nth i (gr_full_gradient n x) 0 = gr_entry n x i.
Proof.
  intros Hn. unfold gr_full_gradient. destruct (gr_loop n x (n - 1) (repeat 0 n) ltac:(lia) (repeat_length 0 n)) as [A B].
  set (g := fold_left _ _ _) in *. split; [rewrite put_length; exact A|]. intros i Hi. unfold gr_entry.
  destruct (Nat.eq_dec i (n - 1)) as [->|Hne].
  - rewrite nth_put_same by (rewrite A; lia). rewrite Nat.ltb_irrefl. replace (Nat.ltb 0 (n - 1)) with true by (symmetry; apply Nat.ltb_lt; lia).
    unfold gr_b. replace (n - 1 - 1 + 1)%nat with (n - 1)%nat by lia. replace (n - 1 - 1)%nat with (n - 2)%nat by lia. lra.
  - rewrite nth_put_other by auto. rewrite B by exact Hi. destruct (Nat.ltb_spec i (n - 1)); [reflexivity|lia].
Qed.
(** a batch of one function *)
Lemma gr_gradient_one n vo x j i : (nth j vo 0 + 1 < n)%nat -> (i < n)%nat ->
  nth i (gr_gradient n vo x j 1) 0 =
  (if Nat.eqb (nth j vo 0%nat) i then gr_a x (nth j vo 0%nat) else 0) + (if Nat.eqb (nth j vo 0%nat + 1) i then gr_b x (nth j vo 0%nat) else 0).
Proof.
  intros Hp Hi. unfold gr_gradient. cbn [seq fold_left]. set (p := nth j vo 0%nat) in *. cbv zeta.
  fold (gr_a x p). fold (gr_b x p).
  destruct (Nat.eqb_spec (p + 1) i) as [<-|H1].
  - rewrite nth_put_same by (rewrite put_length, repeat_length; lia). destruct (Nat.eqb_spec p (p + 1)); [lia|]. lra.
  - rewrite nth_put_other by auto. destruct (Nat.eqb_spec p i) as [<-|H2].
    + rewrite nth_put_same by (rewrite repeat_length; lia). lra.
    + rewrite nth_put_other by auto. rewrite nth_repeat0. lra.
Qed.
Lemma gr_gradient_length n vo x b s : length (gr_gradient n vo x b s) = n.
Proof.
  unfold gr_gradient. generalize (seq b s). intros l. rewrite <- (repeat_length 0 n) at 2. generalize (repeat 0 n).
  induction l as [|j l IH]; intros g; cbn [fold_left]; [reflexivity|]. rewrite IH. cbv zeta. rewrite !put_length. reflexivity.
Qed.
Lemma ones_batches : forall m b, batches_from b (repeat 1%nat m) = map (fun j => (j, 1%nat)) (seq b m).
Proof. induction m as [|m IH]; intros b; [reflexivity|]. cbn [repeat batches_from seq map]. f_equal. rewrite Nat.add_1_r. apply IH. Qed.
Lemma gr_single n vo x : (2 <= n)%nat -> Permutation (firstn (n - 1) vo) (seq 0 (n - 1)) -> forall i, (i < n)%nat ->
  sumR (map (fun q => nth i (gr_gradient n vo x (fst q) (snd q)) 0) (batches_from 0 (repeat 1%nat (n - 1)))) = nth i (gr_full_gradient n x) 0.
Proof.
  intros Hn P i Hi. rewrite ones_batches, map_map. cbn [fst snd].
  set (F := fun p => (if Nat.eqb p i then gr_a x p else 0) + (if Nat.eqb (p + 1) i then gr_b x p else 0)).
  rewrite (sumR_map_ext _ (fun j => F (nth j vo 0%nat))).
  2:{ intros j Hj. apply in_seq in Hj. apply gr_gradient_one; [|exact Hi].
      assert (I : In (nth j vo 0%nat) (seq 0 (n - 1))).
      { apply (Permutation_in _ P). rewrite <- (firstn_skipn (n - 1) vo) at 1. pose proof (Permutation_length P) as L. rewrite seq_length in L.
        rewrite app_nth1 by lia. apply nth_In. lia. }
      apply in_seq in I. lia. }
  change (sumR (map (fun j => F (nth j vo 0%nat)) (seq 0 (n - 1)))) with (sum_n (n - 1) (fun j => F (nth j vo 0%nat))).
  rewrite (sum_order (n - 1) vo F P). rewrite (proj2 (gr_full_gradient_nth n x Hn) i Hi). unfold F, gr_entry. rewrite sum_n_plus. f_equal.
  - destruct (Nat.ltb_spec i (n - 1)) as [H|H].
    + rewrite (sum_n_ext _ _ (fun p => if Nat.eqb p i then gr_a x i else 0)). { apply sum_delta. exact H. }
      intros p _. destruct (Nat.eqb_spec p i) as [->|]; reflexivity.
    + rewrite (sum_n_ext _ _ (fun _ => 0)). { apply sum_n_zero. } intros p Hp. destruct (Nat.eqb_spec p i); [lia|reflexivity].
  - destruct (Nat.ltb_spec 0 i) as [H|H].
    + rewrite (sum_n_ext _ _ (fun p => if Nat.eqb p (i - 1) then gr_b x (i - 1) else 0)). { apply sum_delta. lia. }
      intros p _. destruct (Nat.eqb_spec (p + 1) i) as [E|E]; destruct (Nat.eqb_spec p (i - 1)) as [E'|E']; try lia; [rewrite E'|]; reflexivity.
    + rewrite (sum_n_ext _ _ (fun _ => 0)). { apply sum_n_zero. } intros p Hp. destruct (Nat.eqb_spec (p + 1) i); [lia|reflexivity].
Qed.
Lemma gr_overwrites x : length x = 3%nat -> co x 1 <> co x 0 ^ 2 ->
  nth 1 (gr_gradient 3 (first_order 3) x 0 2) 0 <> nth 1 (gr_full_gradient 3 x) 0.
Proof.
  intros L H. destruct x as [|a [|b [|c [|]]]]; try discriminate L. unfold gr_gradient, gr_full_gradient, co in *. cbn in *. lra.
Qed.
