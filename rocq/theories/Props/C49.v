(** C49: batches of the separable test problems add up to the full problem. *)
From Coq Require Import List Arith Reals Lra Lia Permutation.
From Verif.Spec Require Import LpSpec ProblemsSpec.
From Verif.Model Require Import Problems ProblemsN.
From Verif.Proof Require Import ProblemsSum LogisticProof.
Import ListNotations.
Local Open Scope R_scope.

(** Shuffle() leaves a permutation of the functions; the constructors start with the identity. *)
Theorem C49_orders : forall perm n, (forall l, Permutation (perm l) l) ->
  Permutation (first_order n) (seq 0 n) /\ Permutation (shuffle_order perm n) (seq 0 n).
Proof. exact (fun perm n H => conj (Permutation_refl _) (H _)). Qed.
Print Assumptions C49_orders.
(** For every order of the functions and every split of them into consecutive batches: the values
    add up to the full value and the gradients to the full gradient, both the ones the problem
    had before any Shuffle(). *)
Theorem C49_sphere : forall n vo x, Permutation vo (seq 0 n) ->
  values_add_up n (sphere_evaluate vo x) (sphere_full n (first_order n) x) /\
  vectors_add_up n (sphere_gradient n vo x) (sphere_full_gradient n (first_order n) x).
Proof.
  intros n vo x P. rewrite (sphere_value n (first_order n) x (Permutation_refl _)), <- (sphere_value n vo x P). split; [apply sphere_values|].
  unfold sphere_full_gradient, sphere_gradient. rewrite (batch_add_eq n (first_order n)), <- (batch_add_eq n vo) by (exact P || apply Permutation_refl). apply batch_add_add_up.
Qed.
Print Assumptions C49_sphere.
Theorem C49_styblinski_tang : forall n vo x, Permutation vo (seq 0 n) ->
  values_add_up n (styblinski_tang_evaluate vo x) (styblinski_tang_full n (first_order n) x) /\
  vectors_add_up n (styblinski_tang_gradient n vo x) (styblinski_tang_full_gradient n (first_order n) x).
Proof.
  intros n vo x P. rewrite (styblinski_tang_value n (first_order n) x (Permutation_refl _)), <- (styblinski_tang_value n vo x P). split; [apply styblinski_tang_values|].
  unfold styblinski_tang_full_gradient, styblinski_tang_gradient. rewrite (batch_add_eq n (first_order n)), <- (batch_add_eq n vo) by (exact P || apply Permutation_refl). apply batch_add_add_up.
Qed.
Print Assumptions C49_styblinski_tang.
Theorem C49_schwefel : forall n vo x, Permutation vo (seq 0 n) ->
  values_add_up n (schwefel_evaluate vo x) (schwefel_full n (first_order n) x) /\
  vectors_add_up n (schwefel_gradient n vo x) (schwefel_full_gradient n (first_order n) x).
Proof.
  intros n vo x P. rewrite (schwefel_value n (first_order n) x (Permutation_refl _)), <- (schwefel_value n vo x P). split; [apply schwefel_values|].
  unfold schwefel_full_gradient, schwefel_gradient. rewrite (batch_add_eq n (first_order n)), <- (batch_add_eq n vo) by (exact P || apply Permutation_refl). apply batch_add_add_up.
Qed.
Print Assumptions C49_schwefel.
Theorem C49_sgd_test : forall vo x, Permutation vo (seq 0 3) ->
  values_add_up 3 (sgd_test_evaluate vo x) (sgd_test_evaluate (first_order 3) x 0 3) /\
  vectors_add_up 3 (sgd_test_gradient vo x) (sgd_test_gradient (first_order 3) x 0 3).
Proof.
  intros vo x P. rewrite (sgd_test_value (first_order 3) x (Permutation_refl _)), <- (sgd_test_value vo x P). split; [apply sgd_test_values|].
  unfold sgd_test_gradient. rewrite (batch_add_eq 3 (first_order 3)), <- (batch_add_eq 3 vo) by (exact P || apply Permutation_refl). apply batch_add_add_up.
Qed.
Print Assumptions C49_sgd_test.
Theorem C49_sparse_test : forall x, length x = 4%nat ->
  values_add_up 4 (sparse_evaluate x) (sparse_full x) /\ vectors_add_up 4 (sparse_gradient x) (sparse_gradient x 0 4) /\
  forall j, (j < 4)%nat -> co (sparse_partial_gradient x j) j = co (sparse_gradient x 0 4) j.
Proof. exact (fun x L => conj (sparse_values x) (conj (sparse_vectors x L) (fun j H => sparse_partial x j H L))). Qed.
Print Assumptions C49_sparse_test.
(** Logistic regression: also after Shuffle(), which permutes points and responses alike. *)
Theorem C49_logistic : forall lambda ordering pts w, pts <> [] -> (0 < length w)%nat -> Permutation ordering (seq 0 (length pts)) ->
  values_add_up (length pts) (lr_batch lambda pts w) (lr_evaluate lambda pts w) /\
  vectors_add_up (length pts) (lr_batch_gradient lambda pts w) (lr_gradient lambda pts w) /\
  values_add_up (length pts) (lr_batch lambda (lr_shuffle ordering pts) w) (lr_evaluate lambda pts w) /\
  vectors_add_up (length pts) (lr_batch_gradient lambda (lr_shuffle ordering pts) w) (lr_gradient lambda pts w).
Proof.
  intros lambda ordering pts w Hp Hw P. split; [apply lr_values; exact Hp|]. split; [apply lr_vectors; assumption|].
  pose proof (lr_shuffle_perm ordering pts P) as Q. destruct (lr_perm lambda pts _ w Q Hw) as [A B]. rewrite <- A, <- B, <- (Permutation_length Q).
  assert (N : lr_shuffle ordering pts <> []) by (intros E; rewrite E in Q; apply Hp, Permutation_nil, Q).
  split; [apply lr_values|apply lr_vectors]; assumption.
Qed.
Print Assumptions C49_logistic.
(** Generalized Rosenbrock, n - 1 functions: the values add up; so do the gradients of batches
    of one. *)
Theorem C49_generalized_rosenbrock : forall perm n vo x, (forall l, Permutation (perm l) l) ->
  vo = first_order n \/ vo = gr_shuffle perm n ->
  values_add_up (n - 1) (gr_evaluate vo x) (gr_full n x) /\
  ((2 <= n)%nat -> forall i, (i < n)%nat ->
     sumR (map (fun q => nth i (gr_gradient n vo x (fst q) (snd q)) 0) (batches_from 0 (repeat 1%nat (n - 1)))) = nth i (gr_full_gradient n x) 0).
Proof.
  intros perm n vo x H V. assert (P : Permutation (firstn (n - 1) vo) (seq 0 (n - 1))).
  { destruct V as [->| ->]; [apply gr_order_first|apply gr_order_shuffle; exact H]. }
  exact (conj (gr_values n vo x P) (fun Hn => gr_single n vo x Hn P)).
Qed.
Print Assumptions C49_generalized_rosenbrock.
(** Gradients of larger batches do not: a batch that holds two neighbouring functions overwrites
    the entry they share. *)
Theorem C49_generalized_rosenbrock_refuted : forall x, length x = 3%nat -> co x 1 <> co x 0 ^ 2 ->
  ~ vectors_add_up 2 (gr_gradient 3 (first_order 3) x) (gr_full_gradient 3 x).
Proof.
  intros x L H V. apply (gr_overwrites x L H). destruct (V [2%nat] eq_refl) as [_ E]. rewrite <- E. cbn [batches_from map sumR fst snd]. lra.
Qed.
Print Assumptions C49_generalized_rosenbrock_refuted.
(** Rastrigin: every batch adds the constant 10 n, so k batches give (k - 1) 10 n too much; the
    gradients add up. *)
Theorem C49_rastrigin_refuted : forall n vo x sizes, list_sum sizes = n ->
  sumR (map (fun q => rastrigin_evaluate n vo x (fst q) (snd q)) (batches_from 0 sizes)) =
    rastrigin_full n vo x + (INR (length sizes) - 1) * (10 * INR n) /\
  vectors_add_up n (rastrigin_gradient n vo x) (rastrigin_full_gradient n vo x).
Proof. exact (fun n vo x sizes E => conj (rastrigin_values n vo x sizes E) (batch_add_add_up n vo _)). Qed.
Print Assumptions C49_rastrigin_refuted.

(** ---- examples ---- *)
Example C49_example : let E := sphere_evaluate [2; 0; 1]%nat [5; -1; 2] in E 0%nat 2%nat = 29 /\ E 2%nat 1%nat = 1 /\ sphere_full 3 (first_order 3) [5; -1; 2] = 30.
Proof. cbv zeta. unfold sphere_full, sphere_evaluate, batch_sum, co. cbn. lra. Qed.
Example C49_logistic_example :
  values_add_up 2 (lr_batch 1 (lr_shuffle [1; 0]%nat [([3], 1%nat); ([-1], 0%nat)]) [1; 2]) (lr_evaluate 1 [([3], 1%nat); ([-1], 0%nat)] [1; 2]).
Proof. apply (C49_logistic 1 [1; 0]%nat [([3], 1%nat); ([-1], 0%nat)] [1; 2]); [discriminate|cbn; lia|]. apply perm_swap. Qed.
Example C49_rastrigin_example : ~ values_add_up 2 (rastrigin_evaluate 2 (first_order 2) [1; 2]) (rastrigin_full 2 (first_order 2) [1; 2]).
Proof. intros V. specialize (V [1; 1]%nat eq_refl). rewrite (rastrigin_values 2 _ _ [1; 1]%nat eq_refl) in V. cbn [length INR] in V. lra. Qed.
