(** Gradients of the separable problems. *)
From Coq Require Import List Arith Reals Lra Lia Permutation.
From Coquelicot Require Import Coquelicot.
From Verif.Spec Require Import Gradient LpSpec SvecSpec ProblemsSpec.
From Verif.Model Require Import Problems ProblemsN.
From Verif.Proof Require Import ProximalProof LRSDPProof PrimalDualProof GradientProof ProblemsGrad ProblemsSum.
Import ListNotations.
Local Open Scope R_scope.

Lemma nth_map_seq (f : nat -> R) n p : (p < n)%nat -> nth p (map f (seq 0 n)) 0 = f p.
Proof. intros H. rewrite (nth_indep _ 0 (f 0%nat)) by (rewrite map_length, seq_length; exact H). rewrite map_nth, seq_nth by exact H. reflexivity. Qed.
Lemma nth_along : forall x d t p, length d = length x -> nth p (along x d t) 0 = nth p x 0 + t * nth p d 0.
Proof.
  induction x as [|a x IH]; intros [|b d] t p L; try discriminate L.
  - destruct p; cbn; lra.
  - destruct p as [|p]; cbn [along nth]; [reflexivity|]. apply IH. injection L as L. exact L.
Qed.
Lemma dotR_sum : forall g d, length g = length d -> dotR g d = sum_n (length d) (fun p => nth p g 0 * nth p d 0).
Proof.
  induction g as [|a g IH]; intros [|b d] L; try discriminate L; [reflexivity|]. cbn [dotR length]. rewrite sum_n_first. cbn [nth].
  rewrite IH by (injection L as L; exact L). reflexivity.
Qed.
Lemma deriv_line phi a b l : is_derive phi a l -> derivable_pt_lim (fun t => phi (a + t * b)) 0 (l * b).
Proof.
  intros D. apply is_derive_Reals. replace (l * b) with (scal b l) by (unfold scal; cbn; unfold mult; cbn; ring).
  apply (is_derive_comp phi (fun t => a + t * b) 0 l b).
  - rewrite Rmult_0_l, Rplus_0_r. exact D.
  - auto_derive; [auto|]. ring.
Qed.
(** a sum of functions of one coordinate each *)
Lemma gradient_coords n (phi : nat -> R -> R) (psi : nat -> R) x : length x = n ->
  (forall p, (p < n)%nat -> is_derive (phi p) (co x p) (psi p)) ->
  gradient_at (fun y => sum_n n (fun p => phi p (co y p))) x (map psi (seq 0 n)).
Proof.
  intros L H. split; [rewrite map_length, seq_length; auto|]. intros d Ld.
  rewrite dotR_sum by (rewrite map_length, seq_length; lia). rewrite Ld, L.
  rewrite (sum_n_ext n _ (fun p => psi p * co d p)).
  2:{ intros p Hp. rewrite (nth_indep _ 0 (psi 0%nat)) by (rewrite map_length, seq_length; exact Hp). rewrite map_nth, seq_nth by exact Hp. reflexivity. }
  apply is_derive_Reals. apply (is_derive_ext (fun t => sum_n n (fun p => phi p (co x p + t * co d p)))).
  { intros t. apply sum_n_ext. intros p Hp. unfold co. rewrite nth_along by exact Ld. reflexivity. }
  apply is_derive_Reals. apply (sum_n_deriv n (fun p t => phi p (co x p + t * co d p))). intros p Hp. apply deriv_line, H, Hp.
Qed.
Lemma sphere_gradient_ok n vo x : Permutation vo (seq 0 n) -> length x = n -> gradient_at (sphere_full n vo) x (sphere_full_gradient n vo x).
Proof.
  intros P L. unfold sphere_full_gradient, sphere_gradient. rewrite batch_add_eq by exact P.
  apply (gradient_ext (fun y => sum_n n (fun p => (fun a => a ^ 2) (co y p)))). { intros y. rewrite sphere_value by exact P. reflexivity. }
  apply (gradient_coords n (fun _ a => a ^ 2)); [exact L|]. intros p _. auto_derive; [auto|]. ring.
Qed.
Lemma styblinski_tang_gradient_ok n vo x : Permutation vo (seq 0 n) -> length x = n ->
  gradient_at (styblinski_tang_full n vo) x (styblinski_tang_full_gradient n vo x).
Proof.
  intros P L. unfold styblinski_tang_full_gradient, styblinski_tang_gradient. rewrite batch_add_eq by exact P.
  apply (gradient_ext (fun y => sum_n n (fun p => (fun a => (a ^ 4 - 16 * a ^ 2 + 5 * a) / 2) (co y p)))).
  { intros y. rewrite styblinski_tang_value by exact P. reflexivity. }
  apply (gradient_coords n (fun _ a => (a ^ 4 - 16 * a ^ 2 + 5 * a) / 2)); [exact L|]. intros p _. auto_derive; [auto|]. field.
Qed.
(** the right gradient of Rastrigin: without the factor 10 n *)
Lemma rastrigin_true n vo x : Permutation vo (seq 0 n) -> length x = n ->
  gradient_at (rastrigin_full n vo) x (map (fun p => 2 * (co x p + 10 * PI * sin (2 * PI * co x p))) (seq 0 n)).
Proof.
  intros P L.
  apply (gradient_ext (fun y => sum_n n (fun p => (fun a => a ^ 2 - 10 * cos (2 * PI * a) + 10) (co y p)))).
  { intros y. rewrite rastrigin_value by exact P. rewrite sum_n_plus. f_equal. unfold sum_n. generalize 0%nat. clear. induction n as [|n IH]; intros b; [cbn; lra|].
    cbn [seq map sumR]. rewrite IH. rewrite (S_INR n). lra. }
  apply (gradient_coords n (fun _ a => a ^ 2 - 10 * cos (2 * PI * a) + 10)); [exact L|]. intros p _. auto_derive; [auto|]. ring.
Qed.
Lemma rastrigin_scaled n vo x : Permutation vo (seq 0 n) ->
  rastrigin_full_gradient n vo x = map (fun a => 10 * INR n * a) (map (fun p => 2 * (co x p + 10 * PI * sin (2 * PI * co x p))) (seq 0 n)).
Proof. intros P. unfold rastrigin_full_gradient, rastrigin_gradient. rewrite batch_add_eq by exact P. rewrite map_map. reflexivity. Qed.
Lemma unit_dir g n i : length g = n -> (i < n)%nat -> dotR g (map (fun j => if Nat.eqb j i then 1 else 0) (seq 0 n)) = nth i g 0.
Proof.
  intros L H. rewrite dotR_sum by (rewrite map_length, seq_length; exact L). rewrite map_length, seq_length.
  rewrite (sum_n_ext n _ (fun p => if Nat.eqb p i then nth i g 0 else 0)). { apply sum_delta. exact H. }
  intros p Hp. rewrite (nth_map_seq (fun j => if Nat.eqb j i then 1 else 0) n p Hp).
  destruct (Nat.eqb_spec p i) as [->|]; ring.
Qed.
(** a function has at most one gradient *)
Lemma gradient_entry f x g k i : gradient_at f x g -> gradient_at f x k -> (i < length x)%nat -> nth i g 0 = nth i k 0.
Proof.
  intros G K H. rewrite <- (unit_dir g (length x) i (proj1 G) H), <- (unit_dir k (length x) i (proj1 K) H).
  apply (gradient_unique f x); auto. rewrite map_length, seq_length. reflexivity.
Qed.
Lemma rastrigin_wrong n vo x p : Permutation vo (seq 0 n) -> length x = n -> (p < n)%nat -> co x p + 10 * PI * sin (2 * PI * co x p) <> 0 ->
  ~ gradient_at (rastrigin_full n vo) x (rastrigin_full_gradient n vo x).
Proof.
  intros P L Hp H G. pose proof (gradient_entry _ _ _ _ p G (rastrigin_true n vo x P L) ltac:(lia)) as E.
  rewrite rastrigin_scaled, map_map in E by exact P.
  rewrite !nth_map_seq in E by exact Hp.
  assert (1 <= INR n) by (change 1 with (INR 1); apply le_INR; lia). set (v := co x p + _) in *.
  assert (Z : (10 * INR n - 1) * v = 0) by lra. apply Rmult_integral in Z. destruct Z; [lra|contradiction].
Qed.
Lemma schwefel_gradient_ok n vo x : Permutation vo (seq 0 n) -> length x = n -> (forall p, (p < n)%nat -> co x p <> 0) ->
  gradient_at (schwefel_full n vo) x (schwefel_full_gradient n vo x).
Proof.
  intros P L H. unfold schwefel_full_gradient, schwefel_gradient. rewrite batch_add_eq by exact P.
  apply (gradient_ext (fun y => sum_n n (fun p => (fun a => a * sin (sqrt (Rabs a)) - 4189829/10000) (co y p)))).
  { intros y. rewrite schwefel_value by exact P. rewrite (sum_n_minus n _ (fun _ => 4189829/10000)). f_equal. unfold sum_n. generalize 0%nat. clear.
    induction n as [|n IH]; intros b; [cbn; lra|]. cbn [seq map sumR]. rewrite IH. rewrite (S_INR n). lra. }
  apply (gradient_coords n (fun _ a => a * sin (sqrt (Rabs a)) - 4189829/10000)); [exact L|]. intros p Hp. set (a := co x p).
  assert (Ha : a <> 0) by (apply H; exact Hp). assert (Q : 0 < Rabs a) by (apply Rabs_pos_lt; exact Ha).
  assert (0 < sqrt (Rabs a)) by (apply sqrt_lt_R0; exact Q).
  replace (a ^ 2 * cos (sqrt (Rabs a)) / (2 * pow15 (Rabs a))) with (a * (a / pow15 (Rabs a)) * cos (sqrt (Rabs a)) / 2).
  2:{ unfold pow15. field. parts; lra. }
  rewrite (Rabs_pow15 a Ha). auto_derive; [parts; auto|]. field. lra.
Qed.
Lemma sparse_gradient_ok x : length x = 4%nat -> gradient_at sparse_full x (sparse_gradient x 0 4).
Proof.
  intros L. rewrite sparse_gradient_eq by exact L.
  apply (gradient_ext (fun y => sum_n 4 (fun p => (fun p a => a * a + co sparse_bi p * a + co sparse_intercepts p) p (co y p)))).
  { intros y. unfold sparse_full. rewrite (fold_sum (fun j => co y j * co y j + co sparse_bi j * co y j + co sparse_intercepts j)). unfold sum_n. lra. }
  apply (gradient_coords 4 (fun p a => a * a + co sparse_bi p * a + co sparse_intercepts p)); [exact L|]. intros p _. auto_derive; [auto|]. ring.
Qed.
Lemma sgd_test_gradient_ok vo x : Permutation vo (seq 0 3) -> length x = 3%nat -> co x 0 <> 0 ->
  gradient_at (fun y => sgd_test_evaluate vo y 0 3) x (sgd_test_gradient vo x 0 3).
Proof.
  intros P L H. unfold sgd_test_gradient. rewrite batch_add_eq by exact P.
  set (phi := fun p a => match p with 0%nat => - exp (- Rabs a) | 1%nat => a ^ 2 | _ => a ^ 4 + 3 * a ^ 2 end).
  apply (gradient_ext (fun y => sum_n 3 (fun p => phi p (co y p)))).
  { intros y. rewrite sgd_test_value by exact P. unfold sum_n, phi. cbn [seq map sumR]. lra. }
  apply (gradient_coords 3 phi); [exact L|]. intros p Hp. destruct p as [|[|[|p]]]; [| | |lia]; unfold phi, sgd_test_slope.
  - auto_derive; [exact H|]. destruct (Rle_dec 0 (co x 0)) as [Q|Q].
    + rewrite sign_eq_1 by lra. rewrite Rabs_pos_eq by exact Q. ring.
    + rewrite sign_eq_m1 by lra. rewrite Rabs_left by lra. rewrite Ropp_involutive. ring.
  - auto_derive; [auto|]. ring.
  - auto_derive; [auto|]. ring.
Qed.
Lemma gd_test_gradient_ok x : gradient_at gd_test_evaluate x (gd_test_gradient x).
Proof.
  set (n := length x). assert (S : forall y, gd_test_evaluate y = sumR (map (fun a => a * a) y)).
  { unfold gd_test_evaluate. induction y as [|a y IH]; [reflexivity|]. cbn [map fold_right sumR]. rewrite IH. reflexivity. }
  split; [unfold gd_test_gradient; apply map_length|]. intros d Ld.
  apply is_derive_Reals. apply (is_derive_ext (fun t => sum_n n (fun p => (co x p + t * co d p) * (co x p + t * co d p)))).
  { intros t. rewrite S. assert (Ll : length (along x d t) = n).
    { unfold n. clear -Ld. revert d Ld. induction x as [|a x IH]; intros [|b d] L; try discriminate L; [reflexivity|]. cbn [along length]. rewrite IH; auto. }
    unfold sum_n. f_equal. rewrite <- Ll. apply (nth_ext _ _ 0 0). { rewrite !map_length, seq_length. reflexivity. }
    intros i Hi. rewrite map_length, seq_length in Hi.
    rewrite (nth_indep _ 0 ((fun p => (co x p + t * co d p) * (co x p + t * co d p)) 0%nat)) by (rewrite map_length, seq_length; exact Hi).
    rewrite (map_nth (fun p => (co x p + t * co d p) * (co x p + t * co d p))), seq_nth by exact Hi. cbn [Nat.add].
    rewrite (nth_indep _ 0 ((fun a => a * a) 0)) by (rewrite map_length; exact Hi). rewrite (map_nth (fun a => a * a)), nth_along by exact Ld. reflexivity. }
  apply is_derive_Reals. rewrite dotR_sum by (unfold gd_test_gradient; rewrite map_length; auto). rewrite Ld.
  apply (sum_n_deriv n (fun p t => (co x p + t * co d p) * (co x p + t * co d p))). intros p Hp.
  apply is_derive_Reals. auto_derive; [auto|]. unfold gd_test_gradient, co.
  rewrite (nth_indep (map (fun a => 2 * a) x) 0 ((fun a => 2 * a) 0)) by (rewrite map_length; exact Hp). rewrite (map_nth (fun a => 2 * a)). ring.
Qed.
(** ---- generalized Rosenbrock ---- *)
Lemma gr_shift n (a b : nat -> R) d :
  sum_n n (fun i => a i * d i + b i * d (S i)) =
  sum_n (S n) (fun i => ((if Nat.ltb i n then a i else 0) + (if Nat.ltb 0 i then b (i - 1)%nat else 0)) * d i).
Proof.
  rewrite (sum_n_ext (S n) _ (fun i => (if Nat.ltb i n then a i else 0) * d i + (if Nat.ltb 0 i then b (i - 1)%nat else 0) * d i)) by (intros; ring).
  rewrite !sum_n_plus. f_equal.
  - rewrite sum_n_S, Nat.ltb_irrefl, Rmult_0_l, Rplus_0_r. apply sum_n_ext. intros i Hi. apply Nat.ltb_lt in Hi. rewrite Hi. reflexivity.
  - rewrite sum_n_first. cbn [Nat.ltb Nat.leb]. rewrite Rmult_0_l, Rplus_0_l. apply sum_n_ext. intros i _. rewrite Nat.sub_succ, Nat.sub_0_r. reflexivity.
Qed.
Lemma gr_gradient_ok n x : (2 <= n)%nat -> length x = n -> gradient_at (gr_full n) x (gr_full_gradient n x).
Proof.
  intros Hn L. destruct (gr_full_gradient_nth n x Hn) as [A B]. split; [lia|]. intros d Ld.
  rewrite dotR_sum by lia. rewrite Ld, L. rewrite (sum_n_ext n _ (fun i => gr_entry n x i * co d i)) by (intros i Hi; rewrite B by exact Hi; reflexivity).
  destruct n as [|n]; [lia|]. unfold gr_entry. replace (S n - 1)%nat with n by lia. rewrite <- (gr_shift n (gr_a x) (gr_b x) (co d)).
  apply is_derive_Reals. apply (is_derive_ext (fun t => sum_n n (fun i =>
    100 * ((co x i + t * co d i) ^ 2 - (co x (i + 1) + t * co d (i + 1))) ^ 2 + (1 - (co x i + t * co d i)) ^ 2))).
  { intros t. rewrite gr_full_eq. replace (S n - 1)%nat with n by lia. apply sum_n_ext. intros i Hi. unfold gr_term, co. rewrite !nth_along by exact Ld. reflexivity. }
  apply is_derive_Reals. apply (sum_n_deriv n (fun i t => 100 * ((co x i + t * co d i) ^ 2 - (co x (i + 1) + t * co d (i + 1))) ^ 2 + (1 - (co x i + t * co d i)) ^ 2)).
  intros i Hi. apply is_derive_Reals. auto_derive; [auto|]. unfold gr_a, gr_b. rewrite Nat.add_1_r. ring.
Qed.
(** ---- Rosenbrock-Wood ---- *)
Lemma rosenbrock_wood_gradient_ok x : length x = 8%nat -> gradient_at rosenbrock_wood_evaluate x (rosenbrock_wood_gradient x).
Proof.
  unfold rosenbrock_wood_evaluate, rosenbrock_wood_gradient, gr_full, gr_full_gradient, wood_evaluate, wood_gradient.
  intros L. coords. split; [reflexivity|]. intros d Ld. coords. apply is_derive_Reals. cbn [along firstn skipn]. unfold co.
  cbn [nth seq Nat.sub fold_left Nat.add Nat.ltb Nat.leb put add_at co repeat app dotR]. unfold add_at, co. cbn [nth put app dotR].
  auto_derive; [auto|]. field.
Qed.
