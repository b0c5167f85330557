(** Minima of the test problems. *)
From Coq Require Import List Arith Reals Lra Lia Permutation Machin Ratan.
From Verif.Spec Require Import Gradient LpSpec SvecSpec ProblemsSpec.
From Verif.Model Require Import Problems ProblemsN ProblemsFinal.
From Verif.Proof Require Import ProximalProof LRSDPProof PrimalDualProof ProblemsSum.
Import ListNotations.
Local Open Scope R_scope.

Lemma sq_pos a : 0 <= a ^ 2. Proof. nra. Qed.
Ltac two := intros y Ly; destruct y as [|?a [|?b [|]]]; try discriminate Ly; unfold co; cbn [nth fst snd].
Ltac four := intros y Ly; destruct y as [|?a [|?b [|?c [|?d [|]]]]]; try discriminate Ly; unfold co; cbn [nth fst snd].
Ltac start := split; [reflexivity|]; split; [unfold co; cbn [nth fst snd]|].

Lemma cos_le_1 x : cos x <= 1. Proof. destruct (COS_bound x); lra. Qed.
Lemma exp_le a b : a <= b -> exp a <= exp b. Proof. intros [H| ->]; [left; apply exp_increasing; exact H|lra]. Qed.
Lemma ackley_min c : global_minimum 2 (ackley_evaluate c) ackley_final.
Proof.
  unfold ackley_evaluate, ackley_final. start.
  - rewrite !Rmult_0_r, Rplus_0_r, Rmult_0_r, sqrt_0, Rmult_0_r, exp_0, cos_0. replace (5/10 * (1 + 1)) with 1 by lra. lra.
  - two. pose proof (cos_le_1 (c * a)). pose proof (cos_le_1 (c * b)).
    assert (exp (5/10 * (cos (c * a) + cos (c * b))) <= exp 1) by (apply exp_le; lra).
    assert (exp (- (2/10) * sqrt (5/10 * (a * a + b * b))) <= 1). { rewrite <- exp_0. apply exp_le. pose proof (sqrt_pos (5/10 * (a * a + b * b))). lra. }
    lra.
Qed.
Lemma beale_min : global_minimum 2 beale_evaluate beale_final.
Proof.
  unfold beale_evaluate, beale_final. start; [lra|]. two.
  pose proof (sq_pos (15/10 - a + a * b)). pose proof (sq_pos (225/100 - a + a * b * b)). pose proof (sq_pos (2625/1000 - a + a * b^3)). lra.
Qed.
Lemma booth_min : global_minimum 2 booth_evaluate booth_final.
Proof. unfold booth_evaluate, booth_final. start; [lra|]. two. pose proof (sq_pos (a + 2 * b - 7)). pose proof (sq_pos (2 * a + b - 5)). lra. Qed.
Lemma bukin_min : global_minimum 2 bukin_evaluate bukin_final.
Proof.
  unfold bukin_evaluate, bukin_final. start.
  - replace (1 - 1/100 * (-10)^2) with 0 by lra. replace (-10 + 10) with 0 by lra. rewrite Rabs_R0, sqrt_0. lra.
  - two. pose proof (sqrt_pos (Rabs (b - 1/100 * a^2))). pose proof (Rabs_pos (a + 10)). lra.
Qed.
Lemma colville_min : global_minimum 4 colville_evaluate colville_final.
Proof.
  unfold colville_evaluate, colville_final. start; [lra|]. four.
  pose proof (sq_pos (a^2 - b)). pose proof (sq_pos (a - 1)). pose proof (sq_pos (c - 1)). pose proof (sq_pos (c^2 - d)).
  pose proof (sq_pos (b - 1 + (d - 1))). pose proof (sq_pos (b - 1)). pose proof (sq_pos (d - 1)).
  replace (101/10 * ((b - 1)^2 + (d - 1)^2) + 198/10 * (b - 1) * (d - 1)) with (99/10 * (b - 1 + (d - 1))^2 + 2/10 * (b - 1)^2 + 2/10 * (d - 1)^2) in * by field.
  rewrite Rplus_assoc. replace (101/10 * ((b - 1)^2 + (d - 1)^2) + 198/10 * (b - 1) * (d - 1)) with (99/10 * (b - 1 + (d - 1))^2 + 2/10 * (b - 1)^2 + 2/10 * (d - 1)^2) by field.
  lra.
Qed.
Lemma goldstein_price_min : global_minimum 2 goldstein_price_evaluate goldstein_price_final.
Proof.
  unfold goldstein_price_evaluate, goldstein_price_final. cbv zeta. start; [lra|]. two.
  set (s := a + b). set (u := 2 * a - 3 * b).
  replace (19 - 14 * a + 3 * a^2 - 14 * b + 6 * (a * b) + 3 * b^2) with (3 * s^2 - 14 * s + 19) by (unfold s; ring).
  replace (18 - 32 * a + 12 * a^2 + 48 * b - 36 * (a * b) + 27 * b^2) with (3 * u^2 - 16 * u + 18) by (unfold u; ring).
  replace (a + b + 1) with (s + 1) by (unfold s; ring). replace (2 * a - 3 * b) with u by reflexivity.
  assert (A : 1 <= 1 + (s + 1)^2 * (3 * s^2 - 14 * s + 19)).
  { assert (0 <= (s + 1)^2 * (3 * s^2 - 14 * s + 19)); [|lra]. apply Rmult_le_pos; [apply sq_pos|]. pose proof (sq_pos (s - 7/3)). nra. }
  assert (B : 3 <= 30 + u^2 * (3 * u^2 - 16 * u + 18)).
  { replace (30 + u^2 * (3 * u^2 - 16 * u + 18)) with (3 + (u - 3)^2 * (3 * u^2 + 2 * u + 3)) by ring.
    assert (0 <= (u - 3)^2 * (3 * u^2 + 2 * u + 3)); [|lra]. apply Rmult_le_pos; [apply sq_pos|]. pose proof (sq_pos (u + 1/3)). nra. }
  apply Rle_trans with (1 * 3); [lra|]. apply Rmult_le_compat; lra.
Qed.
Lemma levy_n13_min : global_minimum 2 levy_n13_evaluate levy_n13_final.
Proof.
  unfold levy_n13_evaluate, levy_n13_final. start.
  - assert (S : sin (3 * PI * 1) = 0). { replace (3 * PI * 1) with (PI + 2 * INR 1 * PI) by (cbn [INR]; ring). rewrite sin_period. apply sin_PI. }
    rewrite S. ring.
  - two. pose proof (sq_pos (sin (3 * PI * a))).
    assert (0 <= (a - 1)^2 * (1 + sin (3 * PI * b)^2)) by (apply Rmult_le_pos; [apply sq_pos|pose proof (sq_pos (sin (3 * PI * b))); lra]).
    assert (0 <= (b - 1)^2 * (1 + sin (2 * PI * b)^2)) by (apply Rmult_le_pos; [apply sq_pos|pose proof (sq_pos (sin (2 * PI * b))); lra]).
    lra.
Qed.
Lemma matyas_min : global_minimum 2 matyas_evaluate matyas_final.
Proof.
  unfold matyas_evaluate, matyas_final. start; [lra|]. two. pose proof (sq_pos (a - b)). pose proof (sq_pos a). pose proof (sq_pos b). nra.
Qed.
Lemma rosenbrock_min : global_minimum 2 rosenbrock_evaluate rosenbrock_final.
Proof. unfold rosenbrock_evaluate, rosenbrock_final. start; [lra|]. two. pose proof (sq_pos (b - a^2)). pose proof (sq_pos (1 - a)). lra. Qed.
Lemma schaffer_n2_min : global_minimum 2 schaffer_n2_evaluate schaffer_n2_final.
Proof.
  unfold schaffer_n2_evaluate, schaffer_n2_final. start.
  - replace (0^2 - 0^2) with 0 by ring. rewrite sin_0. replace (1 + 1/1000 * (0^2 + 0^2)) with 1 by lra. lra.
  - two. set (D := (1 + 1/1000 * (a^2 + b^2))^2). assert (1 <= D). { pose proof (sq_pos a). pose proof (sq_pos b). unfold D. nra. }
    pose proof (sq_pos (sin (a^2 - b^2))) as S. set (s := sin (a^2 - b^2)^2) in *.
    assert (E : 5/10 + (s - 5/10) / D = (5/10 * (D - 1) + s) / D) by (field; lra). rewrite E.
    apply Rmult_le_pos; [lra|]. left. apply Rinv_0_lt_compat. lra.
Qed.
Lemma three_hump_camel_min : global_minimum 2 three_hump_camel_evaluate three_hump_camel_final.
Proof.
  unfold three_hump_camel_evaluate, three_hump_camel_final. start; [field|]. two.
  replace (2 * a^2 - 105/100 * a^4 + a^6 / 6 + a * b + b^2) with ((b + a / 2)^2 + a^2 * (/6 * (a^2 - 315/100)^2 + (7/4 - 99225/60000))) by field.
  pose proof (sq_pos (b + a / 2)). assert (0 <= a^2 * (/6 * (a^2 - 315/100)^2 + (7/4 - 99225/60000))); [|lra].
  apply Rmult_le_pos; [apply sq_pos|]. pose proof (sq_pos (a^2 - 315/100)). lra.
Qed.
Lemma wood_min : global_minimum 4 wood_evaluate wood_final.
Proof.
  unfold wood_evaluate, wood_final. start; [lra|]. four.
  pose proof (sq_pos (b - a^2)). pose proof (sq_pos (1 - a)). pose proof (sq_pos (d - c^2)). pose proof (sq_pos (1 - c)).
  pose proof (sq_pos (b + d - 2)). pose proof (sq_pos (b - d)). lra.
Qed.
Lemma gd_test_pos : forall y, 0 <= gd_test_evaluate y.
Proof. unfold gd_test_evaluate. induction y as [|a y IH]; cbn [map fold_right]; [lra|]. pose proof (sq_pos a). nra. Qed.
Lemma gd_test_min : global_minimum 3 gd_test_evaluate gd_test_final.
Proof. split; [reflexivity|]. split; [unfold gd_test_evaluate; cbn; lra|]. intros y _. apply gd_test_pos. Qed.
Lemma sparse_min : global_minimum 4 sparse_full sparse_final.
Proof.
  unfold sparse_full, sparse_final, sparse_bi, sparse_intercepts. cbn [seq fold_left]. start; [lra|]. four.
  pose proof (sq_pos (a - 2)). pose proof (sq_pos (b - 1)). pose proof (sq_pos (c - 15/10)). pose proof (sq_pos (d - 4)). lra.
Qed.
(** sums *)
Lemma sum_n_const n v : sum_n n (fun _ => v) = v * INR n.
Proof. induction n as [|n IH]; [cbn; unfold sum_n; cbn; ring|]. rewrite sum_n_S, IH, S_INR. ring. Qed.
Lemma sum_n_le n f g : (forall p, (p < n)%nat -> f p <= g p) -> sum_n n f <= sum_n n g.
Proof. intros H. induction n as [|n IH]; [unfold sum_n; cbn; lra|]. rewrite !sum_n_S. apply Rplus_le_compat; [apply IH; intros p Hp; apply H; lia|apply H; lia]. Qed.
Lemma co_repeat v n p : (p < n)%nat -> co (repeat v n) p = v.
Proof. intros H. unfold co. revert p H. induction n as [|n IH]; intros [|p] H; cbn; try lia; auto. apply IH. lia. Qed.
Lemma sphere_min n vo : Permutation vo (seq 0 n) -> global_minimum n (sphere_full n vo) (sphere_final n).
Proof.
  intros P. split; [apply repeat_length|]. split; cbn [sphere_final fst snd].
  - rewrite sphere_value by exact P. rewrite (sum_n_ext n _ (fun _ => 0)); [rewrite sum_n_const; ring|]. intros p H. rewrite co_repeat by exact H. ring.
  - intros y _. rewrite sphere_value by exact P. apply sum_n_nonneg. intros p _. apply sq_pos.
Qed.
Lemma rastrigin_min n vo : Permutation vo (seq 0 n) -> global_minimum n (rastrigin_full n vo) (rastrigin_final n).
Proof.
  intros P. split; [apply repeat_length|]. split; cbn [rastrigin_final fst snd].
  - rewrite rastrigin_value by exact P. rewrite (sum_n_ext n _ (fun _ => -10)); [rewrite sum_n_const; ring|]. intros p H. rewrite co_repeat by exact H. rewrite Rmult_0_r, cos_0. ring.
  - intros y _. rewrite rastrigin_value by exact P. assert (sum_n n (fun _ => -10) <= sum_n n (fun p => co y p ^ 2 - 10 * cos (2 * PI * co y p))).
    { apply sum_n_le. intros p _. pose proof (sq_pos (co y p)). pose proof (cos_le_1 (2 * PI * co y p)). lra. }
    rewrite sum_n_const in H. lra.
Qed.
Lemma gr_min n : global_minimum n (gr_full n) (gr_final n).
Proof.
  split; [apply repeat_length|]. split; cbn [gr_final fst snd].
  - rewrite gr_full_eq. rewrite (sum_n_ext _ _ (fun _ => 0)); [rewrite sum_n_const; ring|]. intros p H. unfold gr_term. rewrite !co_repeat by lia. ring.
  - intros y _. rewrite gr_full_eq. apply sum_n_nonneg. intros p _. unfold gr_term. pose proof (sq_pos (co y p ^ 2 - co y (p + 1))). pose proof (sq_pos (1 - co y p)). lra.
Qed.
Lemma rosenbrock_wood_min : global_minimum 8 rosenbrock_wood_evaluate rosenbrock_wood_final.
Proof.
  split; [reflexivity|]. split; cbn [rosenbrock_wood_final fst snd].
  - unfold rosenbrock_wood_evaluate. change (firstn 4 (repeat 1 8)) with (repeat 1 4). change (skipn 4 (repeat 1 8)) with [1; 1; 1; 1].
    rewrite (proj1 (proj2 (gr_min 4)) : gr_full 4 (repeat 1 4) = 0), (proj1 (proj2 wood_min) : wood_evaluate [1; 1; 1; 1] = 0). ring.
  - intros y L. unfold rosenbrock_wood_evaluate.
    pose proof (proj2 (proj2 (gr_min 4)) (firstn 4 y) ltac:(rewrite firstn_length, L; reflexivity)) as A.
    pose proof (proj2 (proj2 wood_min) (skipn 4 y) ltac:(rewrite skipn_length, L; reflexivity)) as B. cbn [gr_final wood_final snd] in A, B. lra.
Qed.
Lemma sgd_test_min vo : Permutation vo (seq 0 3) -> global_minimum 3 (fun x => sgd_test_evaluate vo x 0 3) sgd_test_final.
Proof.
  intros P. split; [reflexivity|]. split; cbn [sgd_test_final fst snd].
  - rewrite sgd_test_value by exact P. unfold co. cbn [nth]. rewrite Rabs_R0, Ropp_0, exp_0. ring.
  - intros y _. rewrite sgd_test_value by exact P. assert (exp (- Rabs (co y 0)) <= 1). { rewrite <- exp_0. apply exp_le. pose proof (Rabs_pos (co y 0)). lra. }
    pose proof (sq_pos (co y 1)). pose proof (sq_pos (co y 2)). assert (0 <= co y 2 ^ 4) by (replace (co y 2 ^ 4) with ((co y 2 ^ 2) ^ 2) by ring; apply sq_pos). lra.
Qed.
(** drop wave: the minimum is -1, not 0 *)
Lemma drop_wave_min : global_minimum 2 drop_wave_evaluate (fst drop_wave_final, -1).
Proof.
  unfold drop_wave_evaluate, drop_wave_final. start.
  - replace (0^2 + 0^2) with 0 by ring. rewrite sqrt_0, Rmult_0_r, Rmult_0_r, cos_0. field.
  - two. set (r := a^2 + b^2). assert (0 <= r) by (unfold r; pose proof (sq_pos a); pose proof (sq_pos b); lra).
    pose proof (cos_le_1 (12 * sqrt r)) as C. set (c := cos (12 * sqrt r)) in *.
    assert (E : -1 * (1 + c) / (5/10 * r + 2) - -1 = (5/10 * r + (1 - c)) / (5/10 * r + 2)) by (field; lra).
    assert (0 <= (5/10 * r + (1 - c)) / (5/10 * r + 2)); [|lra]. apply Rmult_le_pos; [lra|]. left. apply Rinv_0_lt_compat. lra.
Qed.
(** Styblinski-Tang *)
Lemma styblinski_tang_lower n vo y : Permutation vo (seq 0 n) -> - (391662/10000) * INR n <= styblinski_tang_full n vo y.
Proof.
  intros P. rewrite styblinski_tang_value by exact P. rewrite <- sum_n_const. apply sum_n_le. intros p _. set (a := co y p).
  replace ((a^4 - 16 * a^2 + 5 * a) / 2) with (((a^2 - 84305/10000)^2 + 861/1000 * (a + 2500/861)^2 - (84305/10000)^2 - 861/1000 * (2500/861)^2) / 2) by field.
  pose proof (sq_pos (a^2 - 84305/10000)). pose proof (sq_pos (a + 2500/861)). lra.
Qed.
Lemma styblinski_tang_final_value n vo : Permutation vo (seq 0 n) ->
  exists e, 17/100000 <= e <= 18/100000 /\ styblinski_tang_full n vo (fst (styblinski_tang_final n)) = snd (styblinski_tang_final n) - e * INR n.
Proof.
  intros P. set (v := - (2903534/1000000)). exists (- (3916599/100000) - (v^4 - 16 * v^2 + 5 * v) / 2). split; [unfold v; lra|].
  cbn [styblinski_tang_final fst snd]. fold v. rewrite styblinski_tang_value by exact P.
  rewrite (sum_n_ext n _ (fun _ => (v^4 - 16 * v^2 + 5 * v) / 2)); [rewrite sum_n_const; ring|]. intros p H. rewrite co_repeat by exact H. reflexivity.
Qed.
(** Schwefel: the origin has a lower value than GetFinalObjective *)
Lemma schwefel_origin n vo : Permutation vo (seq 0 n) -> schwefel_full n vo (repeat 0 n) = - (4189829/10000) * INR n.
Proof.
  intros P. rewrite schwefel_value by exact P. rewrite (sum_n_ext n _ (fun _ => 0)); [rewrite sum_n_const; ring|].
  intros p H. rewrite co_repeat by exact H. ring.
Qed.
(** pi *)
Lemma PI_bounds : 31415/10000 < PI < 31416/10000.
Proof.
  destruct (PI_2_3_7_ineq 2) as [A B]. cbn [Nat.mul Nat.add sum_f_R0] in A, B. unfold tg_alt, PI_2_3_7_tg, Ratan_seq in A, B. cbn [Nat.mul Nat.add pow INR] in A, B. lra.
Qed.
(** Schwefel: the sine at 420.9687 is positive *)
Lemma schwefel_sine : 0 < sin (sqrt (4209687/10000)).
Proof.
  pose proof PI_bounds as [A B].
  assert (L : 205/10 <= sqrt (4209687/10000)).
  { rewrite <- (sqrt_Rsqr (205/10)) by lra. apply sqrt_le_1_alt. unfold Rsqr. lra. }
  assert (U : sqrt (4209687/10000) <= 206/10).
  { rewrite <- (sqrt_Rsqr (206/10)) by lra. apply sqrt_le_1_alt. unfold Rsqr. lra. }
  set (y := sqrt (4209687/10000)) in *.
  replace y with ((y - 6 * PI) + 2 * INR 3 * PI) by (cbn [INR]; lra).
  rewrite sin_period. apply sin_gt_0; lra.
Qed.
Lemma schwefel_constant n vo c : Permutation vo (seq 0 n) ->
  schwefel_full n vo (repeat c n) = (c * sin (sqrt (Rabs c)) - 4189829/10000) * INR n.
Proof.
  intros P. rewrite schwefel_value by exact P. rewrite (sum_n_ext n _ (fun _ => c * sin (sqrt (Rabs c)))); [rewrite sum_n_const; ring|].
  intros p H. now rewrite co_repeat by exact H.
Qed.
Lemma map_opp_repeat c n : map Ropp (repeat c n) = repeat (- c) n.
Proof. induction n as [|n IH]; cbn; [reflexivity|now rewrite IH]. Qed.
Lemma schwefel_mirror n vo : Permutation vo (seq 0 n) -> (0 < n)%nat ->
  schwefel_full n vo (map Ropp (fst (schwefel_final n))) < schwefel_full n vo (repeat 0 n) < schwefel_full n vo (fst (schwefel_final n)).
Proof.
  intros P N. cbn [fst schwefel_final]. rewrite map_opp_repeat, !schwefel_constant by exact P.
  rewrite Rabs_Ropp, (Rabs_right (4209687/10000)) by lra.
  pose proof schwefel_sine. assert (0 < INR n) by now apply lt_0_INR.
  split; apply Rmult_lt_compat_r; lra.
Qed.
(** Easom *)
Lemma easom_lower : global_minimum 2 easom_evaluate ([PI; PI], -1).
Proof.
  unfold easom_evaluate. start.
  - rewrite cos_PI. replace (-1 * (PI - PI)^2 - (PI - PI)^2) with 0 by ring. rewrite exp_0. ring.
  - two. assert (E : 0 < exp (-1 * (a - PI)^2 - (b - PI)^2) <= 1).
    { split; [apply exp_pos|]. rewrite <- exp_0. apply exp_le. pose proof (sq_pos (a - PI)). pose proof (sq_pos (b - PI)). lra. }
    set (e := exp _) in *. destruct (COS_bound a), (COS_bound b). assert (cos a * cos b <= 1) by nra. nra.
Qed.
Lemma one_minus_cos d : 0 <= 1 - cos d <= d^2 / 2.
Proof.
  split; [pose proof (cos_le_1 d); lra|]. replace d with (2 * (d / 2)) at 1 by field. rewrite cos_2a_sin.
  assert (A : forall t, 0 <= t -> sin t <= t). { intros t [H| <-]; [left; apply sin_lt_x; exact H|rewrite sin_0; lra]. }
  assert (Q : forall t, 0 <= t -> sin t * sin t <= t * t).
  { intros t Ht. destruct (Rle_dec t 1) as [H1|H1].
    - assert (0 <= sin t) by (apply sin_ge_0; pose proof PI_bounds; lra). pose proof (A t Ht). nra.
    - destruct (SIN_bound t). nra. }
  destruct (Rle_dec 0 (d / 2)) as [H|H]; [pose proof (Q _ H); nra|]. pose proof (Q (- (d / 2)) ltac:(lra)) as K. rewrite sin_neg in K. nra.
Qed.
Lemma exp_ge_1 x : 1 + x <= exp x.
Proof. destruct (Req_dec x 0) as [->|H]; [rewrite exp_0; lra|]. left. apply exp_ineq1. exact H. Qed.
Lemma easom_final_value : Rabs (easom_evaluate (fst easom_final) - snd easom_final) <= 2/100000.
Proof.
  pose proof (proj2 (proj2 easom_lower) (fst easom_final) eq_refl) as L. cbn [snd] in L. cbn [easom_final snd] in *.
  rewrite Rabs_pos_eq by lra. revert L. unfold easom_evaluate, co. cbn [easom_final nth fst]. intros L.
  pose proof PI_bounds as B. set (d := 314/100 - PI) in *. assert (Hd : 0 <= d^2 <= 4/1000000) by (unfold d; nra).
  assert (C : - cos (314/100) = cos d). { unfold d. replace (314/100) with (314/100 - PI + PI) at 1 by ring. rewrite neg_cos. ring. }
  pose proof (one_minus_cos d) as O. pose proof (exp_ge_1 (-1 * d^2 - d^2)) as X. pose proof (exp_pos (-1 * d^2 - d^2)).
  set (e := exp _) in *. replace (- cos (314/100) * cos (314/100) * e) with (- (cos d * cos d * e)) by (rewrite <- C; ring).
  assert (1 - d^2 <= cos d * cos d) by nra. assert ((1 - d^2) * (1 - 2 * d^2) <= cos d * cos d * e) by (apply Rmult_le_compat; lra). pose proof (sq_pos (d^2)). lra.
Qed.
Lemma easom_inexact : easom_evaluate (fst easom_final) <> snd easom_final.
Proof.
  unfold easom_evaluate, easom_final, co. cbn [nth fst snd]. intros E. pose proof PI_bounds as B.
  assert (X : exp (-1 * (314/100 - PI)^2 - (314/100 - PI)^2) < 1). { rewrite <- exp_0. apply exp_increasing. nra. }
  pose proof (exp_pos (-1 * (314/100 - PI)^2 - (314/100 - PI)^2)). set (e := exp _) in *. destruct (COS_bound (314/100)). set (c := cos (314/100)) in *. assert (c * c <= 1) by nra. assert (c * c * e <= 1 * e) by (apply Rmult_le_compat_r; lra). nra.
Qed.
(** McCormick *)
Lemma mc_cormick_unbounded : mc_cormick_evaluate [-100; -100] < snd mc_cormick_final.
Proof. unfold mc_cormick_evaluate, mc_cormick_final, co. cbn [nth snd]. destruct (SIN_bound (-100 + -100)). lra. Qed.
Lemma eggholder_unbounded : exists y, length y = 2%nat /\ eggholder_evaluate y < snd eggholder_final.
Proof.
  set (b := PI / 2 + 2 * INR 5 * PI). exists [0; b^2 - 47]. split; [reflexivity|]. unfold eggholder_evaluate, eggholder_final, co. cbn [nth snd].
  replace (b^2 - 47 + 0/2 + 47) with (b^2) by field. pose proof PI_bounds as B.
  assert (Hb : 32 < b) by (unfold b; cbn [INR]; lra). rewrite Rabs_pos_eq by apply sq_pos.
  rewrite (sqrt_pow2 b) by lra. unfold b at 2. rewrite sin_period, sin_PI2. nra.
Qed.
(** on its usual domain, -1.5 <= x1 and -3 <= x2 *)
Lemma sin_le_x u : 0 <= u -> u - u^3 / 6 <= sin u <= u \/ 3 < u.
Proof.
  intros H. destruct (Rle_dec u 3) as [H3|]; [left|right; lra]. destruct (pre_sin_bound u 0 H ltac:(lra)) as [A B]. split.
  - unfold sin_approx, sin_term in A. cbn [sum_f_R0 Nat.mul Nat.add fact pow INR] in A. lra.
  - destruct H as [H| <-]; [left; apply sin_lt_x; exact H|rewrite sin_0; lra].
Qed.
Lemma sqrt3_lower : 173/100 <= sqrt 3.
Proof. rewrite <- (sqrt_pow2 (173/100)) by lra. apply sqrt_le_1; lra. Qed.
Lemma slope_sin s : -45/10 <= s -> - (sqrt 3 / 2) - PI / 3 <= sin s + s / 2.
Proof.
  intros Hs. pose proof PI_bounds as B. set (t := s + 2 * (PI / 3)). replace s with (t - 2 * (PI / 3)) by (unfold t; ring).
  rewrite sin_minus. rewrite cos_2PI3. assert (S : sin (2 * (PI / 3)) = sqrt 3 / 2) by (rewrite sin_2PI3; reflexivity). rewrite S.
  pose proof sqrt3_lower as Q. pose proof (one_minus_cos t) as O.
  destruct (Rle_dec 0 t) as [H|H].
  - assert (sin t <= t) by (destruct H as [H| <-]; [left; apply sin_lt_x; exact H|rewrite sin_0; lra]). nra.
  - apply Rnot_le_lt in H. set (u := - t). assert (Hu : 0 <= u <= 24059/10000) by (unfold u; unfold t in *; lra). replace t with (- u) by (unfold u; ring). rewrite sin_neg, cos_neg.
    destruct (sin_le_x u ltac:(lra)) as [[A _]|]; [|lra].
    destruct (sin_le_x (u / 2) ltac:(lra)) as [[A2 _]|]; [|lra].
    assert (C : cos u = 1 - 2 * (sin (u / 2) * sin (u / 2))) by (replace u with (2 * (u / 2)) at 1 by field; rewrite cos_2a_sin; ring). rewrite C.
    set (w := sin (u / 2)) in *. set (z := u / 2 - (u / 2)^3 / 6) in *. assert (Hz : 0 <= z) by (unfold z; nra).
    assert (z * z <= w * w) by nra.
    assert (K : u^3 / 6 <= 2 * (173/100) * (z * z)).
    { unfold z. replace (2 * (173/100) * ((u/2 - (u/2)^3/6) * (u/2 - (u/2)^3/6))) with (u^2 * (173/200 * (1 - u^2/24)^2)) by field.
      replace (u^3/6) with (u^2 * (u/6)) by field. apply Rmult_le_compat_l; [nra|]. assert (0 <= 1 - u^2/24) by nra.
      assert (u^2/24 <= u * (24059/240000)) by nra. assert (0 <= 1 - u * (24059/240000)) by lra.
      assert ((1 - u * (24059/240000))^2 <= (1 - u^2/24)^2) by nra. nra. }
    nra.
Qed.
Lemma mc_cormick_domain x1 x2 : -15/10 <= x1 -> -3 <= x2 -> - (sqrt 3 / 2) - PI / 3 <= mc_cormick_evaluate [x1; x2].
Proof.
  intros A B. unfold mc_cormick_evaluate, co. cbn [nth]. pose proof (slope_sin (x1 + x2) ltac:(lra)). pose proof (sq_pos (x1 - x2 - 1)). nra.
Qed.
Lemma sqrt3_upper : sqrt 3 <= 173206/100000.
Proof. rewrite <- (sqrt_pow2 (173206/100000)) by lra. apply sqrt_le_1; lra. Qed.
Lemma mc_cormick_box x1 x2 : -15/10 <= x1 -> -3 <= x2 -> snd mc_cormick_final <= mc_cormick_evaluate [x1; x2].
Proof. intros A B. pose proof (mc_cormick_domain x1 x2 A B). pose proof sqrt3_upper. pose proof PI_bounds. cbn [mc_cormick_final snd]. lra. Qed.
Lemma mc_cormick_final_value : Rabs (mc_cormick_evaluate (fst mc_cormick_final) - snd mc_cormick_final) <= 2/10000.
Proof.
  pose proof PI_bounds as B. pose proof sqrt3_upper as U. assert (L : 173205/100000 <= sqrt 3) by (rewrite <- (sqrt_pow2 (173205/100000)) by lra; apply sqrt_le_1; lra).
  unfold mc_cormick_evaluate, mc_cormick_final, co. cbn [nth fst snd]. set (s := - (54719/100000) + - (154719/100000)).
  set (t := s + 2 * (PI / 3)). assert (Ht : 0 <= t <= 3/100000 \/ - (7/100000) <= t <= 0) by (destruct (Rle_dec 0 t) as [K|K]; [left; split; [exact K|unfold t, s; lra]|right; apply Rnot_le_lt in K; split; [unfold t, s; lra|lra]]).
  assert (St : Rabs (sin t) <= 1/10000).
  { destruct Ht as [H|H].
    - rewrite Rabs_pos_eq by (apply sin_ge_0; lra). destruct (proj1 H) as [K|K]; [pose proof (sin_lt_x t K); lra|rewrite <- K, sin_0; lra].
    - replace t with (- - t) by ring. rewrite sin_neg, Rabs_Ropp, Rabs_pos_eq by (apply sin_ge_0; lra).
      destruct (Req_dec t 0) as [E|E]; [rewrite E, Ropp_0, sin_0; lra|]. pose proof (sin_lt_x (- t) ltac:(lra)). lra. }
  pose proof (one_minus_cos t) as O. assert (T2 : t^2 <= 1/100000000) by (destruct Ht; nra).
  assert (E : sin s = - (1/2) * sin t - sqrt 3 / 2 * cos t).
  { replace s with (t - 2 * (PI / 3)) by (unfold t; ring). rewrite sin_minus, cos_2PI3, sin_2PI3. field. }
  rewrite E. assert (C : sqrt 3 / 2 * (1 - 1/200000000) <= sqrt 3 / 2 * cos t <= sqrt 3 / 2 * 1) by (split; apply Rmult_le_compat_l; lra).
  apply Rabs_le. pose proof (Rle_abs (sin t)). pose proof (Rle_abs (- sin t)) as N2. rewrite Rabs_Ropp in N2. lra.
Qed.
