(** Gradients of the problems of fixed dimension. *)
From Coq Require Import List Reals Lra Lia.
From Coquelicot Require Import Coquelicot.
From Verif.Spec Require Import Gradient.
From Verif.Model Require Import Problems.
Import ListNotations.
Local Open Scope R_scope.

(** open the gradient statement for a point of known dimension *)
Ltac coords := cbn [length] in *;
  repeat match goal with
    | H : length ?x = S _ |- _ => is_var x; destruct x; cbn [length] in H; [discriminate H|injection H as H]
    | H : length ?x = O |- _ => is_var x; destruct x; [clear H|discriminate H]
    end.
Ltac grad := intros; coords; split; [reflexivity|]; let d := fresh "d" in let L := fresh "L" in intros d L; coords;
  apply is_derive_Reals; cbn [along dotR]; cbv delta [co] ; cbn [nth].
Ltac at0 := rewrite ?Rmult_0_l, ?Rplus_0_r.

(** make arguments of [f] that are equal the same *)
Ltac same f := repeat match goal with |- context [f ?a] => match goal with |- context [f ?b] =>
  tryif constr_eq a b then fail else replace (f a) with (f b) by (f_equal; field) end end.

Lemma booth_gradient_ok x : length x = 2%nat -> gradient_at booth_evaluate x (booth_gradient x).
Proof. unfold booth_evaluate, booth_gradient. grad. auto_derive; [auto|]. ring. Qed.
Lemma beale_gradient_ok x : length x = 2%nat -> gradient_at beale_evaluate x (beale_gradient x).
Proof. unfold beale_evaluate, beale_gradient. grad. auto_derive; [auto|]. field. Qed.
Lemma colville_gradient_ok x : length x = 4%nat -> gradient_at colville_evaluate x (colville_gradient x).
Proof. unfold colville_evaluate, colville_gradient. grad. auto_derive; [auto|]. field. Qed.
Lemma easom_gradient_ok x : length x = 2%nat -> gradient_at easom_evaluate x (easom_gradient x).
Proof. unfold easom_evaluate, easom_gradient. grad. auto_derive; [auto|]. at0. same exp. field. Qed.
Lemma goldstein_price_gradient_ok x : length x = 2%nat -> gradient_at goldstein_price_evaluate x (goldstein_price_gradient x).
Proof. unfold goldstein_price_evaluate, goldstein_price_gradient. grad. auto_derive; [auto|]. field. Qed.
Lemma himmelblau_gradient_ok x : length x = 2%nat -> gradient_at himmelblau_evaluate x (himmelblau_gradient x).
Proof. unfold himmelblau_evaluate, himmelblau_gradient. grad. auto_derive; [auto|]. field. Qed.
Lemma levy_n13_gradient_ok x : length x = 2%nat -> gradient_at levy_n13_evaluate x (levy_n13_gradient x).
Proof. unfold levy_n13_evaluate, levy_n13_gradient. grad. auto_derive; [auto|]. at0. field. Qed.
Lemma mc_cormick_gradient_ok x : length x = 2%nat -> gradient_at mc_cormick_evaluate x (mc_cormick_gradient x).
Proof. unfold mc_cormick_evaluate, mc_cormick_gradient. grad. auto_derive; [auto|]. at0. field. Qed.
Lemma rosenbrock_gradient_ok x : length x = 2%nat -> gradient_at rosenbrock_evaluate x (rosenbrock_gradient x).
Proof. unfold rosenbrock_evaluate, rosenbrock_gradient. grad. auto_derive; [auto|]. at0. field. Qed.
Lemma three_hump_camel_gradient_ok x : length x = 2%nat -> gradient_at three_hump_camel_evaluate x (three_hump_camel_gradient x).
Proof. unfold three_hump_camel_evaluate, three_hump_camel_gradient. grad. auto_derive; [auto|]. at0. field. Qed.
Lemma wood_gradient_ok x : length x = 4%nat -> gradient_at wood_evaluate x (wood_gradient x).
Proof. unfold wood_evaluate, wood_gradient. grad. auto_derive; [auto|]. at0. field. Qed.
Lemma auglag_test_gradient_ok x : length x = 2%nat -> gradient_at auglag_test_evaluate x (auglag_test_gradient x).
Proof. unfold auglag_test_evaluate, auglag_test_gradient. grad. auto_derive; [auto|]. at0. field. Qed.
Lemma auglag_test_constraint_ok i x : length x = 2%nat -> gradient_at (auglag_test_constraint i) x (auglag_test_constraint_gradient i x).
Proof. destruct i; unfold auglag_test_constraint, auglag_test_constraint_gradient; grad; (auto_derive; [auto|]); at0; field. Qed.
Lemma gockenbach_gradient_ok x : length x = 3%nat -> gradient_at gockenbach_evaluate x (gockenbach_gradient x).
Proof. unfold gockenbach_evaluate, gockenbach_gradient. grad. auto_derive; [auto|]. at0. field. Qed.

Ltac parts := repeat match goal with |- _ /\ _ => split | |- True => exact I end.
Lemma sos_pos a b : a <> 0 \/ b <> 0 -> 0 < a ^ 2 + b ^ 2.
Proof. intros [H|H]; nra. Qed.
Lemma schaffer_n2_gradient_ok x : length x = 2%nat -> gradient_at schaffer_n2_evaluate x (schaffer_n2_gradient x).
Proof.
  unfold schaffer_n2_evaluate, schaffer_n2_gradient. grad.
  assert (D : 1 + 1 / 1000 * (r ^ 2 + r0 ^ 2) <> 0) by nra.
  auto_derive; [|]; at0.
  - parts; nra.
  - same sin. same cos. field. parts; nra.
Qed.
Lemma drop_wave_gradient_ok x : length x = 2%nat -> co x 0 <> 0 \/ co x 1 <> 0 -> gradient_at drop_wave_evaluate x (drop_wave_gradient x).
Proof.
  unfold drop_wave_evaluate, drop_wave_gradient, co. grad. cbn [nth] in H0. apply sos_pos in H0.
  auto_derive; [|]; at0.
  - parts; nra.
  - same sqrt. assert (0 < sqrt (r ^ 2 + r0 ^ 2)) by (apply sqrt_lt_R0; exact H0). field. parts; nra.
Qed.

(** ---- Ackley: exact for epsilon = 0, and close to it otherwise ---- *)
Lemma ackley_gradient_ok c x : length x = 2%nat -> co x 0 <> 0 \/ co x 1 <> 0 -> gradient_at (ackley_evaluate c) x (ackley_gradient c 0 x).
Proof.
  unfold ackley_evaluate, ackley_gradient, co. grad. cbn [nth] in H0. apply sos_pos in H0.
  auto_derive; [|]; at0.
  - parts; nra.
  - same sqrt. assert (0 < sqrt (5 / 10 * (r * r + r0 * r0))) by (apply sqrt_lt_R0; nra). same exp. same sin. field. parts; nra.
Qed.
Lemma ackley_epsilon c e x i : 0 < e -> length x = 2%nat -> co x 0 <> 0 \/ co x 1 <> 0 ->
  Rabs (co (ackley_gradient c e x) i - co (ackley_gradient c 0 x) i) <= 4 * e / sqrt (5 / 10 * (co x 0 * co x 0 + co x 1 * co x 1)).
Proof.
  intros He L H. unfold ackley_gradient. cbv zeta. set (a := co x 0) in *. set (b := co x 1) in *. apply sos_pos in H.
  set (t := sqrt _). assert (Ht : 0 < t) by (apply sqrt_lt_R0; nra). assert (Tt : t * t = 5 / 10 * (a * a + b * b)) by (apply sqrt_sqrt; nra).
  assert (E0 : 0 < exp (- (2 / 10) * t) <= 1). { split; [apply exp_pos|]. rewrite <- exp_0. left. apply exp_increasing. lra. }
  set (u := exp (- (2 / 10) * t)) in *.
  assert (B : forall y w, y * y <= 2 * (t * t) ->
    Rabs (y * (2 * u / (t + e)) + w - (y * (2 * u / (t + 0)) + w)) <= 4 * e / t).
  { intros y w Hy. replace (_ - _) with (- (y * (2 * u * e) / (t * (t + e)))) by (field; lra).
    rewrite Rabs_Ropp. unfold Rdiv. rewrite Rabs_mult, Rabs_mult. rewrite (Rabs_pos_eq (2 * u * e)) by nra. rewrite (Rabs_pos_eq (/ (t * (t + e)))) by (left; apply Rinv_0_lt_compat; nra).
    assert (Hy' : Rabs y <= 2 * t). { apply Rabs_le. split; nra. }
    assert (Rabs y * (2 * u * e) * / (t * (t + e)) <= 2 * t * (2 * 1 * e) * / (t * (t + e))).
    { apply Rmult_le_compat_r; [left; apply Rinv_0_lt_compat; nra|]. apply Rmult_le_compat; try nra. apply Rabs_pos. }
    apply Rle_trans with (1 := H0). replace (2 * t * (2 * 1 * e) * / (t * (t + e))) with (4 * e * / (t + e)) by (field; lra).
    apply Rmult_le_compat_l; [lra|]. apply Rinv_le_contravar; lra. }
  destruct i as [|[|i]]; cbn [co nth].
  - apply B. nra.
  - apply B. nra.
  - unfold co. cbn [nth]. destruct i; rewrite Rminus_diag_eq by reflexivity; rewrite Rabs_R0; apply Rmult_le_pos; try lra; left; apply Rinv_0_lt_compat; exact Ht.
Qed.

(** ---- Bukin ---- *)
Lemma Rabs_pow15 a : a <> 0 -> a / pow15 (Rabs a) = sign a / sqrt (Rabs a).
Proof.
  intros H. unfold pow15. assert (0 < sqrt (Rabs a)) by (apply sqrt_lt_R0, Rabs_pos_lt; exact H).
  destruct (Rtotal_order a 0) as [L|[L|L]]; [|lra|].
  - rewrite (sign_eq_m1 a L). rewrite (Rabs_left a L) in *. field. lra.
  - rewrite (sign_eq_1 a L). rewrite (Rabs_pos_eq a) in * by lra. field. lra.
Qed.
Lemma Rabs_sign a : a <> 0 -> a / Rabs a = sign a.
Proof.
  intros H. destruct (Rtotal_order a 0) as [L|[L|L]]; [|lra|].
  - rewrite (sign_eq_m1 a L), (Rabs_left a L). field. lra.
  - rewrite (sign_eq_1 a L), (Rabs_pos_eq a) by lra. field. lra.
Qed.
Lemma bukin_gradient_ok x : length x = 2%nat -> co x 0 <> -10 -> co x 1 <> 1 / 100 * co x 0 ^ 2 ->
  gradient_at bukin_evaluate x (bukin_gradient 0 x).
Proof.
  unfold bukin_evaluate, bukin_gradient, co. grad. cbn [nth] in *.
  set (q := r0 - 1 / 100 * r ^ 2) in *. assert (Hq : q <> 0) by (unfold q; lra). assert (H10 : r + 10 <> 0) by lra.
  replace (1 / 100 * (r + 10) / (Rabs (r + 10) + 0)) with (1 / 100 * sign (r + 10)).
  2:{ rewrite <- (Rabs_sign (r + 10) H10). rewrite Rplus_0_r. field. apply Rabs_no_R0. exact H10. }
  replace (r * q / pow15 (Rabs q)) with (r * (sign q / sqrt (Rabs q))) by (rewrite <- (Rabs_pow15 q Hq); unfold Rdiv; ring).
  replace (50 * q / pow15 (Rabs q)) with (50 * (sign q / sqrt (Rabs q))) by (rewrite <- (Rabs_pow15 q Hq); unfold Rdiv; ring).
  assert (0 < sqrt (Rabs q)) by (apply sqrt_lt_R0, Rabs_pos_lt; exact Hq).
  auto_derive; [|]; at0.
  - replace (r0 + - (1 / 100 * (r * (r * 1)))) with q by (unfold q; field). parts; auto. apply Rabs_pos_lt; exact Hq.
  - replace (r0 + - (1 / 100 * (r * (r * 1)))) with q by (unfold q; field). field. parts; lra.
Qed.
Lemma bukin_epsilon e x i : 0 < e -> length x = 2%nat -> co x 0 <> -10 ->
  Rabs (co (bukin_gradient e x) i - co (bukin_gradient 0 x) i) <= e / (100 * Rabs (co x 0 + 10)).
Proof.
  intros He L H. unfold bukin_gradient. cbv zeta. set (a := co x 0) in *. assert (Ha : 0 < Rabs (a + 10)) by (apply Rabs_pos_lt; lra).
  assert (P : 0 <= e / (100 * Rabs (a + 10))). { apply Rmult_le_pos; [lra|]. left. apply Rinv_0_lt_compat. lra. }
  assert (Z : forall v, Rabs (v - v) <= e / (100 * Rabs (a + 10))) by (intro v; rewrite Rminus_diag_eq, Rabs_R0 by reflexivity; exact P).
  destruct i as [|[|i]]; unfold co; cbn [nth]; [|apply Z|destruct i; apply Z].
  set (w := _ / pow15 _). set (m := Rabs (a + 10)) in *.
  replace (_ - _) with (- ((a + 10) * (e * / (100 * (m * (m + e)))))) by (field; lra).
  rewrite Rabs_Ropp, Rabs_mult. fold m. rewrite Rabs_pos_eq.
  2:{ apply Rmult_le_pos; [lra|]. left. apply Rinv_0_lt_compat. nra. }
  unfold Rdiv. rewrite <- Rmult_assoc, (Rmult_comm m e), Rmult_assoc. apply Rmult_le_compat_l; [lra|].
  replace (m * / (100 * (m * (m + e)))) with (/ (100 * (m + e))) by (field; lra). apply Rinv_le_contravar; lra.
Qed.

(** ---- problems whose Gradient is wrong ---- *)
Lemma gradient_unique f x g k d : gradient_at f x g -> gradient_at f x k -> length d = length x -> dotR g d = dotR k d.
Proof. intros [_ G] [_ K] L. exact (uniqueness_limite _ _ _ _ (G d L) (K d L)). Qed.
(** the right gradient of Matyas *)
Lemma matyas_true x : length x = 2%nat ->
  gradient_at matyas_evaluate x [52/100 * co x 0 - 48/100 * co x 1; 52/100 * co x 1 - 48/100 * co x 0].
Proof. unfold matyas_evaluate. grad. auto_derive; [auto|]. at0. field. Qed.
Lemma matyas_wrong x : length x = 2%nat -> co x 1 <> 0 -> ~ gradient_at matyas_evaluate x (matyas_gradient x).
Proof.
  intros L H G. pose proof (gradient_unique _ _ _ _ [1; 0] G (matyas_true x L) ltac:(rewrite L; reflexivity)) as E.
  unfold matyas_gradient in E. cbn [dotR] in E. lra.
Qed.
Lemma fw_test_true x : length x = 3%nat ->
  gradient_at fw_test_evaluate x [2 * (co x 0 - 1/10); 2 * (co x 1 - 2/10); 2 * (co x 2 - 3/10)].
Proof. unfold fw_test_evaluate. grad. auto_derive; [auto|]. at0. field. Qed.
Lemma fw_test_half x : length x = 3%nat -> gradient_at (fun y => 1/2 * fw_test_evaluate y) x (fw_test_gradient x).
Proof. unfold fw_test_evaluate, fw_test_gradient. grad. auto_derive; [auto|]. at0. field. Qed.
Lemma fw_test_wrong x : length x = 3%nat -> co x 0 <> 1/10 -> ~ gradient_at fw_test_evaluate x (fw_test_gradient x).
Proof.
  intros L H G. pose proof (gradient_unique _ _ _ _ [1; 0; 0] G (fw_test_true x L) ltac:(rewrite L; reflexivity)) as E.
  unfold fw_test_gradient in E. cbn [dotR] in E. lra.
Qed.
(** Gockenbach's inequality constraint: right where it is violated, wrong where it holds strictly *)
Lemma gockenbach_equality_ok x : length x = 3%nat -> gradient_at (gockenbach_constraint 0) x (gockenbach_constraint_gradient 0 x).
Proof. unfold gockenbach_constraint, gockenbach_constraint_gradient. grad. auto_derive; [auto|]. at0. field. Qed.
Lemma Rmin_neg f t l : is_derive f t l -> f t < 0 -> is_derive (fun s => Rmin 0 (f s)) t l.
Proof.
  intros D H. apply (is_derive_ext_loc f); [|exact D].
  assert (C : continuous f t) by (apply (ex_derive_continuous (V := R_NormedModule)); exists l; exact D).
  specialize (C (fun y => y < 0) (open_lt 0 (f t) H)). destruct C as [e C]. exists e. intros s Hs. specialize (C s Hs). cbn beta in C. rewrite Rmin_right by lra. reflexivity.
Qed.
Lemma Rmin_pos f t l : is_derive f t l -> 0 < f t -> is_derive (fun s => Rmin 0 (f s)) t 0.
Proof.
  intros D H. apply (is_derive_ext_loc (fun _ => 0)).
  - assert (C : continuous f t) by (apply (ex_derive_continuous (V := R_NormedModule)); exists l; exact D).
    specialize (C (fun y => 0 < y) (open_gt 0 (f t) H)). destruct C as [e C]. exists e. intros s Hs. specialize (C s Hs). cbn beta in C. rewrite Rmin_left by lra. reflexivity.
  - apply (is_derive_const (K := R_AbsRing) (V := R_NormedModule) 0 t).
Qed.
Lemma gockenbach_inequality_ok x : length x = 3%nat -> co x 2 - co x 0 ^ 2 < 0 ->
  gradient_at (gockenbach_constraint 1) x (gockenbach_constraint_gradient 1 x).
Proof.
  unfold gockenbach_constraint, gockenbach_constraint_gradient, co. grad. cbn [nth] in H0.
  apply (Rmin_neg (fun t => r1 + t * r4 - (r + t * r2) ^ 2)); [|rewrite !Rmult_0_l, !Rplus_0_r; exact H0].
  auto_derive; [auto|]. at0. ring.
Qed.
Lemma gockenbach_inequality_wrong x : length x = 3%nat -> 0 < co x 2 - co x 0 ^ 2 ->
  gradient_at (gockenbach_constraint 1) x [0; 0; 0] /\ ~ gradient_at (gockenbach_constraint 1) x (gockenbach_constraint_gradient 1 x).
Proof.
  intros L H. assert (Z : gradient_at (gockenbach_constraint 1) x [0; 0; 0]).
  { unfold gockenbach_constraint. revert L H. unfold co. grad. cbn [nth] in H.
    replace (0 * r2 + (0 * r3 + (0 * r4 + 0))) with 0 by ring.
    eapply (Rmin_pos (fun t => r1 + t * r4 - (r + t * r2) ^ 2)); [auto_derive; [auto|]; reflexivity|rewrite !Rmult_0_l, !Rplus_0_r; exact H]. }
  split; [exact Z|]. intros G. pose proof (gradient_unique _ _ _ _ [0; 0; 1] G Z ltac:(rewrite L; reflexivity)) as E.
  unfold gockenbach_constraint_gradient in E. cbn [dotR] in E. lra.
Qed.
(** Eggholder, on x1 = 0 *)
Lemma eggholder_true a : 0 < a ->
  gradient_at eggholder_evaluate [0; a - 47]
    [- sin (sqrt a) - a * cos (sqrt a) / (4 * sqrt a); - sin (sqrt a) - a * cos (sqrt a) / (2 * sqrt a)].
Proof.
  intros Ha. unfold eggholder_evaluate. grad. assert (0 < sqrt a) by (apply sqrt_lt_R0; exact Ha).
  auto_derive; [|]; at0.
  - replace (0 + - (a - 47 + 47)) with (- a) by ring. rewrite Rabs_Ropp.
    replace (a - 47 + 0 * / 2 + 47) with a by field. rewrite Rabs_pos_eq by lra. parts; lra.
  - replace (0 + - (a - 47 + 47)) with (- a) by ring. rewrite Rabs_Ropp.
    replace (a - 47 + 0 * / 2 + 47) with a by field. rewrite Rabs_pos_eq by lra.
    rewrite (sign_eq_1 a Ha). field. lra.
Qed.
Lemma eggholder_wrong a : 0 < a -> a <> 47 -> cos (sqrt a) <> 0 ->
  ~ gradient_at eggholder_evaluate [0; a - 47] (eggholder_gradient [0; a - 47]).
Proof.
  intros Ha Hn Hc G. pose proof (gradient_unique _ _ _ _ [1; 0] G (eggholder_true a Ha) eq_refl) as E.
  unfold eggholder_gradient, co in E. cbn [dotR nth] in E. assert (0 < sqrt a) by (apply sqrt_lt_R0; exact Ha).
  replace (0 - (a - 47) - 47) with (- a) in E by ring. replace (0 / 2 + (a - 47) + 47) with a in E by field.
  rewrite Rabs_Ropp, (Rabs_pos_eq a) in E by lra. unfold pow15 in E.
  assert (0 < sqrt (2 * a)) by (apply sqrt_lt_R0; lra).
  assert (E' : cos (sqrt a) * (47 - a) = 0); [|nra].
  assert (K : (0 + 47) * a * cos (sqrt a) / (4 * (a * sqrt a)) = a * cos (sqrt a) / (4 * sqrt a)) by lra.
  assert (K' : 47 * cos (sqrt a) * / (4 * sqrt a) = a * cos (sqrt a) * / (4 * sqrt a)).
  { unfold Rdiv in K. rewrite <- K. field. lra. }
  apply Rmult_eq_reg_r in K'; [lra|]. apply Rinv_neq_0_compat. lra.
Qed.
Lemma eggholder_wrong_pi : ~ gradient_at eggholder_evaluate [0; PI ^ 2 - 47] (eggholder_gradient [0; PI ^ 2 - 47]).
Proof.
  pose proof PI_4 as P4. pose proof PI_RGT_0 as P0. apply eggholder_wrong; [nra|nra|].
  replace (PI ^ 2) with (Rsqr PI) by (unfold Rsqr; ring). rewrite sqrt_Rsqr by lra. rewrite cos_PI. lra.
Qed.
