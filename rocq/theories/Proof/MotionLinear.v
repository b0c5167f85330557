(** Rotations, reflections and shifts for the methods that use the gradient linearly or through
    inner products; reordering of the coordinates for the coordinate-wise ones. *)
From Coq Require Import List Arith Bool Reals Lra Lia.
From Verif.Base Require Import Num Vec Instances.
From Verif.Model Require Import Common Sgd Updates GradientDescent SA LBFGS.
From Verif.Spec Require Import MotionSpec InvarianceSpec.
From Verif.Proof Require Import MotionSgd MotionRun.
Import ListNotations.
Local Open Scope R_scope.

Lemma vdot_dotR mx (u v : list R) : vdot (N := RNum mx) u v = dotR u v.
Proof.
  unfold vdot, vsum, dotR, vmul. change (@nmul (RNum mx)) with Rmult. change (@nadd (RNum mx)) with Rplus. change (@n0 (RNum mx)) with 0.
  change (T (RNum mx)) with R. rewrite fold_symmetric; [reflexivity| |]; intros; ring.
Qed.

Section Orth.
  Variables (n : nat) (Q : list R -> list R) (b : list R).
  Hypothesis (HQ : orthogonal n Q) (Hb : length b = n).
  Notation len v := (length v = n).
  Notation motion := (motion Q b).

  Lemma map2_ext2 {A B C} (f g : A -> B -> C) : (forall x y, f x y = g x y) -> forall u v, map2 f u v = map2 g u v.
  Proof. intros H. induction u as [|x u IH]; intros [|y v]; cbn; [reflexivity|reflexivity|reflexivity|]. now rewrite H, IH. Qed.
  Lemma addR_len u v : len u -> len v -> len (addR u v).
  Proof. intros A B. unfold addR. rewrite map2_length. lia. Qed.
  Lemma subR_add : forall u v, map2 Rminus u v = addR u (map (Rmult (-1)) v).
  Proof. induction u as [|x u IH]; intros [|y v]; cbn; try reflexivity. rewrite IH. unfold addR. f_equal. ring. Qed.
  Lemma og_sub u v : len u -> len v -> Q (map2 Rminus u v) = map2 Rminus (Q u) (Q v).
  Proof. intros A B. rewrite !subR_add, (og_add n Q HQ), (og_scale n Q HQ); try assumption; [reflexivity|now rewrite map_length]. Qed.
  Lemma add_swap : forall u v w, addR (addR u v) w = addR (addR u w) v.
  Proof. induction u as [|x u IH]; intros [|y v] [|z w]; cbn; try reflexivity. f_equal; [ring|apply IH]. Qed.
  Lemma sub_cancel : forall u v w, length u = length v -> length w = length v -> map2 Rminus (addR u w) (addR v w) = map2 Rminus u v.
  Proof.
    induction u as [|x u IH]; intros [|y v] [|z w] A B; cbn in *; try discriminate; try reflexivity. f_equal; [ring|].
    apply (IH v w); congruence.
  Qed.

  Lemma motion_len x : len x -> len (motion x).
  Proof. intros L. unfold motion. apply addR_len; [apply (og_len n Q HQ); exact L|exact Hb]. Qed.
  Lemma motion_add x d : len x -> len d -> motion (addR x d) = addR (motion x) (Q d).
  Proof. intros A B. unfold motion. rewrite (og_add n Q HQ) by assumption. apply add_swap. Qed.
  Lemma motion_step x a d : len x -> len d -> motion (addR x (map (Rmult a) d)) = addR (motion x) (map (Rmult a) (Q d)).
  Proof. intros A B. rewrite motion_add, (og_scale n Q HQ); try assumption; [reflexivity|now rewrite map_length]. Qed.
  Lemma motion_sub x d : len x -> len d -> motion (map2 Rminus x d) = map2 Rminus (motion x) (Q d).
  Proof.
    intros A B. rewrite !subR_add, motion_add, (og_scale n Q HQ); try assumption; [reflexivity|now rewrite map_length].
  Qed.
  Lemma motion_diff x y : len x -> len y -> map2 Rminus (motion x) (motion y) = Q (map2 Rminus x y).
  Proof.
    intros A B. unfold motion. rewrite og_sub by assumption. apply sub_cancel; rewrite ?(og_len n Q HQ) by assumption; auto.
  Qed.
  Lemma norm_image g : len g -> norm (Q g) = norm g.
  Proof. intros L. unfold norm. now rewrite (og_dot n Q HQ). Qed.
  Lemma times_image (a : R) d : len d -> Q (map (fun e => e * a) d) = map (fun e => e * a) (Q d).
  Proof.
    intros L. rewrite !(map_ext (fun e => e * a) (Rmult a)) by (intros; ring). now apply (og_scale n Q HQ).
  Qed.

  (** ** Gradient descent *)
  Lemma gd_motion mx h max tol (f f' : list R -> R * list R) cb cb' fuel x :
    (forall x, len x -> len (snd (f x)) /\ f' (motion x) = (fst (f x), Q (snd (f x)))) ->
    image_cb (N := RNum mx) motion Q (fun g => len g) cb cb' -> len x ->
    match gd (N := RNum mx) h max tol f cb fuel x, gd (N := RNum mx) h max tol f' cb' fuel (motion x) with
    | Some r, Some r' => image_res (N := RNum mx) motion Q r r' | None, None => True | _, _ => False end.
  Proof.
    intros Hf Hcb Lx. apply (gd_image (N := RNum mx) motion Q (fun x => len x) (fun g => len g)); try assumption.
    intros y g Ly Lg. split.
    - unfold vsub, vscale. rewrite map2_length. change (T (RNum mx)) with R in *. rewrite map_length. lia.
    - change (motion (map2 Rminus y (map (Rmult h) g)) = map2 Rminus (motion y) (map (Rmult h) (Q g))).
      rewrite motion_sub, (og_scale n Q HQ); try assumption; [reflexivity|now rewrite map_length].
  Qed.

  (** ** L-BFGS *)
  Lemma lbfgs_motion mx nb max armijo mgn wolfe factr minStep maxStep maxTrials tol (f f' : list R -> R * list R) cb cb' fuel term s0 y0 s0' y0' x :
    (forall x, len x -> len (snd (f x)) /\ f' (motion x) = (fst (f x), Q (snd (f x)))) ->
    image_cb (N := RNum mx) motion Q (fun g => len g) cb cb' -> len x -> length s0' = length s0 -> length y0' = length y0 ->
    image_out (N := RNum mx) motion Q
      (lbfgs (N := RNum mx) nb max armijo mgn wolfe factr minStep maxStep maxTrials tol norm norm f cb fuel term s0 y0 x)
      (lbfgs (N := RNum mx) nb max armijo mgn wolfe factr minStep maxStep maxTrials tol norm norm f' cb' fuel term s0' y0' (motion x)).
  Proof.
    intros Hf Hcb Lx A B. apply (lbfgs_image (N := RNum mx) n motion Q); try assumption.
    - exact motion_step.
    - exact motion_diff.
    - intros u v Lu Lv. symmetry. now apply og_sub.
    - intros u a v Lu Lv. change (Q (addR u (map (Rmult a) v)) = addR (Q u) (map (Rmult a) (Q v))).
      rewrite (og_add n Q HQ), (og_scale n Q HQ); try assumption; [reflexivity|now rewrite map_length].
    - intros u a v Lu Lv. change (Q (map2 Rminus u (map (Rmult a) v)) = map2 Rminus (Q u) (map (Rmult a) (Q v))).
      rewrite og_sub, (og_scale n Q HQ); try assumption; [reflexivity|now rewrite map_length].
    - exact times_image.
    - intros u v Lu Lv. rewrite !vdot_dotR. now apply (og_dot n Q HQ).
    - exact norm_image.
    - exact norm_image.
  Qed.

  (** ** SGD with a linear policy *)
  Lemma vec_up_linear mx (up : R -> R -> R -> R -> R * R) (a c p q : R -> R) :
    (forall s x h g, up s x h g = (a h * s + c h * g, x + (p h * s + q h * g))) ->
    forall ss xs h gs, length xs = length ss -> length gs = length ss ->
    vec_up (N := RNum mx) up ss xs h gs
    = (addR (map (Rmult (a h)) ss) (map (Rmult (c h)) gs), addR xs (addR (map (Rmult (p h)) ss) (map (Rmult (q h)) gs))).
  Proof.
    intros H ss. induction ss as [|s ss IH]; intros [|x xs] h [|g gs] A B; cbn in A, B; try discriminate; [reflexivity|].
    cbn [vec_up]. rewrite H, (IH xs h gs) by (apply eq_add_S; assumption). reflexivity.
  Qed.

  Lemma sgd_linear_motion mx (up : R -> R -> R -> R -> R * R) (a c p q : R -> R) batch max tol shuffle exact f f' cb cb' fuel h x :
    (forall s x h g, up s x h g = (a h * s + c h * g, x + (p h * s + q h * g))) ->
    image_function (N := RNum mx) motion Q (fun x => len x) (fun g => len g) f f' ->
    image_callbacks (N := RNum mx) motion Q (fun g => len g) cb cb' -> len x ->
    image_outcome (N := RNum mx) motion Q
      (optimize_with (sgd_cfg batch max tol shuffle exact up) f cb fuel (repeat 0 n) tt h x)
      (optimize_with (sgd_cfg batch max tol shuffle exact up) f' cb' fuel (repeat 0 n) tt h (motion x)).
  Proof.
    intros H Hf Hcb Lx.
    apply (sgd_image (N := RNum mx) motion Q (fun x => len x) (fun g => len g) (fun x u u' => len u /\ u' = Q u) (fun _ _ => True));
      try reflexivity; try assumption.
    - intros u u' y k g Ly Lg [Lu ->]. cbn [sgd_cfg c_up].
      change (T (RNum mx)) with R in *.
      pose proof (og_len n Q HQ u Lu) as LQu. pose proof (og_len n Q HQ g Lg) as LQg. pose proof (motion_len y Ly) as LMy.
      rewrite !(vec_up_linear mx up a c p q H) by (etransitivity; [eassumption|symmetry; eassumption]).
      cbn [fst snd].
      assert (La : forall t u, len u -> len (map (Rmult t) u)) by (intros; now rewrite map_length).
      split; [auto using addR_len|]. split.
      + rewrite motion_add, (og_add n Q HQ), !(og_scale n Q HQ); auto using addR_len.
      + split; [auto using addR_len|]. rewrite (og_add n Q HQ), !(og_scale n Q HQ); auto using addR_len.
    - intros. split; [reflexivity|exact Logic.I].
    - split; [apply repeat_length|].
      assert (Z : map (Rmult 0) (repeat 0 n) = repeat 0 n) by (clear; induction n as [|m IH]; [reflexivity|cbn; f_equal; [ring|exact IH]]).
      rewrite <- Z at 2. rewrite (og_scale n Q HQ) by apply repeat_length.
      assert (Zl : forall v, map (Rmult 0) v = repeat 0 (length v)) by (induction v as [|e v IH]; [reflexivity|cbn; f_equal; [ring|exact IH]]).
      rewrite Zl, (og_len n Q HQ) by apply repeat_length. reflexivity.
  Qed.

  Lemma sgd_vanilla_motion mx batch max tol shuffle exact f f' cb cb' fuel h x :
    image_function (N := RNum mx) motion Q (fun x => len x) (fun g => len g) f f' ->
    image_callbacks (N := RNum mx) motion Q (fun g => len g) cb cb' -> len x ->
    image_outcome (N := RNum mx) motion Q
      (optimize_with (sgd_cfg batch max tol shuffle exact (vanilla_up (N := RNum mx))) f cb fuel (repeat tt n) tt h x)
      (optimize_with (sgd_cfg batch max tol shuffle exact (vanilla_up (N := RNum mx))) f' cb' fuel (repeat tt n) tt h (motion x)).
  Proof.
    intros Hf Hcb Lx.
    assert (V : forall ss xs k gs, length xs = length ss -> length gs = length ss ->
      vec_up (N := RNum mx) (vanilla_up (N := RNum mx)) ss xs k gs = (ss, map2 Rminus xs (map (Rmult k) gs))).
    { induction ss as [|s ss IH]; intros [|y ys] k [|g gs] A B; cbn in A, B; try discriminate; [reflexivity|].
      cbn [vec_up]. rewrite (IH ys k gs) by (apply eq_add_S; assumption). reflexivity. }
    apply (sgd_image (N := RNum mx) motion Q (fun x => len x) (fun g => len g) (fun x u u' => len u /\ u' = u) (fun _ _ => True));
      try reflexivity; try assumption.
    - intros u u' y k g Ly Lg [Lu ->]. cbn [sgd_cfg c_up]. change (T (RNum mx)) with R in *.
      pose proof (og_len n Q HQ g Lg) as LQg. pose proof (motion_len y Ly) as LMy.
      rewrite !V by (etransitivity; [eassumption|symmetry; eassumption]). cbn [fst snd].
      split; [rewrite map2_length, map_length; lia|]. split; [|auto].
      rewrite motion_sub, (og_scale n Q HQ); try assumption; [reflexivity|now rewrite map_length].
    - intros. split; [reflexivity|exact Logic.I].
    - split; [apply repeat_length|reflexivity].
  Qed.
End Orth.

(** ** Reordering *)
Section Pick.
  Context {N : Num} {S D : Type}.
  Variables (up : S -> N -> N -> N -> S * N) (s0 : S) (n : nat) (p : list nat).
  Hypothesis Hp : Forall (fun i => i < n)%nat p.

  Lemma vec_up_len : forall ss xs h gs, length xs = length ss -> length gs = length ss ->
    length (fst (vec_up up ss xs h gs)) = length ss /\ length (snd (vec_up up ss xs h gs)) = length ss.
  Proof.
    induction ss as [|s ss IH]; intros [|x xs] h [|g gs] A B; cbn in A, B; try discriminate; [auto|].
    cbn [vec_up]. destruct (IH xs h gs) as [I J]; [congruence|congruence|]. destruct (up s x h g), (vec_up up ss xs h gs). cbn in *. lia.
  Qed.
  Lemma vec_up_nth : forall ss xs h gs i, length xs = length ss -> length gs = length ss -> (i < length ss)%nat ->
    nth i (fst (vec_up up ss xs h gs)) s0 = fst (up (nth i ss s0) (nth i xs n0) h (nth i gs n0)) /\
    nth i (snd (vec_up up ss xs h gs)) n0 = snd (up (nth i ss s0) (nth i xs n0) h (nth i gs n0)).
  Proof.
    induction ss as [|s ss IH]; intros [|x xs] h [|g gs] i A B L; cbn in A, B, L; try discriminate; [lia|].
    cbn [vec_up]. destruct (up s x h g) as [s1 x1] eqn:E1. destruct (vec_up up ss xs h gs) as [ss1 xs1] eqn:E2.
    destruct i as [|i]; cbn [fst snd nth]; [rewrite E1; auto|].
    specialize (IH xs h gs i). rewrite E2 in IH. apply IH; [congruence|congruence|lia].
  Qed.
  Lemma vec_up_pick (ss : list S) (xs gs : list N) h : length ss = n -> length xs = n -> length gs = n ->
    vec_up up (pick p s0 ss) (pick p n0 xs) h (pick p n0 gs)
    = (pick p s0 (fst (vec_up up ss xs h gs)), pick p n0 (snd (vec_up up ss xs h gs))).
  Proof.
    intros A B C. unfold pick. induction Hp as [|i q Hi Hq IH]; [reflexivity|]. cbn [map vec_up].
    destruct (vec_up_nth ss xs h gs i) as [E1 E2]; [congruence|congruence|lia|]. rewrite E1, E2.
    destruct (up (nth i ss s0) (nth i xs n0) h (nth i gs n0)) as [s1 x1]. rewrite IH by exact Hq. reflexivity.
  Qed.

  Lemma gd_pick h max tol (f f' : list N -> N * list N) cb cb' fuel x :
    (forall x, length x = n -> length (snd (f x)) = n /\ f' (pick p n0 x) = (fst (f x), pick p n0 (snd (f x)))) ->
    image_cb (pick p n0) (pick p n0) (fun g => length g = n) cb cb' -> length x = n ->
    match gd h max tol f cb fuel x, gd h max tol f' cb' fuel (pick p n0 x) with
    | Some r, Some r' => image_res (pick p n0) (pick p n0) r r' | None, None => True | _, _ => False end.
  Proof.
    intros Hf Hcb Lx. apply (gd_image (pick p n0) (pick p n0) (fun x => length x = n) (fun g => length g = n)); try assumption.
    intros y g Ly Lg. split; [unfold vsub, vscale; rewrite map2_length, map_length; lia|].
    assert (NT : forall i, (i < n)%nat -> nth i (vsub y (vscale h g)) n0 = nsub (nth i y n0) (nmul h (nth i g n0))).
    { intros i Hi. apply nth_error_nth. unfold vsub, vscale. rewrite nth_error_map2, nth_error_map.
      rewrite (nth_error_nth' y n0), (nth_error_nth' g n0) by lia. reflexivity. }
    clear Hf Hcb. unfold pick. induction Hp as [|i q Hi Hq IH]; [reflexivity|]. cbn [map]. rewrite (NT i Hi). unfold vsub, vscale. cbn [map map2]. f_equal.
    apply IH. exact Hq.
  Qed.

  Lemma sgd_pick (c : Cfg N (list N) (list N) (list S) D) f f' cb cb' fuel ss d h x :
    c_up c = vec_up up -> (forall d h x x' g g', c_dp c d x h g = c_dp c d x' h g') ->
    image_function (pick p n0) (pick p n0) (fun x => length x = n) (fun g => length g = n) f f' ->
    image_callbacks (pick p n0) (pick p n0) (fun g => length g = n) cb cb' ->
    length ss = n -> length x = n ->
    image_outcome (pick p n0) (pick p n0) (optimize_with c f cb fuel ss d h x)
      (optimize_with c f' cb' fuel (pick p s0 ss) d h (pick p n0 x)).
  Proof.
    intros Hu Hd Hf Hcb Ls Lx.
    apply (sgd_image (pick p n0) (pick p n0) (fun x => length x = n) (fun g => length g = n)
      (fun _ u u' => length u = n /\ u' = pick p s0 u) eq); try reflexivity; try assumption; [| |auto].
    - intros u u' y k g Ly Lg [Lu ->]. rewrite Hu, vec_up_pick by assumption. cbn [fst snd].
      destruct (vec_up_len u y k g) as [I J]; [congruence|congruence|]. rewrite I, J. auto.
    - intros e e' y k g _ _ <-. rewrite (Hd e k (pick p n0 y) y (pick p n0 g) g). auto.
  Qed.
End Pick.

(** ** Adam is not one of them *)
Definition turn34 (u : list R) : list R :=
  match u with [x; y] => [3 / 5 * x - 4 / 5 * y; 4 / 5 * x + 3 / 5 * y] | _ => u end.
Lemma turn34_orthogonal : orthogonal 2 turn34.
Proof.
  constructor.
  - intros [|x [|y [|z u]]] L; try discriminate; reflexivity.
  - intros [|x [|y [|z u]]] [|x' [|y' [|z' u']]] L L'; try discriminate. cbn. f_equal; [field|f_equal; field].
  - intros a [|x [|y [|z u]]] L; try discriminate. cbn. f_equal; [field|f_equal; field].
  - intros [|x [|y [|z u]]] [|x' [|y' [|z' u']]] L L'; try discriminate. unfold dotR. cbn. field.
Qed.

Lemma adam_one mx eps b1 b2 h g : 0 <= b1 < 1 -> 0 <= b2 < 1 -> 0 <= g ->
  snd (adam_up (N := RNum mx) pow eps b1 b2 adam_init 0 h g) = - (h * (sqrt (1 - b2) * g / (sqrt (1 - b2) * g + eps))).
Proof.
  intros H1 H2 Hg. unfold adam_up, adam_init. cbn. rewrite !Rmult_1_r, !Rmult_0_l, !Rplus_0_l.
  assert (E : sqrt ((1 - b2) * (g * g)) = sqrt (1 - b2) * g) by (rewrite sqrt_mult by nra; now rewrite sqrt_square).
  rewrite E. unfold Rdiv. rewrite Rinv_r_simpl_m || idtac. 
  replace (h * sqrt (1 - b2) * / (1 - b1) * ((1 - b1) * g)) with (h * sqrt (1 - b2) * g * ((1 - b1) * / (1 - b1))) by ring.
  rewrite Rinv_r by lra. ring.
Qed.

Lemma adam_turn mx eps b1 b2 h : 0 <= b1 < 1 -> 0 <= b2 < 1 -> 0 < eps -> h <> 0 ->
  snd (vec_up (N := RNum mx) (adam_up (N := RNum mx) pow eps b1 b2) [adam_init; adam_init] (turn34 [0; 0]) h (turn34 [1; 0])) <>
  turn34 (snd (vec_up (N := RNum mx) (adam_up (N := RNum mx) pow eps b1 b2) [adam_init; adam_init] [0; 0] h [1; 0])).
Proof.
  intros H1 H2 He Hh.
  replace (turn34 [0; 0]) with [0; 0] by (cbn; f_equal; [lra|f_equal; lra]).
  replace (turn34 [1; 0]) with [3 / 5; 4 / 5] by (cbn; f_equal; [lra|f_equal; lra]).
  pose proof (adam_one mx eps b1 b2 h (3 / 5) H1 H2 ltac:(lra)) as A.
  pose proof (adam_one mx eps b1 b2 h 1 H1 H2 ltac:(lra)) as B.
  pose proof (adam_one mx eps b1 b2 h 0 H1 H2 ltac:(lra)) as C.
  cbn [vec_up].
  destruct (adam_up (N := RNum mx) pow eps b1 b2 adam_init 0 h (3 / 5)) as [sa xa].
  destruct (adam_up (N := RNum mx) pow eps b1 b2 adam_init 0 h (4 / 5)) as [sd xd].
  destruct (adam_up (N := RNum mx) pow eps b1 b2 adam_init 0 h 1) as [sb xb].
  destruct (adam_up (N := RNum mx) pow eps b1 b2 adam_init 0 h 0) as [sc xc]. cbn [snd] in *. subst xa xb xc.
  unfold turn34. intros E. injection E as E _. 
  assert (S0 : 0 < sqrt (1 - b2)) by (apply sqrt_lt_R0; lra). set (r := sqrt (1 - b2)) in *.
  assert (Z : r * 0 / (r * 0 + eps) = 0) by (unfold Rdiv; ring). rewrite Z in E.
  assert (E1 : h * (r * (3 / 5) / (r * (3 / 5) + eps)) = h * (3 / 5 * (r * 1 / (r * 1 + eps)))) by lra.
  apply Rmult_eq_reg_l in E1; [|exact Hh].
  assert (E2 : r * (3 / 5) * (r + eps) = 3 / 5 * r * (r * (3 / 5) + eps)).
  { apply (f_equal (fun z => z * ((r * (3 / 5) + eps) * (r + eps)))) in E1. field_simplify in E1; [|nra|nra]. nra. }
  nra.
Qed.
