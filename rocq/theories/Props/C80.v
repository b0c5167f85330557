(** C80: rotating, reflecting and shifting the coordinate system, and reordering the coordinates. *)
From Coq Require Import List Arith Reals Lra Lia.
From Verif.Base Require Import Num Instances.
From Verif.Model Require Import Common Sgd Updates GradientDescent LBFGS.
From Verif.Spec Require Import MotionSpec InvarianceSpec.
From Verif.Proof Require Import MotionLinear MotionEx.
Import ListNotations.
Local Open Scope R_scope.

(** Take two functions of n variables, the second having at [motion Q b x] the value of the first
    at x and the rotated gradient, and callbacks that answer alike.  Started at the image of the
    starting point, gradient descent returns the same value at the image of the point and shows
    the callbacks the images of what it showed them before. *)
Theorem C80_gradient_descent : forall mx n Q b, orthogonal n Q -> length b = n ->
  forall h max tol (f f' : list R -> R * list R) cb cb',
  (forall x, length x = n -> length (snd (f x)) = n /\ f' (motion Q b x) = (fst (f x), Q (snd (f x)))) ->
  image_cb (N := RNum mx) (motion Q b) Q (fun g => length g = n) cb cb' ->
  forall fuel x, length x = n ->
  match gd (N := RNum mx) h max tol f cb fuel x, gd (N := RNum mx) h max tol f' cb' fuel (motion Q b x) with
  | Some r, Some r' => image_res (N := RNum mx) (motion Q b) Q r r'
  | None, None => True
  | _, _ => False
  end.
Proof. intros. now apply gd_motion with (n := n). Qed.
Print Assumptions C80_gradient_descent.

(** So does L-BFGS, whatever was left in its memory of past steps. *)
Theorem C80_lbfgs : forall mx n Q b, orthogonal n Q -> length b = n ->
  forall numBasis max armijo minGrad wolfe factr minStep maxStep maxTrials tol (f f' : list R -> R * list R) cb cb',
  (forall x, length x = n -> length (snd (f x)) = n /\ f' (motion Q b x) = (fst (f x), Q (snd (f x)))) ->
  image_cb (N := RNum mx) (motion Q b) Q (fun g => length g = n) cb cb' ->
  forall fuel term s0 y0 s0' y0' x, length x = n -> length s0' = length s0 -> length y0' = length y0 ->
  image_out (N := RNum mx) (motion Q b) Q
    (lbfgs (N := RNum mx) numBasis max armijo minGrad wolfe factr minStep maxStep maxTrials tol norm norm f cb fuel term s0 y0 x)
    (lbfgs (N := RNum mx) numBasis max armijo minGrad wolfe factr minStep maxStep maxTrials tol norm norm f' cb' fuel term s0' y0' (motion Q b x)).
Proof. intros. now apply lbfgs_motion with (n := n). Qed.
Print Assumptions C80_lbfgs.

(** So does SGD with the plain step, momentum, Nesterov momentum and quasi-hyperbolic momentum. *)
Theorem C80_sgd : forall mx n Q b, orthogonal n Q -> length b = n ->
  forall batch max tol shuffle exact (f f' : SepFun (RNum mx) (list R) (list R)) cb cb',
  image_function (motion Q b) Q (fun x => length x = n) (fun g => length g = n) f f' ->
  image_callbacks (motion Q b) Q (fun g => length g = n) cb cb' ->
  forall fuel h x, length x = n ->
  image_outcome (motion Q b) Q
    (optimize_with (sgd_cfg batch max tol shuffle exact (vanilla_up (N := RNum mx))) f cb fuel (repeat tt n) tt h x)
    (optimize_with (sgd_cfg batch max tol shuffle exact (vanilla_up (N := RNum mx))) f' cb' fuel (repeat tt n) tt h (motion Q b x)) /\
  (forall up, (exists mu, up = momentum_up (N := RNum mx) mu) \/ (exists mu, up = nesterov_up (N := RNum mx) mu) \/
              (exists mu nu, up = qh_up (N := RNum mx) mu nu) ->
   image_outcome (motion Q b) Q
    (optimize_with (sgd_cfg batch max tol shuffle exact up) f cb fuel (repeat 0 n) tt h x)
    (optimize_with (sgd_cfg batch max tol shuffle exact up) f' cb' fuel (repeat 0 n) tt h (motion Q b x))).
Proof. intros. now apply sgd_motion. Qed.
Print Assumptions C80_sgd.

(** "All SGD policies do" is false: Adam scales every coordinate by itself, and on the linear
    function x |-> x_1, turned by the angle with cosine 3/5, it goes somewhere else, for every
    setting of its parameters. *)
Theorem C80_adam_refuted : forall mx eps b1 b2 h, 0 <= b1 < 1 -> 0 <= b2 < 1 -> 0 < eps -> h <> 0 ->
  exists Q f f' cb x, orthogonal 2 Q /\ length x = 2%nat /\
  image_function (N := RNum mx) (motion Q [0; 0]) Q (fun x => length x = 2%nat) (fun g => length g = 2%nat) f f' /\
  image_callbacks (N := RNum mx) (motion Q [0; 0]) Q (fun g => length g = 2%nat) cb cb /\
  let run f x := optimize_with (sgd_cfg 1 1 0 false false (adam_up (N := RNum mx) pow eps b1 b2)) f cb 5 [adam_init; adam_init] tt h x in
  exists r r', run f x = Return r /\ run f' (motion Q [0; 0] x) = Return r' /\ r_x r' <> motion Q [0; 0] (r_x r).
Proof. exact adam_not_motion. Qed.
Print Assumptions C80_adam_refuted.

(** Every policy that treats the coordinates one by one (all those of C77), with any decay policy
    that looks at nothing but the step size, respects the reordering of the coordinates; and
    leaving some out or repeating some, as long as the objective allows it.  This holds in every
    arithmetic, so for IEEE numbers bit for bit.  [p] lists the old positions in the new order. *)
Theorem C80_reorder : forall (N : Num) (S D : Type) (up : S -> N -> N -> N -> S * N) (s0 : S) n p, Forall (fun i => i < n)%nat p ->
  forall (c : Cfg N (list N) (list N) (list S) D) f f' cb cb',
  c_up c = vec_up up -> (forall d h x x' g g', c_dp c d x h g = c_dp c d x' h g') ->
  image_function (pick p n0) (pick p n0) (fun x => length x = n) (fun g => length g = n) f f' ->
  image_callbacks (pick p n0) (pick p n0) (fun g => length g = n) cb cb' ->
  forall fuel ss d h x, length ss = n -> length x = n ->
  image_outcome (pick p n0) (pick p n0) (optimize_with c f cb fuel ss d h x)
    (optimize_with c f' cb' fuel (pick p s0 ss) d h (pick p n0 x)).
Proof. intros. now apply sgd_pick with (up := up) (n := n). Qed.
Print Assumptions C80_reorder.

(** The same for gradient descent. *)
Theorem C80_reorder_gd : forall (N : Num) n p, Forall (fun i => i < n)%nat p ->
  forall h max tol (f f' : list N -> N * list N) cb cb',
  (forall x, length x = n -> length (snd (f x)) = n /\ f' (pick p n0 x) = (fst (f x), pick p n0 (snd (f x)))) ->
  image_cb (pick p n0) (pick p n0) (fun g => length g = n) cb cb' ->
  forall fuel x, length x = n ->
  match gd h max tol f cb fuel x, gd h max tol f' cb' fuel (pick p n0 x) with
  | Some r, Some r' => image_res (pick p n0) (pick p n0) r r'
  | None, None => True
  | _, _ => False
  end.
Proof. intros. eapply gd_pick; eassumption. Qed.
Print Assumptions C80_reorder_gd.

(** one step of gradient descent on x_1^2 / 2 from (5, 0) with step size 1/5, and on its image under
    the rotation followed by the shift (1, 1) *)
Example C80_ex :
  let f := fun x : list R => match x with [a; b] => (a * a / 2, [a; 0]) | _ => (0, []) end in
  let f' := fun x : list R => match x with [a; b] => let t := 3 / 5 * (a - 1) + 4 / 5 * (b - 1) in (t * t / 2, [3 / 5 * t; 4 / 5 * t]) | _ => (0, []) end in
  let quiet := {| cs_stop := fun _ => false; cs_grad := fun _ _ _ g => g |} in
  orthogonal 2 turn34 /\
  (forall x, length x = 2%nat -> length (snd (f x)) = 2%nat /\ f' (motion turn34 [1; 1] x) = (fst (f x), turn34 (snd (f x)))) /\
  exists r r', gd (N := RNum 100) (1 / 5) 2 0 f quiet 3 [5; 0] = Some r /\ o_x r = [4; 0] /\
    gd (N := RNum 100) (1 / 5) 2 0 f' quiet 3 [4; 5] = Some r' /\ o_x r' = [17 / 5; 21 / 5] /\ o_val r' = 25 / 2.
Proof. exact motion_ex. Qed.

(** swapping two coordinates: the first coordinate as a function becomes the second *)
Example C80_ex_reorder : forall N : Num,
  let p := [1; 0]%nat in
  let coordinate i := Build_SepFun N (list N) (list N) 1 (fun _ x _ _ => nth i x n0)
    (fun _ x _ _ => (nth i x n0, match i with O => [n1; n0] | _ => [n0; n1] end)) in
  Forall (fun i => i < 2)%nat p /\ (forall a b : N, pick p n0 [a; b] = [b; a]) /\
  image_function (pick p n0) (pick p n0) (fun x => length x = 2%nat) (fun g => length g = 2%nat) (coordinate 0%nat) (coordinate 1%nat).
Proof. intros N p coordinate. split; [repeat constructor|]. split; [reflexivity|]. split; [reflexivity|]. intros s x b k _. split; [reflexivity|]. split; reflexivity. Qed.
