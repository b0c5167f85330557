(** C57: IQN. *)
From Coq Require Import List Arith Bool ZArith QArith Reals Lra Lia.
From Verif.Base Require Import Num Vec Size Instances QInst.
From Verif.Model Require Import Common VarRed IQN.
From Verif.Spec Require Import SgdSpec VarRedSpec SvecSpec IQNSpec.
From Verif.Proof Require Import IQNProof IQNReal IQNEx.
Import ListNotations.
Local Open Scope nat_scope.

(** For every function, callback, solver, norm and starting point: a call that returns reports
    as [iqn_report] says.  Every iteration visits every batch once and evaluates every function
    once, at the point it reached; the value returned is the average objective at the final
    point (0 if there was no iteration). *)
Theorem C57_iqn : forall (N : Num) solve norm (f : VFun N) cb eta b maxIterations (tol : N) rows fuel init x r,
  iqn solve norm f cb eta b maxIterations tol rows fuel init x = Ret r ->
  0 < b /\ 0 < vf_num f /\ exists first,
    Forall (fun q => length (snd (snd q)) = length init) first /\
    iqn_report (move solve f eta b rows) (still norm) (vf_num f) b eta tol cb
      (match maxIterations with O => size_max | S m => m end) first init x (istart f (length x) init first)
      (ir_val r) (ir_x r) (ir_tr r) (ir_conv r) /\
    Forall (in_range (vf_num f) b) (ir_tr r) /\ iq_computed f cb (ir_tr r).
Proof. intros N solve norm f cb eta b maxIterations tol rows fuel init x r. exact (iqn_ok solve norm f cb eta b maxIterations tol rows fuel init x r). Qed.
Print Assumptions C57_iqn.
(** It always ends (by returning, or by one of the exceptions). *)
Theorem C57_ends : forall (N : Num) solve norm (f : VFun N) cb eta b maxIterations (tol : N) rows fuel init x,
  vf_num f <= fuel -> (match maxIterations with O => size_max | S m => m end) < fuel ->
  iqn solve norm f cb eta b maxIterations tol rows fuel init x <> More.
Proof. intros. apply iqn_ends; assumption. Qed.
Print Assumptions C57_ends.

(** ---- the step, over the real numbers ---- *)
(** The running aggregates amount to the sums: in any run of a call on a row vector, every step
    goes from x to stepSize z + (1 - stepSize) x, where z is the point at which the gradients
    of the quadratic models of all batches, each built from scratch from the points it was
    looked at and its gradients there, add up to a constant, [gap].  ([solve] is assumed to
    solve the linear system it is given.) *)
Theorem C57_newton_step : forall (mx : R) solve norm (f : VFun (RNum mx)) (eta : R) b (first : list (@geval (RNum mx))) (init x : list R) ps xf s',
  let p := length x in let n := vf_num f in
  0 < n -> 0 < b ->
  (forall A v z, length v = p -> solve p A v = Some z -> length z = p /\ forall i, i < p -> sum_n p (fun j => (A i j * comp z j)%R) = comp v i) ->
  length init = p -> Forall (fun q => length (snd (snd q)) = p) first -> map fst first = all_batches n b ->
  passes (N := RNum mx) (move (N := RNum mx) solve f eta b 1) (still norm) n b x (istart f p init first) ps xf s' ->
  forall a v r g g' (to : list R), flat_map a_visits ps = a ++ v :: r -> y_move v = Some (g, g', to) ->
    exists z : list R, length z = p /\ (forall i, i < p -> comp to i = (eta * comp z i + (1 - eta) * comp (y_x v) i)%R) /\
      forall i, i < p -> sum_n (batches n b) (fun k => model_gradient p (known (N := RNum mx) first init (a ++ [v]) k) z i) =
                         (- (INR (batches n b) * gap n b first i))%R.
Proof.
  intros mx solve norm f eta b first init x ps xf s' p n Hn Hb Hs Hi Hf Hm H. unfold n. rewrite <- (nb_batches f b Hn Hb).
  exact (newton mx solve norm f eta b Hn Hb p Hs first init Hi Hf Hm ps x xf s' eq_refl H).
Qed.
Print Assumptions C57_newton_step.
(** The constant is 0 when all batches have the same size ... *)
Theorem C57_gap_zero : forall mx (f : VFun (RNum mx)) b (first : list (@geval (RNum mx))),
  let n := vf_num f in 0 < n -> 0 < b -> map fst first = all_batches n b -> n mod b = 0 -> forall i, gap n b first i = 0%R.
Proof. intros mx f b first n Hn Hb Hm E. exact (gap_zero mx f b Hn Hb 0 first [] eq_refl Hm E). Qed.
Print Assumptions C57_gap_zero.
(** ... but not otherwise: g starts as the average over the functions and is then updated as
    an average over the batches.  "IQN converges to a minimum" is false then: on x^2/2, x^2/2
    and 3 (x-2)^2/2 with batches of 2 it stays where the gradient is not 0, at a point that
    depends on the random initial point. *)
Theorem C57_uneven_batches_refuted :
  (exists r, iqrun [(1%Q, 0%Q); (1%Q, 0%Q); (3#1, 2#1)] 2 5 1 1%Q (4#1) = Ret r /\
    ir_x r = [7#6] /\ vf_grad (parabolas [(1%Q, 0%Q); (1%Q, 0%Q); (3#1, 2#1)]) 0 (ir_x r) 0 3 = [(-1#6)%Q] /\
    last (isteps (ir_tr r)) [] = [7#6] /\ length (isteps (ir_tr r)) = 3) /\
  (exists r, iqrun [(1%Q, 0%Q); (1%Q, 0%Q); (3#1, 2#1)] 2 5 1 0%Q (4#1) = Ret r /\ ir_x r = [1%Q]).
Proof. exact (conj iq_uneven iq_uneven'). Qed.
Print Assumptions C57_uneven_batches_refuted.
(** With equal batches the same functions are minimized exactly after one iteration. *)
Example C57_even_example : exists r, iqrun [(2#1, 0%Q); (2#1, 4#1)] 1 4 1 1%Q (3#1) = Ret r /\
  isteps (ir_tr r) = [[7#3]; [2#1]; [2#1]; [2#1]] /\ ir_x r = [2#1] /\ ir_val r = (4#1) /\ ir_conv r = false.
Proof. exact iq_even. Qed.
(** The Hessian approximations meet the secant equation ... *)
Theorem C57_secant : forall p x g t y h i,
  let Q := hess p ((t, y) :: h) in
  dotv_ p (diff g y) (diff x t) <> 0%R -> dotv_ p (diff x t) (fun i => sum_n p (fun j => Q i j * diff x t j)%R) <> 0%R ->
  sum_n p (fun j => hess p ((x, g) :: (t, y) :: h) i j * diff x t j)%R = diff g y i.
Proof. intros p x g t y h i Q H1 H2. exact (secant p x g t y h i H1 H2). Qed.
Print Assumptions C57_secant.
(** ... and are symmetric and, as long as the curvature along the steps is positive, positive
    definite. *)
Theorem C57_posdef : forall p h, (forall i j, hess p h i j = hess p h j i) /\ (curved p h -> posdef p (hess p h)).
Proof. intros p h. exact (conj (hess_sym p h) (posdef_hess p h)). Qed.
Print Assumptions C57_posdef.
Example C57_curved_example : curved 1 [([3], [8]); ([1], [2])]%R.
Proof. cbn [curved]. split; [|exact I]. unfold dotv_, diff, comp, sum_n. cbn. lra. Qed.

(** "IQN optimizes a column vector" is false: an iterate with more than one row never moves (the
    first step throws an exception, because u.t() is subtracted from a column). *)
Theorem C57_column_refuted : forall (N : Num) solve norm (f : VFun N) cb eta b maxIterations (tol : N) rows fuel init x r,
  rows <> 1 -> iqn solve norm f cb eta b maxIterations tol rows fuel init x = Ret r -> ir_x r = x /\ forall y e, ~ In (VStep y e) (ir_tr r).
Proof. intros N solve norm f cb eta b maxIterations tol rows fuel init x r. exact (iqn_rows solve norm f cb eta b maxIterations tol rows fuel init x r). Qed.
Print Assumptions C57_column_refuted.
Example C57_column_example : iqrun [(2#1, 0%Q); (2#1, 4#1)] 1 4 2 1%Q (3#1) = Bad.
Proof. exact iq_column. Qed.
