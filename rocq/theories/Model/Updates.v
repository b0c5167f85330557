(** The update policies of SGD that work coordinate by coordinate.

    All of them apply Armadillo's element-wise operations to the iterate, the
    gradient and their state matrices, so they are modelled at one coordinate:
    [up state iterate stepSize gradient = (state', iterate')].  The iteration
    counter, shared by all coordinates in the code, is part of each coordinate's
    state (it takes the same values).  [vec_up] lifts a policy to vectors. *)
From Coq Require Import List Arith Bool ZArith.
From Verif.Base Require Import Num Vec.
Import ListNotations.

Section Run.
  Context {N : Num} {S : Type}.
  Variable up : S -> N -> N -> N -> S * N.
  (** a sequence of updates; each element is (stepSize, gradient) *)
  Definition run (s : S) (x : N) (l : list (N * N)) : S * N :=
    fold_left (fun sx hg => up (fst sx) (snd sx) (fst hg) (snd hg)) l (s, x).
  (** the policy on vectors *)
  Fixpoint vec_up (ss : list S) (xs : list N) (h : N) (gs : list N) : list S * list N :=
    match ss, xs, gs with
    | s :: ss', x :: xs', g :: gs' =>
        let '(s1, x1) := up s x h g in
        let '(ss1, xs1) := vec_up ss' xs' h gs' in (s1 :: ss1, x1 :: xs1)
    | _, _, _ => ([], [])
    end.
  Definition vec_run (ss : list S) (xs : list N) (l : list (N * list N)) : list S * list N :=
    fold_left (fun sx hg => vec_up (fst sx) (snd sx) (fst hg) (snd hg)) l (ss, xs).
End Run.

Section Updates.
  Context {N : Num}.
  Variable pw : N -> nat -> N.            (* std::pow(double, size_t) *)
  Variable rpw : N -> N -> N.             (* std::pow(double, double), arma::pow *)
  Local Open Scope num_scope.
  Notation two := (nofZ 2).

  (* arma::max(a, b) and std::min, element-wise *)
  Definition emax (a b : N) : N := if nlt a b then b else a.
  Definition emin (a b : N) : N := if nlt b a then b else a.
  (* arma::sign *)
  Definition esign (a : N) : N := if nlt n0 a then n1 else if nlt a n0 then - n1 else n0.

  (** sgd/update_policies/vanilla_update.hpp 61-67 *)
  Definition vanilla_up (s : unit) (x h g : N) : unit * N := (s, x - h * g).
  (** momentum_update.hpp 111-117; velocity starts at 0 (97) *)
  Definition momentum_up (mu : N) (v x h g : N) : N * N :=
    let v' := mu * v - h * g in (v', x + v').
  (** nesterov_momentum_update.hpp 88-95; velocity starts at 0 (73) *)
  Definition nesterov_up (mu : N) (v x h g : N) : N * N :=
    let v' := mu * v - h * g in (v', x + (mu * v' - h * g)).
  (** quasi_hyperbolic_update.hpp 93-101; velocity starts at 0 (83) *)
  Definition qh_up (mu nu : N) (v x h g : N) : N * N :=
    let v' := v * mu + (n1 - mu) * g in
    (v', x - h * ((n1 - nu) * g + nu * v')).

  (** ** Adam and relatives *)
  Record adam_st : Type := { a_m : N; a_v : N; a_w : N; a_t : nat }.
  (* m, v (or u, s), vImproved (or the last update g), iteration: all zero *)
  Definition adam_init : adam_st := {| a_m := n0; a_v := n0; a_w := n0; a_t := 0 |}.

  (** adam/adam_update.hpp 108-132 *)
  Definition adam_up (eps b1 b2 : N) (s : adam_st) (x h g : N) : adam_st * N :=
    let t := S (a_t s) in
    let m := a_m s * b1 + (n1 - b1) * g in
    let v := a_v s * b2 + (n1 - b2) * (g * g) in
    let bc1 := n1 - pw b1 t in
    let bc2 := n1 - pw b2 t in
    ({| a_m := m; a_v := v; a_w := a_w s; a_t := t |},
     x - (h * nsqrt bc2 / bc1) * m / (nsqrt v + eps)).
  (** adam/adamax_update.hpp 110-129 *)
  Definition adamax_up (eps b1 b2 : N) (s : adam_st) (x h g : N) : adam_st * N :=
    let t := S (a_t s) in
    let m := a_m s * b1 + (n1 - b1) * g in
    let u := emax (a_v s * b2) (nabs g) in
    let bc1 := n1 - pw b1 t in
    ({| a_m := m; a_v := u; a_w := a_w s; a_t := t |},
     if negb (neq bc1 n0) then x - (h / bc1 * m / (u + eps)) else x).
  (** adam/amsgrad_update.hpp 104-126 *)
  Definition amsgrad_up (eps b1 b2 : N) (s : adam_st) (x h g : N) : adam_st * N :=
    let t := S (a_t s) in
    let m := a_m s * b1 + (n1 - b1) * g in
    let v := a_v s * b2 + (n1 - b2) * (g * g) in
    let bc1 := n1 - pw b1 t in
    let bc2 := n1 - pw b2 t in
    let w := emax (a_w s) v in
    ({| a_m := m; a_v := v; a_w := w; a_t := t |},
     x - (h * nsqrt bc2 / bc1) * m / (nsqrt w + eps)).
  (** padam/padam_update.hpp 112-134 *)
  Definition padam_up (eps b1 b2 partial : N) (s : adam_st) (x h g : N) : adam_st * N :=
    let t := S (a_t s) in
    let m := a_m s * b1 + (n1 - b1) * g in
    let v := a_v s * b2 + (n1 - b2) * (g * g) in
    let bc1 := n1 - pw b1 t in
    let bc2 := n1 - pw b2 t in
    let w := emax (a_w s) v in
    ({| a_m := m; a_v := v; a_w := w; a_t := t |},
     x - (h * nsqrt bc2 / bc1) * m / rpw (w + eps) partial).
  (** adam/optimisticadam_update.hpp 108-130; [a_w] is the previous update g *)
  Definition optimistic_up (eps b1 b2 : N) (s : adam_st) (x h g : N) : adam_st * N :=
    let t := S (a_t s) in
    let m := a_m s * b1 + (n1 - b1) * g in
    let v := a_v s * b2 + (n1 - b2) * (g * g) in
    let mc := m / (n1 - pw b1 t) in
    let vc := v / (n1 - pw b2 t) in
    let u := mc / (nsqrt vc + eps) in
    ({| a_m := m; a_v := v; a_w := u; a_t := t |},
     x - (two * h * u - h * a_w s)).
  (** ada_belief/ada_belief_update.hpp 105-124 *)
  Definition adabelief_up (eps b1 b2 : N) (s : adam_st) (x h g : N) : adam_st * N :=
    let t := S (a_t s) in
    let m := a_m s * b1 + (n1 - b1) * g in
    let v := a_v s * b2 + ((n1 - b2) * ((g - m) * (g - m)) + eps) in
    let bc1 := n1 - pw b1 t in
    let bc2 := n1 - pw b2 t in
    ({| a_m := m; a_v := v; a_w := a_w s; a_t := t |},
     x - ((m / bc1) * h) / (nsqrt (v / bc2) + eps)).
  (** yogi/yogi_update.hpp 108-120 (no iteration counter) *)
  Definition yogi_up (eps b1 b2 : N) (s : adam_st) (x h g : N) : adam_st * N :=
    let m := a_m s * b1 + (n1 - b1) * g in
    let g2 := g * g in
    let v := a_v s - (n1 - b2) * esign (a_v s - g2) * g2 in
    ({| a_m := m; a_v := v; a_w := a_w s; a_t := a_t s |},
     x - h * m / (nsqrt v + eps)).
  (** qhadam/qhadam_update.hpp 120-145 *)
  Definition qhadam_up (eps b1 b2 v1 v2 : N) (s : adam_st) (x h g : N) : adam_st * N :=
    let t := S (a_t s) in
    let m := a_m s * b1 + (n1 - b1) * g in
    let v := a_v s * b2 + (n1 - b2) * (g * g) in
    let md := m / (n1 - pw b1 t) in
    let vd := v / (n1 - pw b2 t) in
    ({| a_m := m; a_v := v; a_w := a_w s; a_t := t |},
     x - h * (((n1 - v1) * g + v1 * md) / (nsqrt ((n1 - v2) * (g * g) + v2 * vd) + eps))).
  (** adam/nadam_update.hpp 112-144; [a_w] is cumBeta1, which starts at 1 (98) *)
  Definition nadam_init : adam_st := {| a_m := n0; a_v := n0; a_w := n1; a_t := 0 |}.
  (* 126-130: beta1T for iteration t; 0.96 is 96/100 *)
  Definition nadam_beta (b1 sd : N) (t : nat) : N :=
    b1 * (n1 - ndiv n1 two * rpw (ndiv (nofZ 96) (nofZ 100)) (nofnat t * sd)).
  Definition nadam_up (eps b1 b2 sd : N) (s : adam_st) (x h g : N) : adam_st * N :=
    let t := S (a_t s) in
    let m := a_m s * b1 + (n1 - b1) * g in
    let v := a_v s * b2 + (n1 - b2) * g * g in
    let b1T := nadam_beta b1 sd t in
    let b1T1 := nadam_beta b1 sd (S t) in
    let cum := a_w s * b1T in
    let bc1 := n1 - cum in
    let bc2 := n1 - pw b2 t in
    let bc3 := n1 - cum * b1T1 in
    ({| a_m := m; a_v := v; a_w := cum; a_t := t |},
     x - (h * (((n1 - b1T) / bc1) * g + (b1T1 / bc3) * m) * nsqrt bc2) / (nsqrt v + eps)).
  (** adam/nadamax_update.hpp 112-142 *)
  Definition nadamax_up (eps b1 b2 sd : N) (s : adam_st) (x h g : N) : adam_st * N :=
    let t := S (a_t s) in
    let m := a_m s * b1 + (n1 - b1) * g in
    let u := emax (a_v s * b2) (nabs g) in
    let b1T := nadam_beta b1 sd t in
    let b1T1 := nadam_beta b1 sd (S t) in
    let cum := a_w s * b1T in
    let bc1 := n1 - cum in
    let bc2 := n1 - cum * b1T1 in
    ({| a_m := m; a_v := u; a_w := cum; a_t := t |},
     if negb (neq bc1 n0) && negb (neq bc2 n0)
     then x - (h * (((n1 - b1T) / bc1) * g + (b1T1 / bc2) * m)) / (u + eps) else x).

  (** ** Accumulating policies *)
  (** ada_grad/ada_grad_update.hpp 94-101 *)
  Definition adagrad_up (eps : N) (q x h g : N) : N * N :=
    let q' := q + g * g in (q', x - (h * g) / (nsqrt q' + eps)).
  (** ada_sqrt/ada_sqrt_update.hpp 90-100; state: squaredGradient, iteration *)
  Definition adasqrt_up (eps : N) (s : N * nat) (x h g : N) : (N * nat) * N :=
    let t := S (snd s) in
    let q' := fst s + g * g in
    ((q', t), x - h * nsqrt (nofnat t) * g / (q' + eps)).
  (** rmsprop/rmsprop_update.hpp 101-109 *)
  Definition rmsprop_up (eps alpha : N) (q x h g : N) : N * N :=
    let q' := q * alpha + (n1 - alpha) * (g * g) in (q', x - h * g / (nsqrt q' + eps)).
  (** ada_delta/ada_delta_update.hpp 100-116; state: meanSquaredGradient, meanSquaredGradientDx *)
  Definition adadelta_up (rho eps : N) (s : N * N) (x h g : N) : (N * N) * N :=
    let q := fst s * rho + (n1 - rho) * (g * g) in
    let dx := nsqrt ((snd s + eps) / (q + eps)) * g in
    let qd := snd s * rho + (n1 - rho) * (dx * dx) in
    ((q, qd), x - h * dx).
  (** smorms3/smorms3_update.hpp 84-106; state: mem, g, g2.  The lambda given to
      transform takes its argument by reference and returns the minimum, which
      transform stores. *)
  Record smorms_st : Type := { m_mem : N; m_g : N; m_g2 : N }.
  Definition smorms_init : smorms_st := {| m_mem := n1; m_g := n0; m_g2 := n0 |}.
  Definition smorms3_up (eps : N) (s : smorms_st) (x h g : N) : smorms_st * N :=
    let r := n1 / (m_mem s + n1) in
    let gg := (n1 - r) * m_g s + r * g in
    let g2 := (n1 - r) * m_g2 s + r * (g * g) in
    let xx := emin ((gg * gg) / (g2 + eps)) h in
    ({| m_mem := m_mem s * (n1 - xx) + n1; m_g := gg; m_g2 := g2 |},
     x - g * xx / (nsqrt g2 + eps)).

  (** ada_bound/ada_bound_update.hpp 121-156 and ams_bound_update.hpp 122-160.
      [b_h0] is initialStepSize, [None] before the first update (first == true). *)
  Record bound_st : Type := { b_m : N; b_v : N; b_w : N; b_h0 : option N; b_t : nat }.
  Definition bound_init : bound_st := {| b_m := n0; b_v := n0; b_w := n0; b_h0 := None; b_t := 0 |}.
  (* arma::clamp of one element *)
  Definition eclamp (lo hi a : N) : N := if nlt a lo then lo else if nlt hi a then hi else a.
  (* 148-150: the bounds for iteration t *)
  Definition bound_lower (finalLr gamma h h0 : N) (t : nat) : N :=
    finalLr * h / h0 * (n1 - n1 / (gamma * nofnat t + n1)).
  Definition bound_upper (finalLr gamma h h0 : N) (t : nat) : N :=
    finalLr * h / h0 * (n1 + n1 / (gamma * nofnat t)).
  Definition bound_up (ams : bool) (finalLr gamma eps b1 b2 : N) (s : bound_st) (x h g : N) : bound_st * N :=
    let h0 := match b_h0 s with None => h | Some h0 => h0 end in
    let t := S (b_t s) in
    let m := b_m s * b1 + (n1 - b1) * g in
    let v := b_v s * b2 + (n1 - b2) * (g * g) in
    let bc1 := n1 - pw b1 t in
    let bc2 := n1 - pw b2 t in
    let w := emax (b_w s) v in
    let den := nsqrt (if ams then w else v) + eps in
    let rate := eclamp (bound_lower finalLr gamma h h0 t) (bound_upper finalLr gamma h h0 t)
                  ((h * nsqrt bc2 / bc1) / den) in
    ({| b_m := m; b_v := v; b_w := w; b_h0 := Some h0; b_t := t |}, x - rate * m).

  (** ftml/ftml_update.hpp 104-126.  The counter [iteration] is not initialised by
      the constructor (89-95): its initial value is a parameter. *)
  Record ftml_st : Type := { t_v : N; t_z : N; t_d : N; t_t : nat }.
  Definition ftml_init (junk : nat) : ftml_st := {| t_v := n0; t_z := n0; t_d := n0; t_t := junk |}.
  Definition ftml_up (eps b1 b2 : N) (s : ftml_st) (x h g : N) : ftml_st * N :=
    let t := S (t_t s) in
    let v := t_v s * b2 + (n1 - b2) * (g * g) in
    let bc1 := n1 - pw b1 t in
    let bc2 := n1 - pw b2 t in
    let d := bc1 / h * (nsqrt (v / bc2) + eps) in
    let sigma := (- b1) * t_d s + d in
    let z := t_z s * b1 + ((n1 - b1) * g - sigma * x) in
    ({| t_v := v; t_z := z; t_d := d; t_t := t |}, - z / d).

  (** demon_sgd/demon_sgd_update.hpp 102-119 and demon_adam/demon_adam_update.hpp
      124-143; the counter t lives in the DemonSGDUpdate object. *)
  Definition demon_beta (betaInit : N) (T t : nat) : N :=
    let decayRate := if (0 <? t)%nat then n1 - nofnat t / nofnat T else n1 in
    let betaDecay := betaInit * decayRate in
    betaDecay / ((n1 - betaInit) + betaDecay).
  Definition demon_up {S : Type} (inner : S -> N -> N -> N -> S * N) (betaInit : N) (T : nat)
      (s : S * nat) (x h g : N) : (S * nat) * N :=
    let '(s', x') := inner (fst s) (x * demon_beta betaInit T (snd s)) h g in
    ((s', Datatypes.S (snd s)), x').
  (* DemonSGD: the plain step (115) *)
  Definition demon_sgd_up := demon_up (S := unit) vanilla_up.
End Updates.

(** wn_grad/wn_grad_update.hpp 82-89, on vectors; state: b (in the WNGradUpdate
    object); std::pow(norm, 2) is the sum of squares up to rounding and is modelled
    as the product norm * norm, std::pow(stepSize, 2.0) as stepSize * stepSize. *)
Definition wngrad_up {N : Num} (norm : list N -> N) (b : N) (x : list N) (h : N) (g : list N) : N * list N :=
  let b' := nadd b (nmul (ndiv (nmul h h) b) (nmul (norm g) (norm g))) in
  (b', vsub x (map (fun gi => ndiv (nmul h gi) b') g)).
Fixpoint wn_run {N : Num} (norm : list N -> N) (b : N) (x : list N) (l : list (N * list N)) : N * list N :=
  match l with
  | [] => (b, x)
  | (h, g) :: r => let '(b', x') := wngrad_up norm b x h g in wn_run norm b' x' r
  end.

(** The parameters of AdaBoundUpdate / AMSBoundUpdate and their accessors:
    ada_bound_update.hpp 65-72 and ams_bound_update.hpp 65-72. *)
Record bound_params {N : Num} : Type := { bp_finalLr : N; bp_gamma : N }.
Definition get_FinalLr {N : Num} (p : bound_params) : N := bp_finalLr p.
Definition set_FinalLr {N : Num} (p : bound_params) (v : N) : bound_params :=
  {| bp_finalLr := v; bp_gamma := bp_gamma p |}.
Definition get_Gamma {N : Num} (p : bound_params) : N := bp_finalLr p.            (* 70 *)
Definition set_Gamma {N : Num} (p : bound_params) (v : N) : bound_params :=       (* 72 *)
  {| bp_finalLr := v; bp_gamma := bp_gamma p |}.
