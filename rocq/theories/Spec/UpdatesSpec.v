(** Vocabulary for the update-policy properties, over the real numbers.

    A history is a list of (stepSize, gradient) pairs, oldest first, of one
    coordinate. *)
From Coq Require Import List Reals.
Import ListNotations.
Local Open Scope R_scope.

(** Weighted sum of step * gradient; the weight may depend on the number of later
    updates. *)
Fixpoint weighted (w : nat -> R) (l : list (R * R)) : R :=
  match l with
  | [] => 0
  | (h, g) :: r => w (length r) * (h * g) + weighted w r
  end.
(** 1 + mu + ... + mu^k *)
Definition geom (mu : R) (k : nat) : R := sum_f_R0 (pow mu) k.

(** Discounted sum h_i + mu h_(i+1) + mu^2 h_(i+2) + ... of the step sizes. *)
Fixpoint discounted (mu : R) (hs : list R) : R :=
  match hs with [] => 0 | h :: r => h + mu * discounted mu r end.

(** Quasi-hyperbolic weights: each gradient enters directly with weight
    (1 - nu) h_i and through the momentum buffer with nu (1 - mu) times the
    discounted sum of its own and all later step sizes. *)
Fixpoint qh_sum (mu nu : R) (l : list (R * R)) : R :=
  match l with
  | [] => 0
  | (h, g) :: r =>
      ((1 - nu) * h + nu * (1 - mu) * discounted mu (h :: map fst r)) * g + qh_sum mu nu r
  end.

(** Exponential moving average started at 0: the gradient seen k updates ago has
    weight (1 - beta) beta^k. *)
Fixpoint ema (beta : R) (vs : list R) : R :=
  match vs with
  | [] => 0
  | v :: r => (1 - beta) * beta ^ length r * v + ema beta r
  end.

(** The gradients of a history and their squares and absolute values. *)
Definition gs_of (l : list (R * R)) : list R := map snd l.
Definition sq (x : R) : R := x * x.
(** The largest element of a list of non-negative numbers (0 if empty). *)
Fixpoint rmax (l : list R) : R := match l with [] => 0 | x :: r => Rmax x (rmax r) end.
(** AdaMax' infinity norm: the largest |g| discounted by beta^age. *)
Fixpoint discmax (beta : R) (vs : list R) : R :=
  match vs with [] => 0 | v :: r => Rmax (beta ^ length r * Rabs v) (discmax beta r) end.
(** All non-empty prefixes of a history. *)
Definition prefixes {A} (l : list A) : list (list A) :=
  map (fun k => firstn (S k) l) (seq 0 (length l)).

(** Moments of a history: averages of the gradients and of their squares, the bias
    correction 1 - beta^n, and the largest second moment seen so far. *)
Definition M1 (b : R) (l : list (R * R)) : R := ema b (gs_of l).
Definition M2 (b : R) (l : list (R * R)) : R := ema b (map sq (gs_of l)).
Definition corr (b : R) (l : list (R * R)) : R := 1 - b ^ length l.
Definition M2max (b : R) (l : list (R * R)) : R := rmax (map (M2 b) (prefixes l)).
(** AdaBelief: the average of (gradient - first moment)^2 over the history, each
    term increased by epsilon/(1 - beta2). *)
Fixpoint belief_rev (eps b1 b2 : R) (rl : list (R * R)) : R :=      (* newest first *)
  match rl with
  | [] => 0
  | (h, g) :: r => b2 * belief_rev eps b1 b2 r + (1 - b2) * sq (g - M1 b1 (rev rl)) + eps
  end.
Definition belief (eps b1 b2 : R) (l : list (R * R)) : R := belief_rev eps b1 b2 (rev l).
(** f(1) * ... * f(n) *)
Fixpoint prod1 (f : nat -> R) (n : nat) : R :=
  match n with O => 1 | S k => prod1 f k * f (S k) end.

(** The sum of the squared gradients. *)
Definition sumsq (l : list (R * R)) : R := fold_right (fun p a => snd p * snd p + a) 0 l.
(** AdaDelta: the directions of all updates so far, oldest first, computed from the
    history (newest first): each is the gradient times the ratio of the root mean
    square of the previous directions to that of the gradients. *)
Fixpoint delta_dirs (eps rho : R) (rl : list (R * R)) : list R :=
  match rl with
  | [] => []
  | (h, g) :: r =>
      let past := delta_dirs eps rho r in
      past ++ [sqrt ((ema rho (map sq past) + eps) / (M2 rho (rev rl) + eps)) * g]
  end.
(** The step size of the first update. *)
Definition first_step (l : list (R * R)) : R := match l with [] => 0 | (h, _) :: _ => h end.

(** FTML.  The curvature d_t of the model objective after the history l, and the
    objective itself (history newest first): the discounted sum of the linearised
    losses g_i y, each with a proximal term (d_i - b1 d_(i-1))/2 |y - x_(i-1)|^2,
    where x_(i-1) is the iterate before update i (Zheng and Kwok, 2017). *)
Definition ftml_d (eps b1 b2 : R) (l : list (R * R)) (h : R) : R :=
  corr b1 l / h * (sqrt (M2 b2 l / corr b2 l) + eps).
Fixpoint ftml_leader_obj (eps b1 b2 : R) (x : list (R * R) -> R) (rl : list (R * R)) (y : R) : R :=
  match rl with
  | [] => 0
  | (h, g) :: r =>
      let d := ftml_d eps b1 b2 (rev rl) h in
      let dp := match r with [] => 0 | (hp, _) :: _ => ftml_d eps b1 b2 (rev r) hp end in
      b1 * ftml_leader_obj eps b1 b2 x r y + (1 - b1) * (g * y)
        + (d - b1 * dp) / 2 * sq (y - x (rev r))
  end.
