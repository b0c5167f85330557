(** Model of the distribution CMA-ES samples from: the weights and constants, the
    sampling of the steps, the evolution paths, the covariance matrix and the step size.
    Files: /repo/include/ensmallen_bits/cmaes/cmaes_impl.hpp and active_cmaes_impl.hpp.
    With these [w], [sample] and [adapt] the loop of Model/CMAES.v is the whole of
    CMAES::Optimize and ActiveCMAES::Optimize for a row or column vector.

    Simplifications: a row vector and a column vector are both the list of their
    elements; matrices are functions of two indices below [n]; products are evaluated
    from the right ([eigvec * diagmat(1 / eigval) * eigvec.t() * step] as
    eigvec * (diagmat * (eigvec.t() * step))), sums from the left; std::log, std::exp,
    arma::chol, arma::eig_sym and arma::randn are arguments. *)
From Coq Require Import List Arith Bool.
From Verif.Base Require Import Num Size Vec.
From Verif.Model Require Import Common CMAES LRSDP.
Import ListNotations.

Section Adapt.
  Context {N : Num}.
  Notation vec := (list N).
  Notation mat := (nat -> nat -> N).
  Variables (lg ex : N -> N).                     (* std::log, std::exp *)
  Variable eps : N.                               (* numeric_limits<ElemType>::epsilon() *)
  Variable chol : mat -> option mat.              (* arma::chol(.., "lower") *)
  Variable eig : mat -> vec * mat.                (* arma::eig_sym: values, vectors (columns) *)
  Variable z : nat -> nat -> vec.                 (* randn: generation, member *)
  Variables (n lambda : nat).                     (* iterate.n_elem, the population size *)
  Local Open Scope num_scope.

  Definition el (v : vec) (i : nat) : N := nth i v n0.
  Definition two : N := n1 + n1.
  Definition nN : N := nofnat n.
  Definition dec (a b : nat) : N := nofnat a / nofnat b.       (* a decimal literal *)
  Fixpoint npow (x : N) (k : nat) : N := match k with O => n1 | S k => x * npow x k end.

  Definition eyem : mat := fun i j => if Nat.eqb i j then n1 else n0.
  Definition zerom : mat := fun _ _ => n0.
  Definition mvec (A : mat) (v : vec) : vec := map (fun i => msum n (fun k => A i k * el v k)) (seq 0 n).
  Definition outer (v : vec) : mat := fun i j => el v i * el v j.

  (** cmaes_impl.hpp 96-100.  lambda / 2 is an integer division. *)
  Definition mu : nat := lambda / 2.
  Definition raw_weights : vec :=
    map (fun j => lg (nofnat mu + n1 / two) - lg (nofnat j + n1)) (seq 0 mu).
  Definition weights : vec := map (fun a => a / vsum raw_weights) raw_weights.
  (** 103 *)
  Definition mu_eff : N := n1 / vsum (map (fun a => a * a) weights).
  (** 112-116 *)
  Definition c_s : N := (mu_eff + two) / (nN + mu_eff + nofnat 5).
  Definition d_s : N :=
    let a := nsqrt ((mu_eff - n1) / (nN + n1)) - n1 in
    n1 + c_s + two * (if nlt a n0 then n0 else a).
  Definition enn : N := nsqrt nN * (n1 - n1 / (nofnat 4 * nN) + n1 / (nofnat 21 * (nN * nN))).
  (** 120-128 *)
  Definition c_c : N := (nofnat 4 + mu_eff / nN) / (nofnat 4 + nN + two * mu_eff / nN).
  Definition h_s : N := (dec 14 10 + two / (nN + n1)) * enn.
  Definition c_1 : N := let a := nN + dec 13 10 in two / (a * a + mu_eff).
  Definition c_mu : N :=
    let a := nN + two in
    let b := two * (mu_eff - two + n1 / mu_eff) / (a * a + two * mu_eff / two) in
    if nlt b (n1 - c_1) then b else n1 - c_1.                     (* std::min(1 - c1, b) *)

  (** what the loop carries from one generation to the next besides sigma *)
  Record dist : Type := { d_C : mat; d_ps : vec; d_pc : vec }.
  (** 165-170 *)
  Definition dist0 : dist := {| d_C := eyem; d_ps := repeat n0 n; d_pc := repeat n0 n |}.

  (** 199-200: C[idx0] is changed in place until its decomposition succeeds; the
      matrix and its factor *)
  Fixpoint settle (fuel : nat) (C : mat) : option (mat * mat) :=
    match fuel with
    | O => None
    | S k => match chol C with
             | Some L => Some (C, L)
             | None => settle k (fun i j => if Nat.eqb i j then C i j + eps else C i j)
             end
    end.
  Variable fuel : nat.

  (** 204-214: the steps of generation i *)
  Definition sample (i : nat) (a : dist) : option (list vec) :=
    match settle fuel (d_C a) with
    | Some (_, L) => Some (map (fun j => mvec L (z i j)) (seq 0 lambda))
    | None => None
    end.
  (** C[idx0] as the rest of the generation sees it *)
  Definition settled (C : mat) : mat := match settle fuel C with Some (C', _) => C' | None => C end.

  (** 253-267: eigvec * diagmat(1 / eigval) * eigvec.t() * step *)
  Definition whiten (C : mat) (step : vec) : vec :=
    let '(l, V) := eig C in
    let y := map (fun k => n1 / el l k * msum n (fun i => V i k * el step i)) (seq 0 n) in
    mvec V y.
  Definition norm2 (v : vec) : N := nsqrt (msum n (fun i => el v i * el v i)).
  Definition next_ps (cs mueff : N) (C : mat) (ps step : vec) : vec :=
    vadd (vscale (n1 - cs) ps) (vscale (nsqrt (cs * (two - cs) * mueff)) (whiten C step)).
  Definition next_sigma (cs ds sigma : N) (ps : vec) : N :=
    sigma * ex (cs / ds * (norm2 ps / enn - n1)).

  (** 330-345 (active: 311-326): the repair.  find(eigval < 0, 1) is the place of the
      first negative eigenvalue. *)
  Fixpoint first_neg (k : nat) (l : vec) : option nat :=
    match l with
    | [] => None
    | a :: r => if nlt a n0 then Some k else first_neg (S k) r
    end.
  Definition repair (C : mat) : mat :=
    let '(l, V) := eig C in
    match first_neg 0 l with
    | None => C
    | Some O => zerom
    | Some k => fun i j => msum k (fun m => V i m * el l m * V j m)
    end.

  (** 281-311: the path and the rank-one part *)
  Definition slow (i : nat) (psn : N) : bool :=
    nlt (psn / nsqrt (n1 - npow (n1 - c_s) (2 * i))) h_s.
  Definition next_pc (s : bool) (pc step : vec) : vec :=
    if s then vadd (vscale (n1 - c_c) pc) (vscale (nsqrt (c_c * (two - c_c) * mu_eff)) step)
    else vscale (n1 - c_c) pc.
  Definition rank_one (s : bool) (C : mat) (pc : vec) : mat := fun i j =>
    (n1 - c_1 - c_mu) * C i j +
    c_1 * (if s then outer pc i j else outer pc i j + c_c * (two - c_c) * C i j).
  (** 313-328: the steps of the parents, best first *)
  Definition add_steps (c : N) (C : mat) (steps : list vec) (wi : list (N * nat)) : mat :=
    fold_left (fun C '(a, k) => fun i j => C i j + c * a * el (nth k steps []) i * el (nth k steps []) j) wi C.

  (** 252-345 *)
  Definition adapt (i : nat) (a : dist) (sigma : N) (steps : list vec) (idx : list nat) (step : vec) : dist * N :=
    let C := settled (d_C a) in
    let ps := next_ps c_s mu_eff C (d_ps a) step in
    let s := slow i (norm2 ps) in
    let pc := next_pc s (d_pc a) step in
    ({| d_C := repair (add_steps c_mu (rank_one s C pc) steps (combine weights idx)); d_ps := ps; d_pc := pc |},
     next_sigma c_s d_s sigma ps).

  (** active_cmaes_impl.hpp 98-122.  [step = w * pStep[idx(0)]] (223) is evaluated even
      without parents (lambda < 4), so the list of weights has at least one element. *)
  Definition amu : nat := lambda / 4.
  Definition aw : N := n1 / nofnat amu.
  Definition aweights : vec := repeat aw (Nat.max 1 amu).
  Definition ac_s : N := nofnat 4 / (nN + nofnat 4).
  Definition ad_s : N := n1 + ac_s.
  Definition c_cov : N := let a := nN + nsqrt two in two / (a * a).
  Definition beta : N :=
    let a := nN + nofnat 12 in (nofnat 4 * nofnat amu - two) / (a * a + nofnat 4 * nofnat amu).

  (** 245-326; cc = cs *)
  Definition active_C (C : mat) (pc : vec) (steps : list vec) (idx : list nat) : mat :=
    let C1 := fun i j => (n1 - c_cov) * C i j + c_cov * outer pc i j in
    let C2 := fold_left (fun C k => fun i j => C i j + beta * aw * el (nth k steps []) i * el (nth k steps []) j)
                (firstn amu idx) C1 in
    fold_left (fun C k => fun i j => C i j - beta * aw * el (nth k steps []) i * el (nth k steps []) j)
                (skipn (lambda - amu) idx) C2.
  Definition active_adapt (i : nat) (a : dist) (sigma : N) (steps : list vec) (idx : list nat) (step : vec) : dist * N :=
    let C := settled (d_C a) in
    let ps := next_ps ac_s (nofnat amu) C (d_ps a) step in
    let pc := vadd (vscale (n1 - ac_s) (d_pc a)) (vscale (nsqrt (ac_s * (two - ac_s) * nofnat amu)) step) in
    ({| d_C := repair (active_C C pc steps idx); d_ps := ps; d_pc := pc |}, next_sigma ac_s ad_s sigma ps).

  (** 187: generations without improvement before giving up *)
  Definition patience_of : nat := 10 + 30 * n / lambda + 1.
End Adapt.

(** CMAES::Optimize and ActiveCMAES::Optimize; [sigma0] is stepSize or, if that is 0,
    InitialStepSize() of the transformation policy (107-110) *)
Definition cmaes {N : Num} lg ex eps chol eig z n lambda fuel maxIterations tolerance big feval ic select tf sort_index cb (sigma0 : N) x :=
  cma_optimize maxIterations lambda (patience_of n lambda) tolerance big feval ic select tf (weights lg lambda) dist
    (sample eps chol z n lambda fuel) (adapt lg ex eps chol eig n lambda fuel) sort_index cb (dist0 n) sigma0 x.
Definition active_cmaes {N : Num} ex eps chol eig z n lambda fuel maxIterations tolerance big feval ic select tf sort_index cb (sigma0 : N) x :=
  cma_optimize maxIterations lambda (patience_of n lambda) tolerance big feval ic select tf (aweights lambda) dist
    (sample eps chol z n lambda fuel) (active_adapt ex eps chol eig n lambda fuel) sort_index cb (dist0 n) sigma0 x.
