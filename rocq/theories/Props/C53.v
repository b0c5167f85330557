(** C53: SVRG. *)
From Coq Require Import List Arith Bool ZArith Reals Lia.
From Verif.Base Require Import Num Vec Size Instances.
From Verif.Model Require Import Common VarRed SVRG.
From Verif.Spec Require Import SgdSpec VarRedSpec VarRedReal LpSpec.
From Verif.Proof Require Import VarRedProof SVRGProof SVRGReal.
Import ListNotations.
Local Open Scope nat_scope.

(** For every function, decay policy, callback and starting point: a call that returns has made
    rounds as [svrg_report] says.  Each evaluates the objective and the average gradient at a
    snapshot over batches that contain every function once, then takes steps
    x - eta * (full + (g(x) - g(x0)) / c) over batches that run cyclically through the functions,
    both gradients on the same batch in the same order, until innerIterations functions were
    visited; at most maxIterations rounds.  All evaluations are of functions that exist, the
    values are those of the function, and no step follows a request to stop. *)
Theorem C53_svrg : forall (N : Num) (D : Type) (f : VFun N) cb b maxIterations (tol : N) shuffle exact
    (dp : D -> list N -> list N -> list N -> nat -> N -> D * N) fuel inner d eta x r,
  0 < b -> 0 < vf_num f ->
  svrg f cb b maxIterations tol shuffle exact dp fuel inner d eta x = Ret r ->
  svrg_report f cb b maxIterations tol shuffle exact dp inner d eta x (vr_val r) (vr_x r) (vr_tr r) (vr_conv r)
    (fst (fst (vr_st r))) (snd (fst (vr_st r))) (snd (vr_st r)) /\
  Forall (in_range (vf_num f) b) (vr_tr r) /\ computed f cb (vr_tr r) /\ honoured cb (vr_tr r).
Proof. intros. eapply svrg_ok; eassumption. Qed.
Print Assumptions C53_svrg.

(** It returns (with maxIterations = 0 after 2^64 - 1 rounds if nothing else ends it) ... *)
Theorem C53_returns : forall (N : Num) (D : Type) (f : VFun N) cb b maxIterations (tol : N) shuffle exact
    (dp : D -> list N -> list N -> list N -> nat -> N -> D * N) fuel inner d eta x,
  0 < b -> 0 < vf_num f -> limit maxIterations < fuel -> vf_num f <= fuel ->
  (match inner with O => vf_num f | _ => inner end) < fuel ->
  exists r, svrg f cb b maxIterations tol shuffle exact dp fuel inner d eta x = Ret r.
Proof. intros. apply svrg_returns; auto. Qed.
Print Assumptions C53_returns.
(** ... unless the batch size is 0: then the number of batches divides by it. *)
Theorem C53_zero_batch_refuted : forall (N : Num) (D : Type) (f : VFun N) cb maxIterations (tol : N) shuffle exact
    (dp : D -> list N -> list N -> list N -> nat -> N -> D * N) fuel inner d eta x,
  svrg f cb 0 maxIterations tol shuffle exact dp fuel inner d eta x = Bad.
Proof. reflexivity. Qed.
Print Assumptions C53_zero_batch_refuted.

(** Over the real numbers, for a function whose batch gradients are the sums of the gradients of
    their functions: what the first passes add up is the average gradient ... *)
Theorem C53_average : forall mx p n b (G : list (RNum mx) -> nat -> nat -> list (RNum mx)) x q0 l j,
  additive mx p n G -> 0 < n -> split_of n b (q0 :: l) -> j < p ->
  nth j (over_n (N := RNum mx) n (vtotal (map (fun q => G x (fst q) (snd q)) (q0 :: l)))) 0%R = avg mx n G x j.
Proof. intros. edestruct average as (_ & E); [..|exact E]; eassumption. Qed.
Print Assumptions C53_average.
(** ... and the update is unbiased: over the batches of a pass, weighted by their sizes, the mean
    of the next point is that of gradient descent on the average of the functions. *)
Theorem C53_unbiased : forall mx p n b (G : list (RNum mx) -> nat -> nat -> list (RNum mx)) (x x0 full : list (RNum mx)) (eta : R) l j,
  additive mx p n G -> 0 < n -> length x = p -> length full = p -> split_of n b l -> j < p -> nth j full 0%R = avg mx n G x0 j ->
  sumR (map (fun q => INR (snd q) / INR n *
     nth j (svrg_update (N := RNum mx) x full (G x (fst q) (snd q)) (G x0 (fst q) (snd q)) (snd q) eta) 0)%R l)
  = (nth j x 0 - eta * avg mx n G x j)%R.
Proof. intros. eapply unbiased; eassumption. Qed.
Print Assumptions C53_unbiased.

(** The Barzilai-Borwein policy keeps the step size in its first round and never chooses one above
    the configured maximum after that. *)
Theorem C53_bb : forall (N : Num) (L : OrdLaws N) norm (eps mxs : N) d x x0 full nb eta,
  (d = [] -> snd (bb_update norm eps mxs d x x0 full nb eta) = eta) /\
  (d <> [] -> nlt mxs (snd (bb_update norm eps mxs d x x0 full nb eta)) = false) /\
  fst (bb_update norm eps mxs d x x0 full nb eta) = full.
Proof.
  intros. split; [intros ->; reflexivity|]. split; [apply bb_bounded; exact L|]. destruct d; reflexivity.
Qed.
Print Assumptions C53_bb.

(** innerIterations is not a hard limit: the last batch may exceed it (innerIterations = 1 and
    batches of two: two functions are visited). *)
Theorem C53_inner_limit_refuted : exists r, zrun zquiet false 1 1 = Ret r /\
  exists h x0 g0, vr_tr r = h ++ [VGrad [1%Z] 0 2 [12%Z] [12%Z]; VGrad x0 0 2 g0 g0; VStep [(-5)%Z] 1%Z; VEnd [(-5)%Z]].
Proof. exact z_over. Qed.
Print Assumptions C53_inner_limit_refuted.

(** Without exactObjective the value is that of the last snapshot, not of the final point. *)
Theorem C53_value_refuted : exists r, zrun zquiet false 2 0 = Ret r /\ vr_conv r = false /\
  vr_val r <> fold_left Z.add (map (fun _ => zval (vr_x r) 1) (seq 0 3)) 0%Z.
Proof. destruct z_plain as (r & H & _ & X & V & C & _). exists r. rewrite X, V, C. repeat split; auto. discriminate. Qed.
Print Assumptions C53_value_refuted.

Example C53_ex : exists r, zrun zquiet false 2 0 = Ret r /\ vsteps (vr_tr r) = [[-5]; [25]; [-125]; [625]]%Z /\
  vr_x r = [625%Z] /\ vr_val r = (9 * 25 * 25)%Z /\ vr_conv r = false /\ fst (fst (vr_st r)) = 3.
Proof. exact z_plain. Qed.
Example C53_ex_exact : exists r, zrun zquiet true 2 0 = Ret r /\ vr_x r = [625%Z] /\ vr_val r = (9 * 625 * 625)%Z.
Proof. exact z_exact. Qed.
Example C53_ex_stop : exists r, zrun zeager false 5 0 = Ret r /\ vsteps (vr_tr r) = [[-5%Z]]%Z.
Proof. exact z_stop. Qed.
(** gradients c * x (functions x^2/2) are additive *)
Example C53_ex_additive : additive 0%R 1 3 (fun x i c => [(INR c * nth 0 x 0)%R]).
Proof.
  intros x i c _ _. split; [reflexivity|]. intros j Hj. assert (j = 0) by lia. subst j. cbn [nth].
  induction c as [|c IH] in i |- *; [cbn; ring|]. cbn [seq map sumR]. rewrite <- IH, S_INR. cbn. ring.
Qed.
Example C53_ex_split : split_of 3 2 [(0, 2); (2, 1)].
Proof. split; [reflexivity|repeat constructor]. Qed.
