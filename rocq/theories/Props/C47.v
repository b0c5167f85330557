(** C47: the primal-dual solver for semidefinite programs. *)
From Coq Require Import List Arith Bool ZArith QArith Reals Lra Lia.
From Verif.Base Require Import Num Vec Instances QInst.
From Verif.Model Require Import Common Svec LRSDP PrimalDual.
From Verif.Spec Require Import LpSpec SvecSpec PrimalDualSpec.
From Verif.Proof Require Import LRSDPProof PrimalDualProof PrimalDualMain PrimalDualRun PrimalDualTrace PrimalDualEx.
Import ListNotations.
Local Open Scope R_scope.

(** Optimize() throws at the start exactly when a shape is wrong or a Cholesky factorisation
    of the primal or dual matrix fails. *)
Theorem C47_validation {N : Num} (sqrt2 half : N) p chol inv eigmax syl lsolve normv normF recip tau t1 t2 t3
    maxIterations cb chol_upper fuel X ys yd Z :
  (exists k, pd_optimize sqrt2 half p chol inv eigmax syl lsolve normv normF recip tau t1 t2 t3 maxIterations cb chol_upper fuel X ys yd Z = inl k)
  <-> ~ (a_rows X = pd_n p /\ a_cols X = pd_n p /\ chol_upper (a_mat X) <> None /\
         v_cols ys = 1%nat /\ v_rows ys = length (pd_sB p) /\ v_cols yd = 1%nat /\ v_rows yd = length (pd_dB p) /\
         a_rows Z = pd_n p /\ a_cols Z = pd_n p /\ chol_upper (a_mat Z) <> None).
Proof.
  unfold pd_optimize, validate.
  destruct (Nat.eqb_spec (a_rows X) (pd_n p)); cbn [negb orb]; [|split; [tauto|eauto]].
  destruct (Nat.eqb_spec (a_cols X) (pd_n p)); cbn [negb orb]; [|split; [tauto|eauto]].
  destruct (chol_upper (a_mat X)) as [c1|]; [|split; [tauto|eauto]].
  destruct (Nat.eqb_spec (v_cols ys) 1); cbn [negb orb]; [|split; [tauto|eauto]].
  destruct (Nat.eqb_spec (v_rows ys) (length (pd_sB p))); cbn [negb orb]; [|split; [tauto|eauto]].
  destruct (Nat.eqb_spec (v_cols yd) 1); cbn [negb orb]; [|split; [tauto|eauto]].
  destruct (Nat.eqb_spec (v_rows yd) (length (pd_dB p))); cbn [negb orb]; [|split; [tauto|eauto]].
  destruct (Nat.eqb_spec (a_rows Z) (pd_n p)); cbn [negb orb]; [|split; [tauto|eauto]].
  destruct (Nat.eqb_spec (a_cols Z) (pd_n p)); cbn [negb orb]; [|split; [tauto|eauto]].
  destruct (chol_upper (a_mat Z)) as [c2|]; [|split; [tauto|eauto]].
  split; [intros (k & H); discriminate|]. intros H. exfalso. apply H. repeat split; auto; discriminate.
Qed.

(** A search direction solves the linearised optimality conditions. *)
Theorem C47_direction mx (p : program (N := RNum mx)) syl lsolve (s : pstate (N := RNum mx)) (Rc dX dZ : Mt) (dy : list R) :
  syl_ok (pd_n p) syl -> lsolve_ok lsolve ->
  (forall A, In A (pd_sA p ++ pd_dA p) -> symmetric (pd_n p) A) -> symmetric (pd_n p) (pd_C p) ->
  symmetric (pd_n p) (ps_X s) -> symmetric (pd_n p) (ps_Z s) -> pos_def (pd_n p) (ps_Z s) -> symmetric (pd_n p) Rc ->
  length (pd_sB p ++ pd_dB p) = length (pd_sA p ++ pd_dA p) ->
  direction (N := RNum mx) (sqrt 2) (/ 2) p syl lsolve s Rc = Some (dX, dy, dZ) ->
  newton_direction (pd_n p) (pd_C p) (pd_sA p ++ pd_dA p) (pd_sB p ++ pd_dB p) (ps_X s) (ps_ys s ++ ps_yd s) (ps_Z s) Rc dX dy dZ.
Proof. intros Hs Hl HA HC. exact (direction_ok mx p syl lsolve Hs Hl HA HC s Rc dX dZ dy). Qed.

(** The step lengths lie in (0, 1] and the matrix stays positive definite, for 0 < tau < 1. *)
Theorem C47_step_length mx (p : program (N := RNum mx)) chol inv eigmax recip tau (a dA : Mt) (t : R) :
  chol_ok (pd_n p) chol -> inv_ok (pd_n p) inv -> eig_ok (pd_n p) eigmax -> 0 < tau < 1 -> recip_ok tau recip ->
  symmetric (pd_n p) dA -> alpha (N := RNum mx) p chol inv eigmax recip tau a dA = Some t ->
  0 < t <= 1 /\ pos_def (pd_n p) a /\ pos_def (pd_n p) (fun i j => a i j + t * dA i j).
Proof. intros Hc Hi He Ht Hr. exact (alpha_ok mx p chol inv eigmax recip Hc Hi He tau Ht Hr a dA t). Qed.

(** tau = 1 is not safe. *)
Theorem C47_tau_one_refuted mx (p : program (N := RNum mx)) : pd_n p = 1%nat ->
  chol_ok 1 chol1 /\ inv_ok 1 inv1 /\ eig_ok 1 eig1 /\ recip_ok 1 (recip1 1) /\
  alpha (N := RNum mx) p chol1 inv1 eig1 (recip1 1) 1 (fun _ _ => 1) (fun _ _ => -1) = Some 1 /\
  ~ pos_def 1 (fun i j => 1 + 1 * -1).
Proof.
  intros E. destruct (oracles1 1 ltac:(lra)) as (A1 & A2 & A3 & _ & _ & A4). repeat (split; [assumption|]).
  split; [exact (tau_one mx p E)|]. intros H. assert (P : 0 < quad 1 (fun i j => 1 + 1 * -1) (fun _ => 1)) by (apply H; exists 0%nat; split; [lia|lra]).
  unfold quad in P. rewrite !sum1 in P. lra.
Qed.

(** A whole run from symmetric arguments: the matrices returned are symmetric and positive
    definite; the primal residuals b_k - <A_k, X> are those of the start times one number in
    [0, 1], and so is the dual residual C - Z - sum y_k A_k; the value returned is <C, X>
    unless no step was taken, when it is 0; and on convergence the three tolerances hold. *)
Theorem C47_run mx (p : program (N := RNum mx)) (chol inv : Mt -> option Mt) (eigmax : Mt -> option R) (syl : Mt -> Mt -> Mt -> Mt)
    (lsolve : list (list R) -> list R -> option (list R)) (normv : list R -> R) (normF : Mt -> R) (recip : R -> R) (tau : R)
    (t1 t2 t3 : R) maxIterations cb (chol_upper : Mt -> option Mt) fuel (X : marg (N := RNum mx)) (ys yd : varg (N := RNum mx)) (Z : marg (N := RNum mx)) r :
  chol_ok (pd_n p) chol -> inv_ok (pd_n p) inv -> eig_ok (pd_n p) eigmax -> syl_ok (pd_n p) syl -> lsolve_ok lsolve ->
  (forall a, chol_upper a <> None -> pos_def (pd_n p) a) ->
  0 < tau < 1 -> recip_ok tau recip ->
  (forall A, In A (pd_sA p ++ pd_dA p) -> symmetric (pd_n p) A) -> symmetric (pd_n p) (pd_C p) ->
  length (pd_sB p) = length (pd_sA p) -> length (pd_dB p) = length (pd_dA p) ->
  symmetric (pd_n p) (a_mat X) -> symmetric (pd_n p) (a_mat Z) ->
  length (v_vec ys) = v_rows ys -> length (v_vec yd) = v_rows yd ->
  pd_optimize (N := RNum mx) (sqrt 2) (/ 2) p chol inv eigmax syl lsolve normv normF recip tau t1 t2 t3 maxIterations cb
    chol_upper fuel X ys yd Z = inr (Ret r) ->
  let X1 := ps_X (r_state r) in let Z1 := ps_Z (r_state r) in
  symmetric (pd_n p) X1 /\ pos_def (pd_n p) X1 /\ symmetric (pd_n p) Z1 /\ pos_def (pd_n p) Z1 /\
  (exists c, 0 <= c <= 1 /\ forall k A b, nth_error (pd_sA p ++ pd_dA p) k = Some A -> nth_error (pd_sB p ++ pd_dB p) k = Some b ->
     b - frob (pd_n p) A X1 = c * (b - frob (pd_n p) A (a_mat X))) /\
  (exists c, 0 <= c <= 1 /\ meq (pd_n p)
     (fun i j => pd_C p i j - Z1 i j - combo (ps_ys (r_state r) ++ ps_yd (r_state r)) (pd_sA p ++ pd_dA p) i j)
     (fun i j => c * (pd_C p i j - a_mat Z i j - combo (v_vec ys ++ v_vec yd) (pd_sA p ++ pd_dA p) i j))) /\
  (ps_obj (r_state r) = frob (pd_n p) (pd_C p) X1 \/ ps_obj (r_state r) = 0 /\ X1 = a_mat X) /\
  (r_exit r = XConverged -> ps_obj (r_state r) = frob (pd_n p) (pd_C p) X1 /\
     let rs := normv (map2 Rminus (pd_sB p) (map (fun A => frob (pd_n p) A X1) (pd_sA p))) in
     let rd := normv (map2 Rminus (pd_dB p) (map (fun A => frob (pd_n p) A X1) (pd_dA p))) in
     normF (matmul (pd_n p) X1 Z1) <= t1 /\ sqrt (rs * rs + rd * rd) <= t2 /\
     normF (fun i j => Z1 i j - pd_C p i j + combo (ps_ys (r_state r) ++ ps_yd (r_state r)) (pd_sA p ++ pd_dA p) i j) <= t3).
Proof.
  intros Hc Hi He Hs Hl Hu Ht Hr HA HC HB1 HB2 SX SZ Ly1 Ly2 E.
  pose proof (C47_validation (N := RNum mx) (sqrt 2) (/ 2) p chol inv eigmax syl lsolve normv normF recip tau t1 t2 t3
    maxIterations cb chol_upper fuel X ys yd Z) as V.
  assert (OK : a_rows X = pd_n p /\ a_cols X = pd_n p /\ chol_upper (a_mat X) <> None /\
         v_cols ys = 1%nat /\ v_rows ys = length (pd_sB p) /\ v_cols yd = 1%nat /\ v_rows yd = length (pd_dB p) /\
         a_rows Z = pd_n p /\ a_cols Z = pd_n p /\ chol_upper (a_mat Z) <> None).
  { apply Classical_Prop.NNPP. intros C. apply V in C. destruct C as (k & C). rewrite E in C. discriminate. }
  destruct OK as (_ & _ & C1 & _ & R1 & _ & R2 & _ & _ & C2).
  unfold pd_optimize in E. destruct (validate _ _ _ _ _ _); [discriminate|]. injection E as E.
  pose (s0 := {| ps_X := a_mat X; ps_ys := v_vec ys; ps_yd := v_vec yd; ps_Z := a_mat Z; ps_obj := n0 (n := RNum mx) |}).
  assert (I0 : inv_state mx p s0).
  { split; [exact SX|]. split; [exact (Hu _ C1)|]. split; [exact SZ|]. split; [exact (Hu _ C2)|].
    split; [exact (eq_trans Ly1 (eq_trans R1 HB1))|exact (eq_trans Ly2 (eq_trans R2 HB2))]. }
  destruct (loop_ok mx p chol inv eigmax recip Hc Hi He tau Ht Hr syl lsolve normv normF Hs Hl HA HC HB1 HB2 t1 t2 t3
    maxIterations cb s0 fuel 1 false s0 _ r I0 (shrunk_refl mx p s0) E) as ((A1 & A2 & A3 & A4 & _) & (B1 & B2) & B3 & B4).
  intros X1 Z1. repeat (split; [assumption|]). split; [|intros HX; destruct (B4 HX) as (B5 & B6); split; [exact B6|exact (converged_spec mx p normv normF t1 t2 t3 X1 _ _ Z1 HA A1 B5)]].
  destruct B3 as [B3|B3]; [right|left; exact B3]. unfold X1. rewrite B3. split; reflexivity.
Qed.

(** The value returned is not <C, X> when no step was taken: maxIterations = 1 allows none. *)
Theorem C47_value_refuted : at00 (1 # 10) 1 5 = Some (XLimit, 1%Q, 1%Q, 0%Q, 2%nat, true).
Proof. vm_compute. reflexivity. Qed.

(** Callbacks: BeginOptimization, then StepTaken for every step, fewer than maxIterations of
    them and none after a request to stop; EndOptimization last, unless the solver converged
    or threw. *)
Theorem C47_callbacks {N : Num} (sqrt2 half : N) p chol inv eigmax syl lsolve normv normF recip tau t1 t2 t3
    maxIterations cb chol_upper fuel X ys yd Z r :
  pd_optimize sqrt2 half p chol inv eigmax syl lsolve normv normF recip tau t1 t2 t3 maxIterations cb chol_upper fuel X ys yd Z = inr (Ret r) ->
  exists xs, r_tr r = Begin (a_mat X) :: map St xs ++
      (match r_exit r with XAlpha | XLimit => [End (ps_X (r_state r))] | _ => [] end) /\
    (S (length xs) <= bound maxIterations)%nat /\ last xs (a_mat X) = ps_X (r_state r) /\
    (forall pre x post, xs = pre ++ x :: post -> post <> [] -> cs_stop cb (rev (Begin (a_mat X) :: map St (pre ++ [x]))) = false).
Proof.
  intros E. unfold pd_optimize in E. destruct (validate _ _ _ _ _ _); [discriminate|]. injection E as E.
  destruct (loop_trace sqrt2 half p chol inv eigmax syl lsolve normv normF recip tau t1 t2 t3 maxIterations cb
    fuel 1 false _ _ r ltac:(unfold bound; destruct maxIterations; lia) E) as (xs & E1 & E2 & E3 & _ & E4 & _).
  exists xs. split; [exact E1|]. split; [exact E2|]. split; [exact E3|].
  intros pre x post EP HP. exact (E4 pre x post EP HP).
Qed.

(** Convergence leaves without EndOptimization. *)
Theorem C47_end_refuted : at00 (1 # 10) 1000 5 = Some (XConverged, 1%Q, (1 # 100)%Q, 2%Q, 2%nat, false).
Proof. vm_compute. reflexivity. Qed.

(** The contracts are met for 1 x 1 matrices; X = Z = 1 is symmetric positive definite. *)
Example C47_contracts_met : chol_ok 1 chol1 /\ inv_ok 1 inv1 /\ eig_ok 1 eig1 /\ syl_ok 1 syl1 /\ lsolve_ok lsolve1 /\
  recip_ok (99 / 100) (recip1 (99 / 100)).
Proof. apply oracles1. lra. Qed.
Example C47_state_met : symmetric 1 (fun _ _ => 1) /\ pos_def 1 (fun _ _ => 1).
Proof.
  split; [intros i j _ _; reflexivity|]. intros v (i & Hi & Hv). apply lt1 in Hi. subst. unfold quad. rewrite !sum1.
  rewrite Rmult_1_r. apply Rsqr_pos_lt in Hv. exact Hv.
Qed.

Print Assumptions C47_validation.
Print Assumptions C47_direction.
Print Assumptions C47_step_length.
Print Assumptions C47_tau_one_refuted.
Print Assumptions C47_run.
Print Assumptions C47_value_refuted.
Print Assumptions C47_callbacks.
Print Assumptions C47_end_refuted.
