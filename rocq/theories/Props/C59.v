(** C59: an optimizer object can be used again. *)
From Coq Require Import List Arith Bool ZArith QArith Lia.
From Verif.Base Require Import Num Instances QInst Vec.
From Verif.Model Require Import Common Sgd Schedules Reuse Updates Swats.
From Verif.Model Require VarRed AugLag.
From Verif.Spec Require Import CommonSpec ReuseSpec.
From Verif.Spec Require AugLagSpec.
From Verif.Proof Require LBFGSEx.
From Verif.Model Require Import ReuseSwarm.
From Verif.Model Require ParallelSgd.
From Verif.Proof Require Import Reuse ReuseMore ReuseRefuted ReuseSwarm.
From Coq Require Import Reals.
Import ListNotations.
Local Open Scope nat_scope.

(** SGD with resetPolicy, a decay policy that changes nothing (NoDecay) and an update policy
    that keeps no state outside the instantiated policy: after any calls, with any functions,
    callbacks and starting points, a call does what it does on a new object. *)
Theorem C59_sgd : forall (N : Num) (X G P U D : Type) (c : Cfg N X G U D) (inst : P -> X -> U) (parent : U -> P),
  (forall d x h g, c_dp c d x h g = (d, h)) ->
  (forall u x h g, parent (fst (c_up c u x h g)) = parent u) ->
  (forall p x, parent (inst p x) = p) ->
  forall p d (h : N), as_new (sgd_call true inst parent c) any every
                        {| so_parent := p; so_inst := None; so_decay := d; so_step := h |}.
Proof. intros N X G P U D c inst parent H1 H2 H3 p d h. exact (sgd_as_new c parent H1 H2 inst H3 p d h). Qed.
Print Assumptions C59_sgd.
(** momentum: the velocity is in the instantiated policy *)
Example C59_sgd_momentum :
  let c := {| c_batch := 1; c_max := 2; c_tol := (-1 : QNum)%Q; c_shuffle := false; c_exact := false;
              c_up := momentum_up (N := QNum) (1 # 2)%Q; c_dp := fun (d : unit) _ h _ => (d, h) |} in
  let call := sgd_call true (fun (_ : unit) (_ : QNum) => (0%Q : QNum)) (fun _ => tt) c in
  let new := {| so_parent := tt; so_inst := None; so_decay := tt; so_step := (1%Q : QNum) |} in
  exists v o, call new (q_in 10) = Ret (v, o) /\ so_inst o <> None /\ ~ so_inst o = Some (0%Q : QNum) /\ seen (call o (q_in 10)) = Ret v /\ sv_x v = (15 # 2)%Q.
Proof.
  intros c call new. let a := eval vm_compute in (call new (q_in 10)) in match a with Ret (?v, ?o) => exists v, o; split; [vm_cast_no_check (eq_refl a)|] end.
  repeat split; try (cbn; discriminate).
Qed.

(** L-BFGS: unless a callback of an earlier call asked to stop. *)
Theorem C59_lbfgs : forall (N : Num), OrdLaws N ->
  forall (numBasis maxIterations : nat) (armijo minGradientNorm wolfe factr minStep maxStep : N) (maxTrials : nat)
         (tol : N) (norm2 normF : list N -> N), 0 < numBasis ->
  as_new (lbfgs_call numBasis maxIterations armijo minGradientNorm wolfe factr minStep maxStep maxTrials tol norm2 normF)
    (fun i v => length (li_s i) = numBasis /\ length (li_y i) = numBasis /\ ~ asked (li_cb i) (o_tr v)) every false.
Proof. intros. apply lbfgs_as_new; assumption. Qed.
Print Assumptions C59_lbfgs.
Example C59_lbfgs_case : exists v o, lb_call false (lb_in LBFGSEx.quiet) = Ret (v, o) /\ o_x v = [3%Q] /\ ~ asked (li_cb (lb_in LBFGSEx.quiet)) (o_tr v).
Proof. destruct lbfgs_new as (v & o & E & X). exists v, o. repeat split; try assumption. intros (h & e & r & A). cbn in A. unfold asked_at in A. destruct A as (_ & _ & A). discriminate. Qed.

(** The augmented Lagrangian method, multipliers given: unless a callback of an earlier call
    asked to stop, and if the inner optimizer does not change. *)
Theorem C59_auglag : forall (N : Num) (S : Type) (max : nat) (thrFactor sigmaFactor tol : N) l0 (sg0 : N) (s0 : S),
  as_new (auglag_call max thrFactor sigmaFactor tol)
    (fun j v => length (gi_cs (fst (fst j))) <= length (snd (fst j)) /\ ~ AugLagSpec.a_asked (gi_stop (fst (fst j))) (go_tr v) /\
                forall tr s l sg x, snd (gi_solve (fst (fst j)) tr s l sg x) = s) every
    {| ao_lambda := l0; ao_sigma := sg0; ao_term := false; ao_inner := s0 |}.
Proof. intros. apply auglag_as_new. Qed.
Print Assumptions C59_auglag.
(** Without multipliers given: unless an earlier call converged or was asked to stop.  So calls that
    fail (too many iterations, penalty parameter too large) leave no trace in the object. *)
Theorem C59_auglag_default : forall (N : Num) (S : Type) (max : nat) (thrFactor sigmaFactor tol : N) l0 (sg0 : N) (s0 : S),
  as_new (auglag_default_call max thrFactor sigmaFactor tol)
    (fun i v => (l0 = [] \/ length (gi_cs i) <= length l0) /\ go_ret v = false /\ ~ AugLagSpec.a_asked (gi_stop i) (go_tr v) /\
                forall tr s l sg x, snd (gi_solve i tr s l sg x) = s) every
    {| ao_lambda := l0; ao_sigma := sg0; ao_term := false; ao_inner := s0 |}.
Proof. intros. apply auglag_default_as_new. Qed.
Print Assumptions C59_auglag_default.
Example C59_auglag_default_case :
  let call := auglag_default_call (N := QNum) (S := unit) 4 (0%Q : QNum) (10%Q : QNum) (1 # 1000000 : QNum)%Q in
  exists v o, call ald_new e_in = Ret (v, o) /\ go_ret v = false /\ ao_lambda o = [] /\ ao_sigma o = 10%Q /\
    ~ AugLagSpec.a_asked (gi_stop e_in) (go_tr v) /\ (forall tr s l sg x, snd (gi_solve e_in tr s l sg x) = s) /\ seen (call o e_in) = Ret v.
Proof.
  intros call. let a := eval vm_compute in (call ald_new e_in) in match a with Ret (?v, ?o) => exists v, o; split; [vm_cast_no_check (eq_refl a)|] end.
  repeat split.
  intros (h & e & r & _ & _ & A). discriminate A.
Qed.
(** Lambda() and Sigma() after a call: unchanged if it returned false, and otherwise the multipliers and
    the penalty parameter it ended with. *)
Theorem C59_auglag_members : forall (N : Num) (S : Type) (max : nat) (thrFactor sigmaFactor tol : N) (o o' : al_obj N S) i lambda sigma v,
  auglag_call max thrFactor sigmaFactor tol o (i, lambda, sigma) = Ret (v, o') ->
  if go_ret v then exists r, AugLag.auglag max thrFactor sigmaFactor tol (gi_f i) (gi_cs i) (gi_solve i) (gi_stop i) (gi_fuel i) (ao_term o) (ao_inner o) lambda sigma (gi_x i) = Ret r /\
                             ao_lambda o' = AugLag.al_lambda r /\ ao_sigma o' = AugLag.al_sigma r
  else ao_lambda o' = ao_lambda o /\ ao_sigma o' = ao_sigma o.
Proof. intros N S max a b c o o' i l sg v. apply auglag_members. Qed.
Print Assumptions C59_auglag_members.

(** SVRG without decay, SARAH, SARAH+ and Katyusha: for functions with the same number of
    component functions. *)
Theorem C59_svrg : forall (N : Num) (D : Type) (n batch max : nat) (tol : N) shuffle exact dp,
  (forall d x x0 g m h, dp d x x0 g m h = (d, h)) ->
  forall k0 (d : D) h,
  as_new (svrg_call batch max tol shuffle exact dp) (fun i _ => VarRed.vf_num (vi_f i) = n) (fun i => VarRed.vf_num (vi_f i) = n) (k0, d, h).
Proof. intros N D n batch max tol shuffle exact dp F k0 d h. exact (svrg_as_new n batch max tol shuffle exact dp F k0 d h). Qed.
Print Assumptions C59_svrg.
Theorem C59_sarah : forall (N : Num) (n batch max : nat) (tol : N) shuffle exact eta norm early k0,
  as_new (sarah_call batch max tol shuffle exact eta norm early) (fun i _ => VarRed.vf_num (vi_f i) = n) (fun i => VarRed.vf_num (vi_f i) = n) k0.
Proof. intros N n batch max tol shuffle exact eta norm early k0. exact (sarah_as_new n batch max tol shuffle exact eta norm early k0). Qed.
Print Assumptions C59_sarah.
Theorem C59_katyusha : forall (N : Num) (n batch max : nat) (tol : N) shuffle exact proximal convexity lipschitz k0,
  as_new (katyusha_call batch max tol shuffle exact proximal convexity lipschitz)
    (fun i _ => VarRed.vf_num (vi_f i) = n) (fun i => VarRed.vf_num (vi_f i) = n) k0.
Proof. intros N n batch max tol shuffle exact pr cv li k0. exact (katyusha_as_new n batch max tol shuffle exact pr cv li k0). Qed.
Print Assumptions C59_katyusha.
Example C59_sarah_case : exists v o, sarah1 0 (v_in 3 0) = Ret (v, o) /\ o = 3 /\ seen (sarah1 o (v_in 3 0)) = Ret v.
Proof.
  let a := eval vm_compute in (sarah1 0 (v_in 3 0)) in match a with Ret (?v, ?o) => exists v, o; split; [vm_cast_no_check (eq_refl a)|] end.
  split; [reflexivity|]. vm_compute. reflexivity.
Qed.

(** SPALeRASGD with resetPolicy and without decay. *)
Theorem C59_spalera : forall (N : Num) (D : Type) npow nexp (tiny alpha epsilon rate : N) (batch max : nat) (tol lambda : N) shuffle exact decay,
  (forall d x h g, decay d x h g = (d, h)) ->
  forall h (d : D), as_new (spalera_call npow nexp tiny alpha epsilon rate batch max tol lambda shuffle exact true decay) any every (None, h, d).
Proof. intros N D npow nexp tiny alpha epsilon rate batch max tol lambda shuffle exact decay F h d. exact (spalera_as_new npow nexp tiny alpha epsilon rate batch max tol lambda shuffle exact decay F h d). Qed.
Print Assumptions C59_spalera.

(** ** Where a second call differs *)
(** The update policy's own object is not reset, even with resetPolicy: the counter of DemonSGD,
    b of WNGrad and the phase of SWATS.  The same call twice: *)
Theorem C59_demon_refuted : exists v w, twice demon2 demon_new (q_in 14) (q_in 14) v w /\ ~ (sv_x v == sv_x w)%Q.
Proof. exact demon_differs. Qed.
Print Assumptions C59_demon_refuted.
Theorem C59_wngrad_refuted : exists v w, twice wngrad1 wngrad_new (w_in 1) (w_in 1) v w /\ sv_x v = [1 # 2]%Q /\ sv_x w = [3 # 5]%Q.
Proof. exact wngrad_differs. Qed.
Print Assumptions C59_wngrad_refuted.
Theorem C59_swats_refuted : exists v w o o', swats2 swats_new (w_in 9) = Ret (v, o) /\ swats2 o (w_in 9) = Ret (w, o') /\
  fst (fst (so_parent o)) = true /\ ~ Forall2 Qeq (sv_x v) (sv_x w).
Proof. exact swats_differs. Qed.
Print Assumptions C59_swats_refuted.
(** SGDR: the step size the decay ended with is the maximum of the next call, here 0: the second
    call does not move.  SnapshotSGDR: the snapshots of the first call are averaged into the
    second, here for a constant function started at 8 and then at 0. *)
Theorem C59_sgdr_refuted : exists v w, twice sgdr3 sgdr_new (q_in 10) (q_in 10) v w /\ sv_x v = 7%Q /\ sv_x w = 10%Q.
Proof. exact sgdr_differs. Qed.
Print Assumptions C59_sgdr_refuted.
Theorem C59_snapshot_refuted :
  (exists v w, twice snap3 snap_new (l_in 8) (l_in 0) v w /\ sv_x v = [8%Q] /\ nlt (n := QNum) 0%Q (hd 0%Q (sv_x w)) = true) /\
  (exists v o, snap3 snap_new (l_in 0) = Ret (v, o) /\ sv_x v = [0%Q]).
Proof. split; [exact snapshot_differs|exact snapshot_new]. Qed.
Print Assumptions C59_snapshot_refuted.
(** L-BFGS after a call that was asked to stop: no step, where a new object goes to 3. *)
Theorem C59_lbfgs_refuted :
  (exists v w, twice lb_call false (lb_in LBFGSEx.stop_at_once) (lb_in LBFGSEx.quiet) v w /\ o_x w = [7%Q]) /\
  (exists v o, lb_call false (lb_in LBFGSEx.quiet) = Ret (v, o) /\ o_x v = [3%Q]).
Proof. split; [exact lbfgs_differs|exact lbfgs_new]. Qed.
Print Assumptions C59_lbfgs_refuted.
(** The augmented Lagrangian method after a stopped call, and (without multipliers given) after a
    call that converged: the stored multipliers are the start of the next call. *)
Theorem C59_auglag_refuted :
  (exists v w, twice al2 al_new (g_in (fun _ => true) 7, [0%Q : QNum], 10%Q : QNum) (g_in (fun _ => false) 7, [0%Q : QNum], 10%Q : QNum) v w /\ go_x w = [7%Q]) /\
  (exists v o, al2 al_new (g_in (fun _ => false) 7, [0%Q : QNum], 10%Q : QNum) = Ret (v, o) /\ go_x v = [3 # 11]%Q) /\
  (exists v w, twice ald ald_new e_in e_in v w /\ go_ret v = true /\ go_ret w = true /\
     nth_error (go_tr v) 2 = Some (AugLag.AInner [7%Q : QNum] [(3 # 11)%Q : QNum]) /\
     nth_error (go_tr w) 2 = Some (AugLag.AInner [7%Q : QNum] [(3 # 110000011)%Q : QNum])).
Proof. split; [exact auglag_differs|]. split; [exact auglag_new|exact auglag_default_differs]. Qed.
Print Assumptions C59_auglag_refuted.
(** SA continues with the temperature of the first call. *)
Theorem C59_sa_refuted : exists v w, twice sa_c (4%Q : QNum) sa_i sa_i v w /\ o_x v = [7%Q] /\ o_x w = [5%Q].
Proof. exact sa_differs. Qed.
Print Assumptions C59_sa_refuted.
(** innerIterations = 0: one step per round on three functions after a call with one function,
    three on a new object. *)
Theorem C59_inner_iterations_refuted :
  (exists v w, twice sarah1 0 (v_in 1 0) (v_in 3 0) v w /\ steps_of (vo_tr w) = 1) /\
  (exists v o, sarah1 0 (v_in 3 0) = Ret (v, o) /\ steps_of (vo_tr v) = 3) /\
  (exists v w, twice katyusha1 0 (v_in 1 0) (v_in 3 0) v w /\ steps_of (vo_tr w) = 1) /\
  (exists v o, katyusha1 0 (v_in 3 0) = Ret (v, o) /\ steps_of (vo_tr v) = 3) /\
  (exists v w, twice svrg1 (0, tt, (1 # 10 : QNum)%Q) (v_in 1 0) (v_in 3 0) v w /\ steps_of (vo_tr w) = 1) /\
  (exists v o, svrg1 (0, tt, (1 # 10 : QNum)%Q) (v_in 3 0) = Ret (v, o) /\ steps_of (vo_tr v) = 3).
Proof.
  split; [exact sarah_differs|]. split; [exact sarah_new|]. split; [exact katyusha_differs|]. split; [exact katyusha_new|].
  split; [exact svrg_differs|exact svrg_new].
Qed.
Print Assumptions C59_inner_iterations_refuted.
(** BigBatchSGD keeps the grown batch size and the reduced step size. *)
Theorem C59_bigbatch_refuted : exists v w, twice bb3 (3, (1 # 4 : QNum)%Q, []) b_in b_in v w /\ bo_x v <> bo_x w.
Proof. exact bigbatch_differs. Qed.
Print Assumptions C59_bigbatch_refuted.

(** PSO: the bounds are members that the first call expands to the size of the iterate, and the
    constriction factor is fixed by the first call in the program.  An object used only for iterates
    of one size with more (or less) than one row does, after any calls, what a new one does, if no
    other PSO object with other factors is used in the program. *)
Theorem C59_pso : forall (N : Num) max horizon (tol c1 c2 : N) n (lower upper : list N), n <> 1 ->
  as_new (pso_call max horizon tol c1 c2) (fun i _ => length (pi_x i) = n) (fun i => length (pi_x i) = n) ((lower, upper), None).
Proof. intros. apply pso_as_new; assumption. Qed.
Print Assumptions C59_pso.
(** ParallelSGD with ExponentialBackoff: the policy counts on from where it is, but the rounds are
    numbered from 1 again.  So a second call that makes no more rounds than the first one uses the
    smallest step size of the first call throughout, and leaves the policy as it is. *)
Theorem C59_parallel_backoff : forall (N : Num) q (beta : N) max tol shuffle threads share fuel o i j v x tr o' w y us o'',
  0 < q -> 0 < fst o ->
  psgd_call max tol shuffle threads share q beta fuel o i = Ret ((v, x, tr), o') ->
  psgd_call max tol shuffle threads share q beta fuel o' j = Ret ((w, y, us), o'') -> rounds us <= rounds tr ->
  o'' = o' /\ forall k order a es z, In (ParallelSgd.OEpoch k order a es z) us -> a = snd o'.
Proof.
  intros N q beta max tol shuffle threads share fuel o i j v x tr o' w y us o'' Hq Ho C1 C2 Le.
  exact (backoff_frozen q beta Hq max tol shuffle threads share fuel o i j v x tr o' w y us o'' Ho C1 C2 Le).
Qed.
Print Assumptions C59_parallel_backoff.
(** so it is not as new: the same call twice, on f(x) = x from 10 *)
Theorem C59_parallel_backoff_refuted : exists v w, twice psgd1 (2, (1%Q : QNum)) pg_in pg_in v w /\
  snd (fst v) = [8%Q : QNum] /\ snd (fst w) = [(17 # 2)%Q : QNum].
Proof. exact psgd_differs. Qed.
Print Assumptions C59_parallel_backoff_refuted.
(** PSO on one row: DefaultInit negates the lower bound in each call, so 2 becomes -2 and then 2 again. *)
Theorem C59_pso_bounds_refuted : exists v w, twice pso1 (([2%Q : QNum], [5%Q : QNum]), None) ps_in ps_in v w /\
  o_x v = [(-2)%Q : QNum] /\ o_x w = [2%Q : QNum].
Proof. exact pso_bounds_differ. Qed.
Print Assumptions C59_pso_bounds_refuted.
(** A new PSO object depends on the objects used before it: phi is a static variable, so the sum of the
    factors of the first object used in the program (here 25/4) replaces its own (9/2). *)
Theorem C59_pso_static_refuted : forall mx, (0 < mx)%R ->
  exists r o r' o', pso_r mx (9 / 4) (9 / 4) (([0%R; 0%R], [1%R; 1%R]), None) (pr_in mx) = Ret (r, o) /\ o_val r = (-4)%R /\
    pso_r mx (9 / 4) (9 / 4) (([0%R; 0%R], [1%R; 1%R]), Some (25 / 4)%R) (pr_in mx) = Ret (r', o') /\ o_val r' = (-2)%R.
Proof. exact pso_static_differs. Qed.
Print Assumptions C59_pso_static_refuted.
(** the hypotheses of [C59_pso] and [C59_parallel_backoff] can be met: a call on two rows and its
    repetition, and two calls of ParallelSGD with three rounds each *)
Example C59_swarm_case : forall mx, (0 < mx)%R ->
  (exists r o, pso_r mx (9 / 4) (9 / 4) (([0%R; 0%R], [1%R; 1%R]), None) (pr_in mx) = Ret (r, o) /\
     seen (pso_r mx (9 / 4) (9 / 4) o (pr_in mx)) = Ret r) /\
  (exists v w, twice psgd1 (2, (1%Q : QNum)) pg_in pg_in v w /\ rounds (snd v) = 3 /\ rounds (snd w) = 3).
Proof.
  intros mx Hm. split.
  - destruct (pso_static_differs mx Hm) as (r & o & _ & _ & A & _). exists r, o. split; [exact A|].
    pose proof (C59_pso (RNum mx) 2 2 (0%R : RNum mx) (9 / 4)%R (9 / 4)%R 2 [0%R; 0%R] [1%R; 1%R] ltac:(lia)) as B.
    refine (eq_trans (B o (pr_in mx) (used_again _ _ _ _ (pr_in mx) r o (used_new _ _ _) A eq_refl) eq_refl) _).
    exact (f_equal seen A).
  - exact psgd_rounds.
Qed.
