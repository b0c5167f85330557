(** Optimizer objects that are used for several calls of Optimize(): the members that a call
    changes and the next call reads.  The calls themselves are the models of the other files. *)
From Coq Require Import List Arith Bool ZArith.
From Verif.Base Require Import Num Vec.
From Verif.Model Require Import Common Sgd Schedules.
From Verif.Model Require LBFGS AugLag SA VarRed SVRG Sarah Katyusha BigBatch Spalera Lookahead.
Import ListNotations.

(** outcomes of Model/Sgd.v and of Model/Common.v *)
Definition to_outc {A : Type} (o : outcome A) : outc A :=
  match o with Return a => Ret a | UB => Bad | Diverge => More end.
Definition omap {A B : Type} (g : A -> B) (o : outc A) : outc B :=
  match o with Ret a => Ret (g a) | Bad => Bad | More => More end.

(** ** SGD: /repo/include/ensmallen_bits/sgd/sgd.hpp 160-230, sgd_impl.hpp 95-135 *)
(** Members that outlast a call.  [P] is the state inside the UpdatePolicyType object (the
    parent: the counter of DemonSGDUpdate, b of WNGradUpdate, the phase of SWATSUpdate; unit for
    the others), [U] the instantiated policy together with its parent, [D] the decay policy.
    Simplifications: the matrix type is the same in all calls (Has<> at 106 and 116 is true after
    the first call), and the decay policy is instantiated at construction instead of at the first
    call (105-110; no decay policy's constructor looks at anything else). *)
Record sgd_obj (N : Num) (P U D : Type) : Type := {
  so_parent : P;
  so_inst : option U;       (* instUpdatePolicy; None: isInitialized is false *)
  so_decay : D;             (* instDecayPolicy *)
  so_step : N               (* stepSize *)
}.
Arguments Build_sgd_obj {N P U D}. Arguments so_parent {N P U D}. Arguments so_inst {N P U D}.
Arguments so_decay {N P U D}. Arguments so_step {N P U D}.

(** the arguments of Optimize() and what its caller sees *)
Record sgd_in (N : Num) (X G : Type) : Type := { si_f : SepFun N X G; si_cb : Callbacks N X G; si_fuel : nat; si_x : X }.
Arguments si_f {N X G}. Arguments si_cb {N X G}. Arguments si_fuel {N X G}. Arguments si_x {N X G}.
Arguments Build_sgd_in {N X G}.
Record sgd_out (N : Num) (X G : Type) : Type := { sv_val : N; sv_x : X; sv_tr : list (event N X G) }.
Arguments Build_sgd_out {N X G}. Arguments sv_val {N X G}. Arguments sv_x {N X G}. Arguments sv_tr {N X G}.

Section SgdObject.
  Context {N : Num} {X G P U D : Type}.
  Variable reset : bool.                     (* resetPolicy *)
  Variable inst : P -> X -> U.               (* new InstUpdatePolicyType(updatePolicy, rows, cols): 119-120 *)
  Variable parent : U -> P.

  (* 113-121 *)
  Definition sgd_inst (o : sgd_obj N P U D) (x : X) : U :=
    match so_inst o with
    | Some u => if reset then inst (so_parent o) x else u
    | None => inst (so_parent o) x
    end.
  Definition sgd_call (c : Cfg N X G U D) (o : sgd_obj N P U D) (i : sgd_in N X G)
    : outc (sgd_out N X G * sgd_obj N P U D) :=
    omap (fun r => ({| sv_val := r_val r; sv_x := r_x r; sv_tr := r_trace r |},
                    {| so_parent := parent (r_u r); so_inst := Some (r_u r); so_decay := r_d r; so_step := r_step r |}))
      (to_outc (optimize_with c (si_f i) (si_cb i) (si_fuel i) (sgd_inst o (si_x i)) (so_decay o) (so_step o) (si_x i))).
End SgdObject.

(** ** SGDR: sgdr/sgdr_impl.hpp 53-79.  Before each call constStepSize becomes the optimizer's
    step size (60-63) and epochBatches NumFunctions() / batchSize (65-66).  The counters of the
    CyclicalDecay object stay as the previous call left them. *)
Section Sgdr.
  Context {N : Num} {X G P U : Type}.
  Variables (reset : bool) (inst : P -> X -> U) (parent : U -> P).
  Variables (mul : nat -> nat) (cosf : N -> N) (pi : N).      (* see cyc_update *)
  Variables (batch max : nat) (tol : N) (shuffle exact : bool) (up : U -> X -> N -> G -> U * X).
  Definition sgdr_cfg (step eb : N) : Cfg N X G U cyc :=
    {| c_batch := batch; c_max := max; c_tol := tol; c_shuffle := shuffle; c_exact := exact; c_up := up;
       c_dp := cyc_dp mul cosf pi step eb |}.
  Definition sgdr_call (o : sgd_obj N P U cyc) (i : sgd_in N X G) : outc (sgd_out N X G * sgd_obj N P U cyc) :=
    sgd_call reset inst parent (sgdr_cfg (so_step o) (ndiv (nofnat (sf_num (si_f i))) (nofnat batch))) o i.
End Sgdr.

(** ** SnapshotSGDR: sgdr/snapshot_sgdr_impl.hpp 62-117.  The snapshots are in the decay policy. *)
Section SnapshotSgdr.
  Context {N : Num} {G P U : Type}.
  Notation X := (list N).
  Variables (reset : bool) (inst : P -> X -> U) (parent : U -> P).
  Variables (mul : nat -> nat) (cosf : N -> N) (pi : N) (snapshotEpochs : nat) (accumulate : bool).
  Variables (batch max : nat) (tol : N) (shuffle exact : bool) (up : U -> X -> N -> G -> U * X).
  Definition snapshot_cfg (step eb : N) : Cfg N X G U (cyc * list X) :=
    {| c_batch := batch; c_max := max; c_tol := tol; c_shuffle := shuffle; c_exact := exact; c_up := up;
       c_dp := snap_dp mul cosf pi step eb snapshotEpochs |}.
  Definition snapshot_call (o : sgd_obj N P U (cyc * list X)) (i : sgd_in N X G)
    : outc (sgd_out N X G * sgd_obj N P U (cyc * list X)) :=
    omap (fun q => let '(v, x, r) := q in
                   ({| sv_val := v; sv_x := x; sv_tr := r_trace r |},
                    {| so_parent := parent (r_u r); so_inst := Some (r_u r); so_decay := r_d r; so_step := r_step r |}))
      (to_outc (snapshot_optimize (snapshot_cfg (so_step o) (ndiv (nofnat (sf_num (si_f i))) (nofnat batch)))
                  (si_f i) (si_cb i) accumulate (si_fuel i) (sgd_inst reset inst o (si_x i)) (so_decay o) (so_step o) (si_x i))).
End SnapshotSgdr.

(** ** L-BFGS: the member [terminate] (lbfgs/lbfgs.hpp, lbfgs_impl.hpp 357); the differences are
    local to the call.  The uninitialised cubes s and y (lbfgs_impl.hpp 361-362) are an input. *)
Section Lbfgs.
  Context {N : Num}.
  Record lbfgs_in : Type := { li_f : list N -> N * list N; li_cb : CB N (list N) (list N); li_fuel : nat;
                              li_s : list (list N); li_y : list (list N); li_x : list N }.
  Variables (numBasis maxIterations : nat) (armijo minGradientNorm wolfe factr minStep maxStep : N) (maxTrials : nat)
            (tol : N) (norm2 normF : list N -> N).
  Definition lbfgs_call (term : bool) (i : lbfgs_in) : outc (Res N (list N) (list N) * bool) :=
    LBFGS.lbfgs numBasis maxIterations armijo minGradientNorm wolfe factr minStep maxStep maxTrials tol norm2 normF
      (li_f i) (li_cb i) (li_fuel i) term (li_s i) (li_y i) (li_x i).
End Lbfgs.

(** ** SA: the member temperature (sa/sa_impl.hpp 101) *)
Section Sa.
  Context {N : Num}.
  Record sa_in : Type := { ai_f : list N -> N; ai_rnd : nat -> N * N; ai_cb : CB N (list N) (list N); ai_x : list N }.
  Variables (maxIterations initMoves moveCtrlSweep maxToleranceSweep : nat) (tol maxMove initMove gain target : N)
            (next : N -> N -> N) (lg ex : N -> N).
  Definition sa_call (t : N) (i : sa_in) : outc (Res N (list N) (list N) * N) :=
    SA.sa_optimize maxIterations initMoves moveCtrlSweep maxToleranceSweep tol maxMove initMove gain target next lg ex
      (ai_f i) (ai_rnd i) (ai_cb i) t (ai_x i).
End Sa.

(** ** SVRG, SARAH, Katyusha: the member innerIterations (svrg_impl.hpp 118-120,
    sarah_impl.hpp 71-73, katyusha_impl.hpp 74-76), and for SVRG the decay policy and the step size *)
Record vr_in (N : Num) : Type := { vi_f : VarRed.VFun N; vi_cb : VarRed.VCB N; vi_fuel : nat; vi_x : list N }.
Arguments vi_f {N}. Arguments vi_cb {N}. Arguments vi_fuel {N}. Arguments vi_x {N}. Arguments Build_vr_in {N}.
Record vr_out (N : Num) : Type := { vo_val : N; vo_x : list N; vo_tr : list (VarRed.vev N); vo_conv : bool }.
Arguments vo_val {N}. Arguments vo_x {N}. Arguments vo_tr {N}. Arguments vo_conv {N}. Arguments Build_vr_out {N}.

Section VarReduced.
  Context {N : Num} {D : Type}.
  Variables (batch max : nat) (tol : N) (shuffle exact : bool).
  Definition vr_seen {A : Type} (r : @SVRG.vres N A) : vr_out N * A :=
    ({| vo_val := SVRG.vr_val r; vo_x := SVRG.vr_x r; vo_tr := SVRG.vr_tr r; vo_conv := SVRG.vr_conv r |}, SVRG.vr_st r).
  Variable dp : D -> list N -> list N -> list N -> nat -> N -> D * N.
  Definition svrg_call (o : nat * D * N) (i : vr_in N) : outc (vr_out N * (nat * D * N)) :=
    omap vr_seen (SVRG.svrg (vi_f i) (vi_cb i) batch max tol shuffle exact dp (vi_fuel i) (fst (fst o)) (snd (fst o)) (snd o) (vi_x i)).
  Variables (eta : N) (norm : list N -> N) (early : list N -> N -> bool).
  Definition sarah_call (inner : nat) (i : vr_in N) : outc (vr_out N * nat) :=
    omap vr_seen (Sarah.sarah (vi_f i) (vi_cb i) batch max tol shuffle exact eta norm early (vi_fuel i) inner (vi_x i)).
  Variables (proximal : bool) (convexity lipschitz : N).
  Definition katyusha_call (inner : nat) (i : vr_in N) : outc (vr_out N * nat) :=
    omap vr_seen (Katyusha.katyusha (vi_f i) (vi_cb i) proximal convexity lipschitz batch max tol shuffle exact (vi_fuel i) inner (vi_x i)).
End VarReduced.

(** ** BigBatchSGD: the members batchSize (bigbatch_sgd_impl.hpp 164), stepSize and the update
    policy's iteratePrev (adaptive_stepsize.hpp) *)
Section BigBatchObject.
  Context {N : Num}.
  Record bb_in : Type := { bi_f : VarRed.VFun N; bi_cb : BigBatch.BCB N; bi_offset : nat -> nat; bi_fuel : nat; bi_x : list N }.
  Record bb_out : Type := { bo_val : N; bo_x : list N; bo_tr : list (BigBatch.bev N) }.
  Variables (pol : BigBatch.bpolicy N) (max : nat) (tol : N) (shuffle exact : bool) (norm : list N -> N).
  Definition bigbatch_call (o : nat * N * list N) (i : bb_in) : outc (bb_out * (nat * N * list N)) :=
    omap (fun r => ({| bo_val := BigBatch.br_val r; bo_x := BigBatch.br_x r; bo_tr := BigBatch.br_tr r |},
                    (BigBatch.br_bs r, BigBatch.br_eta r, BigBatch.br_prev r)))
      (BigBatch.bigbatch (bi_f i) (bi_cb i) pol max tol shuffle exact norm (bi_offset i) (bi_fuel i)
         (fst (fst o)) (snd (fst o)) (snd o) (bi_x i)).
End BigBatchObject.

(** ** SPALeRASGD: the update policy with its lambda, the decay policy and the step size
    (spalera_sgd_impl.hpp 116-135) *)
Section SpaleraObject.
  Context {N : Num} {D : Type}.
  Record sp_in : Type := { pi_f : VarRed.VFun N; pi_cb : Spalera.PCB N; pi_fuel : nat; pi_x : list N }.
  Record sp_out : Type := { po_val : N; po_x : list N; po_tr : list (Spalera.pev N) }.
  Variables (npow : N -> nat -> N) (nexp : N -> N) (tiny alpha epsilon rate : N) (batch max : nat) (tol lambda : N)
            (shuffle exact reset : bool) (decay : D -> list N -> N -> list N -> D * N).
  Definition spalera_call (o : option (Spalera.pst N * N) * N * D) (i : sp_in) : outc (sp_out * (option (Spalera.pst N * N) * N * D)) :=
    omap (fun r => ({| po_val := Spalera.pr_val r; po_x := Spalera.pr_x r; po_tr := Spalera.pr_tr r |},
                    (Some (Spalera.pr_pol r, Spalera.pr_lam r), Spalera.pr_eta r, Spalera.pr_d r)))
      (Spalera.spalera npow nexp tiny alpha epsilon rate (pi_f i) (pi_cb i) batch max tol lambda shuffle exact decay (pi_fuel i)
         (if reset then None else fst (fst o)) (snd (fst o)) (snd o) (pi_x i)).
End SpaleraObject.

(** ** AugLagrangian: the members terminate, lambda and sigma and the inner optimizer
    (aug_lagrangian/aug_lagrangian_impl.hpp 59-78 and 80-132) *)
Section AugLagObject.
  Context {N : Num} {S : Type}.
  Record al_in : Type := { gi_f : list N -> N; gi_cs : list (list N -> N);
                           gi_solve : list (AugLag.aev N) -> S -> list N -> N -> list N -> list N * S;
                           gi_stop : list (AugLag.aev N) -> bool; gi_fuel : nat; gi_x : list N }.
  Record al_out : Type := { go_ret : bool; go_x : list N; go_tr : list (AugLag.aev N) }.
  Record al_obj : Type := { ao_lambda : list N; ao_sigma : N; ao_term : bool; ao_inner : S }.
  Variables (max : nat) (thrFactor sigmaFactor tol : N).
  Definition al_seen (o : al_obj) (r : AugLag.ALRes (N := N) (S := S)) : al_out * al_obj :=
    ({| go_ret := AugLag.al_ret r; go_x := AugLag.al_x r; go_tr := AugLag.al_tr r |},
     {| ao_lambda := match AugLag.al_members r with Some m => fst m | None => ao_lambda o end;
        ao_sigma := match AugLag.al_members r with Some m => snd m | None => ao_sigma o end;
        ao_term := AugLag.al_term r; ao_inner := AugLag.al_inner r |}).
  (** the overload with initial multipliers and penalty *)
  Definition auglag_call (o : al_obj) (j : al_in * list N * N) : outc (al_out * al_obj) :=
    let '(i, lambda, sigma) := j in
    omap (al_seen o) (AugLag.auglag max thrFactor sigmaFactor tol (gi_f i) (gi_cs i) (gi_solve i) (gi_stop i) (gi_fuel i)
      (ao_term o) (ao_inner o) lambda sigma (gi_x i)).
  (** the overload without *)
  Definition auglag_default_call (o : al_obj) (i : al_in) : outc (al_out * al_obj) :=
    omap (al_seen o) (AugLag.auglag_default max thrFactor sigmaFactor tol (gi_f i) (gi_cs i) (gi_solve i) (gi_stop i) (gi_fuel i)
      (ao_term o) (ao_inner o) (ao_lambda o) (ao_sigma o) (gi_x i)).
End AugLagObject.
Arguments al_in N S : clear implicits. Arguments al_out N : clear implicits. Arguments al_obj N S : clear implicits.
