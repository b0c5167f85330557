(** Proofs for C59: members that make a second call differ from the first. *)
From Coq Require Import List Arith Bool Lia ZArith QArith.
From Verif.Base Require Import Num Loop Vec Instances QInst Size.
From Verif.Model Require Import Common Sgd Schedules Reuse Updates Swats.
From Verif.Model Require LBFGS AugLag SA VarRed SVRG Sarah Katyusha BigBatch.
From Verif.Spec Require Import ReuseSpec.
From Verif.Proof Require LBFGSEx SVRGReal SarahReal BigBatchMore.
Import ListNotations.
Local Open Scope Q_scope.

(** the calls [call new i] and then [call o' i] return, and what they show is [v] and [w] *)
Definition twice {O I V : Type} (call : O -> I -> outc (V * O)) (new : O) (i j : I) (v w : V) : Prop :=
  exists o o', call new i = Ret (v, o) /\ call o j = Ret (w, o').

Ltac run2 call new i j :=
  let a := eval vm_compute in (call new i) in
  match a with Ret (?v, ?o) =>
    let b := eval vm_compute in (call o j) in
    match b with Ret (?w, ?o') =>
      exists v, w; split; [exists o, o'; split; [vm_cast_no_check (eq_refl a)|vm_cast_no_check (eq_refl b)]|]
    end
  end.
Ltac run1 call new i := let a := eval vm_compute in (call new i) in match a with Ret (?v, ?o) => exists v, o; split; [vm_cast_no_check (eq_refl a)|] end.

(** ** SGDR: one function f(x) = x; multFactor 1, epochRestart 1, step size 1, three steps.
    cos 0 = 1 and cos pi = -1 are all that is needed: cosf (b * pi) with pi = 1 *)
Definition qcos (z : QNum) : QNum := Qred (1 - 2 * z).
Definition line : SepFun QNum QNum QNum := {| sf_num := 1%nat; sf_eval := fun _ (x : QNum) _ _ => x; sf_evalgrad := fun _ x _ _ => (x, (1 : QNum)) |}.
Definition qcb : Callbacks QNum QNum QNum := {| cb_stop := fun _ => false; cb_grad := fun _ g => g |}.
Definition q_in (x : Q) : sgd_in QNum QNum QNum := {| si_f := line; si_cb := qcb; si_fuel := 10%nat; si_x := x |}.
Definition sgdr3 : sgd_obj QNum unit unit cyc -> sgd_in QNum QNum QNum -> outc (sgd_out QNum QNum QNum * sgd_obj QNum unit unit cyc) :=
  sgdr_call (N := QNum) true (fun _ _ => tt) (fun _ => tt) (fun k => k) qcos (1 : QNum) 1%nat 3%nat (-1 : QNum) false false (vanilla_up (N := QNum)).
Definition sgdr_new : sgd_obj QNum unit unit cyc := {| so_parent := tt; so_inst := None; so_decay := cyc_init 1%nat; so_step := (1 : QNum) |}.
Lemma sgdr_differs : exists v w, twice sgdr3 sgdr_new (q_in 10) (q_in 10) v w /\ sv_x v = 7 /\ sv_x w = 10.
Proof. run2 sgdr3 sgdr_new (q_in 10) (q_in 10). split; reflexivity. Qed.

(** ** SnapshotSGDR: a constant function; the snapshots of the first call are averaged into the
    result of the second *)
Definition flat : SepFun QNum (list QNum) (list QNum) :=
  {| sf_num := 1%nat; sf_eval := fun _ _ _ _ => (0 : QNum); sf_evalgrad := fun _ _ _ _ => ((0 : QNum), [0 : QNum]) |}.
Definition l_in (x : Q) : sgd_in QNum (list QNum) (list QNum) :=
  {| si_f := flat; si_cb := {| cb_stop := fun _ => false; cb_grad := fun _ g => g |}; si_fuel := 10%nat; si_x := [x : QNum] |}.
Definition snap_new : sgd_obj QNum unit unit (cyc * list (list QNum)) :=
  {| so_parent := tt; so_inst := None; so_decay := (cyc_init 1%nat, []); so_step := (1 : QNum) |}.
Definition snap3 := snapshot_call (N := QNum) (G := list QNum) true (fun (_ : unit) _ => tt) (fun _ => tt) (fun k => k) qcos (1 : QNum) 1%nat true
  1%nat 3%nat (-1 : QNum) false false (fun u x h g => (u, vsub x (vscale h g))).
Lemma snapshot_differs : exists v w, twice snap3 snap_new (l_in 8) (l_in 0) v w /\ sv_x v = [8] /\ nlt (n := QNum) 0 (hd 0 (sv_x w)) = true.
Proof. run2 snap3 snap_new (l_in 8) (l_in 0). split; reflexivity. Qed.
Lemma snapshot_new : exists v o, snap3 snap_new (l_in 0) = Ret (v, o) /\ sv_x v = [0].
Proof. run1 snap3 snap_new (l_in 0). reflexivity. Qed.

(** ** DemonSGD: betaInit 1/2, T = 4; the counter is in the DemonSGDUpdate object *)
Definition d_cfg : Cfg QNum QNum QNum (unit * nat) unit :=
  {| c_batch := 1%nat; c_max := 2%nat; c_tol := (-1 : QNum); c_shuffle := false; c_exact := false;
     c_up := demon_sgd_up (N := QNum) (1 # 2) 4; c_dp := fun d _ h _ => (d, h) |}.
Definition demon2 := sgd_call true (fun (t : nat) (_ : QNum) => (tt, t)) snd d_cfg.
Definition demon_new : sgd_obj QNum nat (unit * nat) unit := {| so_parent := 0%nat; so_inst := None; so_decay := tt; so_step := (1 : QNum) |}.
Lemma demon_differs : exists v w, twice demon2 demon_new (q_in 14) (q_in 14) v w /\ ~ sv_x v == sv_x w.
Proof. run2 demon2 demon_new (q_in 14) (q_in 14). intro C. vm_compute in C. discriminate. Qed.

(** ** WNGrad: b is in the WNGradUpdate object *)
Definition slope : SepFun QNum (list QNum) (list QNum) :=
  {| sf_num := 1%nat; sf_eval := fun _ (x : list QNum) _ _ => hd (0 : QNum) x; sf_evalgrad := fun _ x _ _ => (hd (0 : QNum) x, [1 : QNum]) |}.
Definition w_in (x : Q) : sgd_in QNum (list QNum) (list QNum) :=
  {| si_f := slope; si_cb := {| cb_stop := fun _ => false; cb_grad := fun _ g => g |}; si_fuel := 10%nat; si_x := [x : QNum] |}.
Definition w_cfg : Cfg QNum (list QNum) (list QNum) QNum unit :=
  {| c_batch := 1%nat; c_max := 1%nat; c_tol := (-1 : QNum); c_shuffle := false; c_exact := false;
     c_up := wngrad_up (N := QNum) (fun g => hd 0 g); c_dp := fun d _ h _ => (d, h) |}.
Definition wngrad1 := sgd_call true (fun (b : QNum) (_ : list QNum) => b) (fun b => b) w_cfg.
Definition wngrad_new : sgd_obj QNum QNum QNum unit := {| so_parent := (1 : QNum); so_inst := None; so_decay := tt; so_step := (1 : QNum) |}.
Lemma wngrad_differs : exists v w, twice wngrad1 wngrad_new (w_in 1) (w_in 1) v w /\ sv_x v = [1 # 2] /\ sv_x w = [3 # 5].
Proof. run2 wngrad1 wngrad_new (w_in 1) (w_in 1). split; reflexivity. Qed.

(** ** SWATS: the phase is in the SWATSUpdate object; a step of the SGD phase is made where a
    new object would make a step of Adam *)
Definition sw_cfg : Cfg QNum (list QNum) (list QNum) (@swats QNum) unit :=
  {| c_batch := 1%nat; c_max := 2%nat; c_tol := (-1 : QNum); c_shuffle := false; c_exact := false;
     c_up := swats_up (N := QNum) (fun b t => match t with O => 1 | 1%nat => b | _ => Qred (b * b) end) (1 # 2) (1 # 2) (1 # 2);
     c_dp := fun d _ h _ => (d, h) |}.
Definition swats2 := sgd_call true (fun p (x : list QNum) => swats_init (N := QNum) p (length x)) parent_of sw_cfg.
Definition swats_new : sgd_obj QNum (bool * QNum * QNum) (@swats QNum) unit := {| so_parent := parent0; so_inst := None; so_decay := tt; so_step := (1 : QNum) |}.
Lemma swats_differs : exists v w o o', swats2 swats_new (w_in 9) = Ret (v, o) /\ swats2 o (w_in 9) = Ret (w, o') /\
  fst (fst (so_parent o)) = true /\ ~ Forall2 Qeq (sv_x v) (sv_x w).
Proof.
  let a := eval vm_compute in (swats2 swats_new (w_in 9)) in match a with Ret (?v, ?o) =>
    let b := eval vm_compute in (swats2 o (w_in 9)) in match b with Ret (?w, ?o') =>
      exists v, w, o, o'; split; [vm_cast_no_check (eq_refl a)|]; split; [vm_cast_no_check (eq_refl b)|] end end.
  split; [reflexivity|].
  intro C. inversion C as [|a b la lb H]. vm_compute in H. discriminate.
Qed.

(** ** L-BFGS: a call that was stopped ends every later call at once *)
Definition lb_call := lbfgs_call (N := QNum) 2%nat 10%nat (1 # 10000) (1 # 1000000) (9 # 10) (1 # 1000000) (1 # 1000000) (1000000)
    50%nat (1 # 1000000) LBFGSEx.abs1 LBFGSEx.abs1.
Definition lb_in cb : lbfgs_in (N := QNum) :=
  {| li_f := LBFGSEx.half_square; li_cb := cb; li_fuel := 5%nat; li_s := [[0]; [0]]; li_y := [[0]; [0]]; li_x := [7] |}.
Lemma lbfgs_differs : exists v w, twice lb_call false (lb_in LBFGSEx.stop_at_once) (lb_in LBFGSEx.quiet) v w /\ o_x w = [7].
Proof. run2 lb_call false (lb_in LBFGSEx.stop_at_once) (lb_in LBFGSEx.quiet). reflexivity. Qed.
Lemma lbfgs_new : exists v o, lb_call false (lb_in LBFGSEx.quiet) = Ret (v, o) /\ o_x v = [3].
Proof. run1 lb_call false (lb_in LBFGSEx.quiet). reflexivity. Qed.

(** ** SA: the temperature is not reset; exp is 1 above -1 and 0 below *)
Definition sa_c := sa_call (N := QNum) 2%nat 0%nat 1%nat 3%nat (0 : QNum) (1 : QNum) (1 : QNum) (0 : QNum) (0 : QNum) (fun t _ => Qred (t / 4)) (fun _ => -1) (fun z => if Qle_bool (-1) z then 1 else 0).
Definition sa_i : sa_in (N := QNum) :=
  {| ai_f := fun x : list QNum => hd (0 : QNum) x; ai_rnd := fun j => ((1 : QNum), (1 # 2 : QNum)); ai_cb := {| cs_stop := fun _ => false; cs_grad := fun _ _ _ g => g |}; ai_x := [5 : QNum] |}.
Lemma sa_differs : exists v w, twice sa_c 4 sa_i sa_i v w /\ o_x v = [7] /\ o_x w = [5].
Proof. run2 sa_c 4 sa_i sa_i. split; reflexivity. Qed.

(** ** SARAH, Katyusha and SVRG: innerIterations = 0 stands for the number of functions of the
    first call for ever *)
Definition v_in (n : nat) (x : Q) : vr_in QNum :=
  {| vi_f := SarahReal.qfun n; vi_cb := SarahReal.qquiet; vi_fuel := 30%nat; vi_x := [x : QNum] |}.
Definition sarah1 := sarah_call (N := QNum) 1%nat 1%nat (0 : QNum) false false (1 # 10 : QNum) (fun v => nabs (n := QNum) (hd (0 : QNum) v)) Sarah.sarah_early.
Definition katyusha1 := katyusha_call (N := QNum) 1%nat 1%nat (0 : QNum) false false false (3 : QNum) (1 : QNum).
Definition svrg1 := svrg_call (N := QNum) (D := unit) 1%nat 1%nat (0 : QNum) false false (fun d _ _ _ _ h => (d, h)).
Definition steps_of (l : list (VarRed.vev QNum)) : nat := length (filter (fun e => match e with VarRed.VStep _ _ => true | _ => false end) l).
Lemma sarah_differs : exists v w, twice sarah1 0%nat (v_in 1 0) (v_in 3 0) v w /\ steps_of (vo_tr w) = 1%nat.
Proof. run2 sarah1 0%nat (v_in 1 0) (v_in 3 0). vm_compute. reflexivity. Qed.
Lemma sarah_new : exists v o, sarah1 0%nat (v_in 3 0) = Ret (v, o) /\ steps_of (vo_tr v) = 3%nat.
Proof. run1 sarah1 0%nat (v_in 3 0). vm_compute. reflexivity. Qed.
Lemma katyusha_differs : exists v w, twice katyusha1 0%nat (v_in 1 0) (v_in 3 0) v w /\ steps_of (vo_tr w) = 1%nat.
Proof. run2 katyusha1 0%nat (v_in 1 0) (v_in 3 0). vm_compute. reflexivity. Qed.
Lemma katyusha_new : exists v o, katyusha1 0%nat (v_in 3 0) = Ret (v, o) /\ steps_of (vo_tr v) = 3%nat.
Proof. run1 katyusha1 0%nat (v_in 3 0). vm_compute. reflexivity. Qed.
Lemma svrg_differs : exists v w, twice svrg1 (0%nat, tt, (1 # 10 : QNum)) (v_in 1 0) (v_in 3 0) v w /\ steps_of (vo_tr w) = 1%nat.
Proof. run2 svrg1 (0%nat, tt, (1 # 10 : QNum)) (v_in 1 0) (v_in 3 0). vm_compute. reflexivity. Qed.
Lemma svrg_new : exists v o, svrg1 (0%nat, tt, (1 # 10 : QNum)) (v_in 3 0) = Ret (v, o) /\ steps_of (vo_tr v) = 3%nat.
Proof. run1 svrg1 (0%nat, tt, (1 # 10 : QNum)) (v_in 3 0). vm_compute. reflexivity. Qed.

(** ** BigBatchSGD: the second call starts with the batch size and the step size the first one
    ended with *)
Definition bb3 := bigbatch_call (N := QNum) BigBatchMore.bt 3%nat (0 : QNum) true false (fun v => Qabs.Qabs (hd 0 v)).
Definition b_in : bb_in (N := QNum) :=
  {| bi_f := BigBatchMore.qf; bi_cb := BigBatchMore.qquiet; bi_offset := fun b => (b / 2)%nat; bi_fuel := 40%nat; bi_x := [7 # 4 : QNum] |}.
Lemma bigbatch_differs : exists v w, twice bb3 (3%nat, (1 # 4 : QNum), []) b_in b_in v w /\ bo_x v <> bo_x w.
Proof. run2 bb3 (3%nat, (1 # 4 : QNum), @nil QNum) b_in b_in. intro C. vm_compute in C. discriminate. Qed.

(** ** AugLagrangian: (x - 3)^2 / 2 subject to x = 0 *)
Definition at0 (x : list QNum) : QNum := match x with [q] => q | _ => 0 end.
Definition aug_fn (lambda : list QNum) (sigma : QNum) (x : list QNum) : QNum * list QNum :=
  match AugLag.aug_evaluate (fun y => fst (LBFGSEx.half_square y)) [at0] lambda sigma x,
        AugLag.aug_gradient (fun y => snd (LBFGSEx.half_square y)) [(at0, fun _ => [1 : QNum])] lambda sigma x with
  | Some v, Some g => (v, g) | _, _ => (0, []) end.
Definition inner_Q (h : list (AugLag.aev QNum)) (term : bool) (lambda : list QNum) (sigma : QNum) (x : list QNum) : list QNum * bool :=
  match LBFGSEx.lb_Q 10 50 (aug_fn lambda sigma) LBFGSEx.quiet 12 term x with Ret (r, m) => (o_x r, m) | _ => (x, term) end.
Definition g_in (stop : list (AugLag.aev QNum) -> bool) (x : Q) : al_in QNum bool :=
  {| gi_f := fun y => fst (LBFGSEx.half_square y); gi_cs := [at0]; gi_solve := inner_Q; gi_stop := stop; gi_fuel := 30%nat; gi_x := [x : QNum] |}.
Definition al2 := auglag_call (N := QNum) (S := bool) 2 (1 # 4 : QNum) (10 : QNum) (1 # 1000000 : QNum).
Definition al_new : al_obj QNum bool := {| ao_lambda := []; ao_sigma := (10 : QNum); ao_term := false; ao_inner := false |}.
Lemma auglag_differs : exists v w, twice al2 al_new (g_in (fun _ => true) 7, [0 : QNum], 10 : QNum) (g_in (fun _ => false) 7, [0 : QNum], 10 : QNum) v w /\ go_x w = [7].
Proof. run2 al2 al_new (g_in (fun _ => true) 7, [0 : QNum], 10 : QNum) (g_in (fun _ => false) 7, [0 : QNum], 10 : QNum). reflexivity. Qed.
Lemma auglag_new : exists v o, al2 al_new (g_in (fun _ => false) 7, [0 : QNum], 10 : QNum) = Ret (v, o) /\ go_x v = [3 # 11].
Proof. run1 al2 al_new (g_in (fun _ => false) 7, [0 : QNum], 10 : QNum). reflexivity. Qed.
(** the overload without multipliers: those that a converged call stored are the start of the
    next one; the inner optimizer finds the exact minimum (3 + lambda) / (1 + sigma) *)
Definition exact_Q (h : list (AugLag.aev QNum)) (u : unit) (lambda : list QNum) (sigma : QNum) (x : list QNum) : list QNum * unit :=
  ([Qred ((3 + hd 0 lambda) / (1 + sigma))], u).
Definition e_in : al_in QNum unit :=
  {| gi_f := fun y => fst (LBFGSEx.half_square y); gi_cs := [at0]; gi_solve := exact_Q; gi_stop := fun _ => false; gi_fuel := 30%nat; gi_x := [7 : QNum] |}.
Definition ald := auglag_default_call (N := QNum) (S := unit) 30 (0 : QNum) (10 : QNum) (1 # 1000000 : QNum).
Definition ald_new : al_obj QNum unit := {| ao_lambda := []; ao_sigma := (10 : QNum); ao_term := false; ao_inner := tt |}.
Lemma auglag_default_differs : exists v w, twice ald ald_new e_in e_in v w /\ go_ret v = true /\ go_ret w = true /\
  nth_error (go_tr v) 2 = Some (AugLag.AInner [7 : QNum] [3 # 11 : QNum]) /\ nth_error (go_tr w) 2 = Some (AugLag.AInner [7 : QNum] [3 # 110000011 : QNum]).
Proof. run2 ald ald_new e_in e_in. repeat split. Qed.
