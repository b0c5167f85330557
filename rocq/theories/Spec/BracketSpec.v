(** The frame of a call: the BeginOptimization and EndOptimization callbacks among all events
    (oldest first). *)
From Coq Require Import List Bool.
From Verif.Base Require Import Num.
From Verif.Model Require Common Sgd VarRed BigBatch Spalera Lookahead AugLag ParallelSgd NSGA2.
Import ListNotations.

(** No event of the list is a BeginOptimization or EndOptimization callback ([mark]). *)
Definition plain {E : Type} (mark : E -> bool) (l : list E) : Prop := forall e, In e l -> mark e = false.

(** BeginOptimization is the first event and EndOptimization the last; they do not occur
    anywhere else. *)
Definition framed {E : Type} (mark : E -> bool) (first final : E) (tr : list E) : Prop :=
  exists body, tr = first :: body ++ [final] /\ plain mark body.

(** Each occurs once and EndOptimization is the last event, but the events [pre] come before
    BeginOptimization. *)
Definition framed_after {E : Type} (mark : E -> bool) (pre : list E) (first final : E) (tr : list E) : Prop :=
  exists body, tr = pre ++ first :: body ++ [final] /\ plain mark pre /\ plain mark body.

(** Which events are BeginOptimization or EndOptimization callbacks *)
Definition ev_mark {N : Num} {X G : Type} (e : Common.ev N X G) : bool :=
  match e with Common.Begin _ | Common.End _ => true | _ => false end.
Definition sgd_mark {N : Num} {X G : Type} (e : Sgd.event N X G) : bool :=
  match e with Sgd.BeginOpt _ | Sgd.EndOpt _ => true | _ => false end.
Definition v_mark {N : Num} (e : VarRed.vev N) : bool :=
  match e with VarRed.VBegin _ | VarRed.VEnd _ => true | _ => false end.
Definition b_mark {N : Num} (e : BigBatch.bev N) : bool :=
  match e with BigBatch.BBegin _ | BigBatch.BEnd _ => true | _ => false end.
Definition p_mark {N : Num} (e : Spalera.pev N) : bool :=
  match e with Spalera.PBegin _ | Spalera.PEnd _ => true | _ => false end.
Definition o_mark {N : Num} (e : ParallelSgd.oev N) : bool :=
  match e with ParallelSgd.OBegin _ | ParallelSgd.OEnd _ => true | _ => false end.
Definition n_mark {N : Num} (e : NSGA2.nev N) : bool :=
  match e with NSGA2.NBegin _ | NSGA2.NEnd _ => true | _ => false end.
(** Lookahead and AugLagrangian: those made by the optimizer itself.  The runs of the inner
    optimizer, which get the same callbacks, are single events here. *)
Definition l_mark {N : Num} {E : Type} (e : Lookahead.lev N E) : bool :=
  match e with Lookahead.LBegin _ | Lookahead.LEnd _ => true | _ => false end.
Definition a_mark {N : Num} (e : AugLag.aev N) : bool :=
  match e with AugLag.ABegin _ | AugLag.AEnd _ => true | _ => false end.

(** What a callback object sees of a Lookahead call: the inner runs written out. *)
Definition shown_by_lookahead {N : Num} {E : Type} (tr : list (Lookahead.lev N E)) : list (Lookahead.lev N E + E) :=
  flat_map (fun e => match e with Lookahead.LRun _ _ _ inner => map inr inner | _ => [inl e] end) tr.
Definition l_mark_all {N : Num} {X G : Type} (e : Lookahead.lev N (Sgd.event N X G) + Sgd.event N X G) : bool :=
  match e with inl e => l_mark e | inr e => sgd_mark e end.
Definition count_marks {E : Type} (mark : E -> bool) (tr : list E) : nat := length (filter mark tr).

(** How often a callback object is called at the start and at the end *)
Definition begins {N : Num} {X G : Type} (tr : list (Common.ev N X G)) : nat :=
  length (filter (fun e => match e with Common.Begin _ => true | _ => false end) tr).
Definition ends {N : Num} {X G : Type} (tr : list (Common.ev N X G)) : nat :=
  length (filter (fun e => match e with Common.End _ => true | _ => false end) tr).
(** the inner runs of a Lookahead call *)
Definition inner_runs {N : Num} {E : Type} (tr : list (Lookahead.lev N E)) : nat :=
  length (filter (fun e => match e with Lookahead.LRun _ _ _ _ => true | _ => false end) tr).
