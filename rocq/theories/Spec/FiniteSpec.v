(** Objective values that are not finite, and what may happen after one has been seen. *)
From Coq Require Import List.
From Verif.Base Require Import Num.
From Verif.Model Require Import Common Sgd VarRed BigBatch Spalera Lookahead ParallelSgd.
Import ListNotations.

(** NaN or infinite *)
Definition nonfinite {N : Num} (v : N) : Prop := nisnan v = true \/ nisinf v = true.

(** IEEE arithmetic: a sum with a summand that is not finite is not finite (inf - inf is NaN); nor
    is a quotient whose numerator is not *)
Record sticky (N : Num) : Prop := {
  sk_left : forall a b : N, nonfinite a -> nonfinite (nadd a b);
  sk_right : forall a b : N, nonfinite b -> nonfinite (nadd a b);
  sk_div : forall a b : N, nonfinite a -> nonfinite (ndiv a b) }.

(** in the history [tr] (oldest first), once an event is [bad] all later ones are [ok] *)
Definition afterwards {E : Type} (bad ok : E -> Prop) (tr : list E) : Prop :=
  forall pre e post, tr = pre ++ e :: post -> bad e -> Forall ok post.

(** ** The events that carry a bad objective value *)
Section Bad.
  Context {N : Num} {X G : Type}.
  Definition bad_ev (e : ev N X G) : Prop :=
    match e with EvG _ v _ _ => nonfinite v | Ev _ v => nonfinite v | _ => False end.
  Definition bad_event (e : event N X G) : Prop :=
    match e with EvalGrad _ _ _ v _ => nonfinite v | Eval _ _ _ v => nonfinite v | _ => False end.
  Definition bad_vev (e : vev N) : Prop := match e with VEval _ _ _ v => nonfinite v | _ => False end.
  Definition bad_bev (e : bev N) : Prop := match e with BEval _ _ _ v => nonfinite v | _ => False end.
  Definition bad_pev (e : Spalera.pev N) : Prop :=
    match e with PEval _ _ _ v => nonfinite v | PBoth _ _ _ v _ _ => nonfinite v | _ => False end.
  Definition bad_lev {E : Type} (e : lev N E) : Prop := match e with LRun _ _ v _ => nonfinite v | _ => False end.
  Definition bad_oev (e : oev N) : Prop := match e with OEval _ v => nonfinite v | _ => False end.

  (** ** What may follow *)
  (** nothing but the end of the optimization *)
  Definition only_end (e : ev N X G) : Prop := match e with End _ => True | _ => False end.
  Definition only_lend {E : Type} (e : lev N E) : Prop := match e with LEnd _ => True | _ => False end.
  Definition only_oend (e : oev N) : Prop := match e with OEnd _ => True | _ => False end.
  (** no new epoch *)
  Definition same_epoch (e : event N X G) : Prop := match e with BeginEpoch _ _ _ | Shuffled => False | _ => True end.
  Definition same_bepoch (e : bev N) : Prop := match e with BBeginEpoch _ _ | BShuffle => False | _ => True end.
  Definition same_pepoch (e : Spalera.pev N) : Prop := match e with PBeginEpoch k _ => k = 1 | PShuffle => False | _ => True end.
  (** no gradient and no step *)
  Definition only_values (e : vev N) : Prop := match e with VEval _ _ _ _ | VEnd _ => True | _ => False end.
End Bad.

(** ** SPSA and L-BFGS *)
Section Other.
  Context {N : Num} {X G : Type}.
  Definition is_step (e : ev N X G) : Prop := match e with St _ => True | _ => False end.
  (** the evaluation right after a step, at the new point, is not finite *)
  Definition bad_after_step (e e' : ev N X G) : Prop :=
    match e, e' with St _, Ev _ v => nonfinite v | _, _ => False end.
  Definition nan_ev (e : ev N X G) : Prop :=
    match e with EvG _ v _ _ => nisnan v = true | Ev _ v => nisnan v = true | _ => False end.
  (** only the announcements of the begin and the end of the run *)
  Definition only_marks (e : ev N X G) : Prop := match e with Begin _ | End _ => True | _ => False end.
End Other.
