(** Two objectives that order the points alike. *)
From Coq Require Import List.
From Verif.Base Require Import Num.
From Verif.Model Require Import Common.
Import ListNotations.

Section Rank.
  Context {N : Num} {X : Type}.

  (** Corresponding numbers: the two objectives at the same point, or the same one of the
      constants the optimizers compare objectives with (DBL_MAX, and [inf], infinity). *)
  Inductive corr (inf : N) (f f' : X -> N) : N -> N -> Prop :=
  | corr_at x : corr inf f f' (f x) (f' x)
  | corr_max : corr inf f f' nmax nmax
  | corr_inf : corr inf f f' inf inf.

  (** Every comparison between values of f comes out as that between the values of f' at the
      same points, and both have their NaNs and infinities at the same points. *)
  Definition ordered_alike (inf : N) (f f' : X -> N) : Prop :=
    forall a a' b b', corr inf f f' a a' -> corr inf f f' b b' ->
      nlt a b = nlt a' b' /\ neq a b = neq a' b' /\ nisnan a = nisnan a' /\ nisinf a = nisinf a'.

  (** The same event, but for the objective value shown. *)
  Inductive same_but_value {G : Type} : ev N X G -> ev N X G -> Prop :=
  | sv_begin x : same_but_value (Begin x) (Begin x)
  | sv_end x : same_but_value (End x) (End x)
  | sv_eval x v v' : same_but_value (Ev x v) (Ev x v')
  | sv_step x : same_but_value (St x) (St x).

  (** The callbacks do not look at objective values. *)
  Definition value_blind {G : Type} (cb : CB N X G) : Prop :=
    forall h h', Forall2 same_but_value h h' -> cs_stop cb h = cs_stop cb h'.

  (** Two runs that do the same: the same events at the same points in the same order, the same
      final iterate, and corresponding values returned. *)
  Definition same_run {G : Type} (inf : N) (f f' : X -> N) (r r' : Res N X G) : Prop :=
    o_x r = o_x r' /\ Forall2 same_but_value (o_tr r) (o_tr r') /\ corr inf f f' (o_val r) (o_val r').
  Definition same_outcome {G : Type} (inf : N) (f f' : X -> N) (o o' : outc (Res N X G)) : Prop :=
    match o, o' with
    | Ret r, Ret r' => same_run inf f f' r r'
    | Bad, Bad => True
    | More, More => True
    | _, _ => False
    end.

  (** the same when the call may throw *)
  Definition same_call {G : Type} (inf : N) (f f' : X -> N) (o o' : option (outc (Res N X G))) : Prop :=
    match o, o' with
    | Some r, Some r' => same_outcome inf f f' r r'
    | None, None => True
    | _, _ => False
    end.

  (** The objective an optimizer sees that sums the batches [cs] = (begin, size), ... *)
  Definition total_over (feval : X -> nat -> nat -> N) (cs : list (nat * nat)) (x : X) : N :=
    fold_left (fun s c => nadd s (feval x (fst c) (snd c))) cs n0.

  (** A sorting routine that only compares. *)
  Definition only_compares (sort_index : list N -> list nat) : Prop :=
    forall l l', length l = length l' ->
      (forall i j, i < length l -> j < length l ->
         nlt (nth i l n0) (nth j l n0) = nlt (nth i l' n0) (nth j l' n0)) ->
      sort_index l = sort_index l'.
End Rank.
