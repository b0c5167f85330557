(** Vocabulary for SWATS, over the reals.  A history is a list of
    (stepSize, gradient vector) pairs, oldest first. *)
From Coq Require Import List Reals Arith.
From Verif.Spec Require Import UpdatesSpec.
Import ListNotations.
Local Open Scope R_scope.

Definition hist := list (R * list R).
(** The history of coordinate i. *)
Definition coord (i : nat) (H : hist) : list (R * R) := map (fun p => (fst p, nth i (snd p) 0)) H.
(** The vector with the n coordinates f 0, ..., f (n-1). *)
Definition tab (n : nat) (f : nat -> R) : list R := map f (seq 0 n).
(** Step size and gradient of the last update. *)
Definition last_step (H : hist) : R := fst (last H (0, [])).
Definition last_grad (H : hist) : list R := snd (last H (0, [])).
Definition dot (a b : list R) : R := fold_left Rplus (map (fun p => fst p * snd p) (combine a b)) 0.

(** All gradients have n coordinates. *)
Definition dims (n : nat) (H : hist) : Prop := forall h g, In (h, g) H -> length g = n.
(** A history with all step sizes replaced by 1. *)
Definition unit_steps (l : list (R * R)) : list (R * R) := map (fun q => (1, snd q)) l.

Section S.
  Variables (n : nat) (eps b1 b2 : R).
  (** The Adam step after the history H. *)
  Definition adam_delta (H : hist) : list R :=
    tab n (fun i => last_step H * (M1 b1 (coord i H) / corr b1 (coord i H)) /
                    (sqrt (M2 b2 (coord i H) / corr b2 (coord i H)) + eps)).
  Definition usable (H : hist) : bool :=
    if Req_EM_T (dot (adam_delta H) (last_grad H)) 0 then false else true.
  (** The step size with which plain SGD would have made the same progress along the
      gradient: the Adam step projected. *)
  Definition rate (H : hist) : R := dot (adam_delta H) (adam_delta H) / dot (adam_delta H) (last_grad H).
  (** The rates of all updates so far for which it is defined, and their
      exponential average without the start-up bias. *)
  Definition rates (H : hist) : list R := map rate (filter usable (prefixes H)).
  Definition avg_rate (H : hist) : R := ema b2 (rates H) / (1 - b2 ^ length H).
  (** The criterion for the switch. *)
  Definition switches (H : hist) : Prop :=
    usable H = true /\ Rabs (avg_rate H - rate H) < eps /\ (1 < length H)%nat.
End S.
