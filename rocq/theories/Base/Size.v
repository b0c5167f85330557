(** [size_t].  Counters of the code are natural numbers here; the only place
    where the width of the type shows is std::numeric_limits<size_t>::max(),
    which stands for "no limit".  (It is a function of [unit] so that it is never
    computed in unary by accident.) *)
From Coq Require Import NArith Arith Lia.

Definition size_max_of (u : unit) : nat := match u with tt => N.to_nat (2 ^ 64 - 1)%N end.
Notation size_max := (size_max_of tt).

Lemma size_max_pos : 0 < size_max.
Proof.
  unfold size_max_of. destruct (N.to_nat (2 ^ 64 - 1)) eqn:H; [|lia].
  apply (f_equal N.of_nat) in H. rewrite N2Nat.id in H. discriminate H.
Qed.

Lemma size_max_ge : forall k, (N.of_nat k <= 2 ^ 64 - 1)%N -> k <= size_max.
Proof. intros k H. unfold size_max_of. apply Nat.compare_le_iff. rewrite <- (Nat2N.id k), <- N2Nat.inj_compare. apply N.compare_le_iff. exact H. Qed.

#[global] Opaque size_max_of.
