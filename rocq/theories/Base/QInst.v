(** Exact rational arithmetic, for executable examples that divide. *)
From Coq Require Import ZArith QArith Qabs Bool Lia Lqa.
From Verif.Base Require Import Num.

Definition Qltb (x y : Q) : bool := negb (Qle_bool y x).
Definition QNum : Num := {|
  T := Q; n0 := 0%Q; n1 := 1%Q;
  nadd := fun x y => Qred (x + y); nsub := fun x y => Qred (x - y);
  nmul := fun x y => Qred (x * y); ndiv := fun x y => Qred (x / y);
  nopp := fun x => Qred (- x); nabs := fun x => Qred (Qabs x);
  nsqrt := fun x => x;                   (* not used in the examples *)
  nlt := Qltb; nle := Qle_bool; neq := Qeq_bool;
  nisnan := fun _ => false; nisinf := fun _ => false;
  nmax := inject_Z 1000000000000; nofZ := inject_Z |}.

Lemma Qltb_lt x y : Qltb x y = true <-> x < y.
Proof.
  unfold Qltb. rewrite negb_true_iff, <- not_true_iff_false, Qle_bool_iff.
  split; [apply Qnot_le_lt | apply Qlt_not_le].
Qed.

Lemma Q_ord : OrdLaws QNum.
Proof.
  constructor; cbn -[Qltb Qle_bool Qeq_bool]; intros; try discriminate.
  all: rewrite <- ?not_true_iff_false in *; rewrite ?Qltb_lt, ?Qle_bool_iff, ?Qeq_bool_iff in *.
  all: try match goal with |- ~ _ => intros ? end; try lra.
Qed.
