(** Instances of [Num]: integers (for small executable examples), the real
    numbers, and IEEE 754 binary64 as specified by the standard library's
    [SpecFloat]. *)
From Coq Require Import ZArith Bool Reals Lra Lia.
From Coq Require Import Floats.SpecFloat.
From Verif.Base Require Import Num.

(** ** Integers.  Division truncates; only used in examples that do not divide. *)
Definition ZNum : Num := {|
  T := Z; n0 := 0%Z; n1 := 1%Z; nadd := Z.add; nsub := Z.sub; nmul := Z.mul;
  ndiv := Z.quot; nopp := Z.opp; nabs := Z.abs; nsqrt := Z.sqrt;
  nlt := Z.ltb; nle := Z.leb; neq := Z.eqb;
  nisnan := fun _ => false; nisinf := fun _ => false;
  nmax := 1000000000000%Z; nofZ := fun z => z |}.
Canonical ZNum.

(** ** Reals.  [mx] stands for numeric_limits<double>::max(). *)
Definition Rltb (x y : R) : bool := if Rlt_dec x y then true else false.
Definition Rleb (x y : R) : bool := if Rle_dec x y then true else false.
Definition Reqb (x y : R) : bool := if Req_EM_T x y then true else false.

Definition RNum (mx : R) : Num := {|
  T := R; n0 := 0%R; n1 := 1%R; nadd := Rplus; nsub := Rminus; nmul := Rmult;
  ndiv := Rdiv; nopp := Ropp; nabs := Rabs; nsqrt := sqrt;
  nlt := Rltb; nle := Rleb; neq := Reqb;
  nisnan := fun _ => false; nisinf := fun _ => false;
  nmax := mx; nofZ := IZR |}.

(** ** IEEE 754 binary64. *)
Definition prec64 : Z := 53.
Definition emax64 : Z := 1024.
Definition F64 : Num := {|
  T := spec_float;
  n0 := S754_zero false;
  n1 := binary_normalize prec64 emax64 1 0 false;
  nadd := SFadd prec64 emax64; nsub := SFsub prec64 emax64;
  nmul := SFmul prec64 emax64; ndiv := SFdiv prec64 emax64;
  nopp := SFopp; nabs := SFabs; nsqrt := SFsqrt prec64 emax64;
  nlt := SFltb; nle := SFleb; neq := SFeqb;
  nisnan := fun x => match x with S754_nan => true | _ => false end;
  nisinf := fun x => match x with S754_infinity _ => true | _ => false end;
  nmax := SFmax_float prec64 emax64;
  nofZ := fun z => binary_normalize prec64 emax64 z 0 false |}.

Lemma Rltb_spec x y : reflect (x < y)%R (Rltb x y).
Proof. unfold Rltb. destruct (Rlt_dec x y); constructor; assumption. Qed.
Lemma Rleb_spec x y : reflect (x <= y)%R (Rleb x y).
Proof. unfold Rleb. destruct (Rle_dec x y); constructor; assumption. Qed.
Lemma Reqb_spec x y : reflect (x = y)%R (Reqb x y).
Proof. unfold Reqb. destruct (Req_EM_T x y); constructor; assumption. Qed.

Lemma Z_ord : OrdLaws ZNum.
Proof.
  constructor; cbn; intros; try discriminate;
    try (rewrite Z.eqb_eq, !Z.leb_le; lia);
    repeat match goal with
           | H : (_ <? _)%Z = true |- _ => apply Z.ltb_lt in H
           | H : (_ <=? _)%Z = true |- _ => apply Z.leb_le in H
           | H : (_ <? _)%Z = false |- _ => apply Z.ltb_ge in H
           end;
    try apply Z.ltb_lt; try apply Z.leb_le; try apply Z.ltb_ge; lia.
Qed.

Lemma R_ord mx : OrdLaws (RNum mx).
Proof.
  constructor; cbn; intros; try discriminate;
    try (destruct (Reqb_spec x y), (Rleb_spec x y), (Rleb_spec y x); (split; [intros; split|intros [? ?]]); congruence || (exfalso; lra));
    repeat match goal with
           | H : context [Rltb ?a ?b] |- _ => destruct (Rltb_spec a b); try discriminate
           | H : context [Rleb ?a ?b] |- _ => destruct (Rleb_spec a b); try discriminate
           | |- context [Rltb ?a ?b] => destruct (Rltb_spec a b)
           | |- context [Rleb ?a ?b] => destruct (Rleb_spec a b)
           end; try reflexivity; try lra.
Qed.

(** The sign/exponent/mantissa comparison of [SpecFloat] is an order on the
    non-NaN floats: it is the comparison of the following key. *)
Definition sf_key (x : spec_float) : option (Z * Z * Z) :=
  match x with
  | S754_nan => None
  | S754_zero _ => Some (0, 0, 0)%Z
  | S754_infinity true => Some (-2, 0, 0)%Z
  | S754_infinity false => Some (2, 0, 0)%Z
  | S754_finite true m e => Some (-1, - e, - Zpos m)%Z
  | S754_finite false m e => Some (1, e, Zpos m)%Z
  end.

Definition lex_lt (a b : Z * Z * Z) : Prop :=
  let '(a1, a2, a3) := a in let '(b1, b2, b3) := b in
  (a1 < b1 \/ (a1 = b1 /\ (a2 < b2 \/ (a2 = b2 /\ a3 < b3))))%Z.

Lemma SFcompare_key x y :
  SFcompare x y =
  match sf_key x, sf_key y with
  | Some (a1, a2, a3), Some (b1, b2, b3) =>
      Some (match Z.compare a1 b1 with
            | Eq => match Z.compare a2 b2 with Eq => Z.compare a3 b3 | c => c end
            | c => c end)
  | _, _ => None
  end.
Proof.
  destruct x as [sx|sx| |sx mx ex], y as [sy|sy| |sy my ey]; try destruct sx; try destruct sy;
    try reflexivity; unfold SFcompare, sf_key.
  change (-1 ?= -1)%Z with Eq. cbv iota.
    rewrite (Z.compare_opp ex ey), (Z.compare_antisym ex ey). destruct (Z.compare ex ey); reflexivity.
Qed.

Lemma SFltb_lex x y :
  SFltb x y = true <-> exists a b, sf_key x = Some a /\ sf_key y = Some b /\ lex_lt a b.
Proof.
  unfold SFltb. rewrite SFcompare_key.
  destruct (sf_key x) as [[[a1 a2] a3]|], (sf_key y) as [[[b1 b2] b3]|];
    try (split; [discriminate| intros (a & b & H1 & H2 & _); congruence]).
  split.
  - intros H. exists (a1, a2, a3), (b1, b2, b3). split; [reflexivity|split;[reflexivity|]].
    unfold lex_lt. destruct (Z.compare_spec a1 b1); try discriminate; [|lia].
    destruct (Z.compare_spec a2 b2); try discriminate; [|lia].
    destruct (Z.compare_spec a3 b3); try discriminate; lia.
  - intros (a & b & H1 & H2 & H). injection H1 as <-. injection H2 as <-. unfold lex_lt in H.
    destruct (Z.compare_spec a1 b1); try reflexivity; [|lia].
    destruct (Z.compare_spec a2 b2); try reflexivity; [|lia].
    destruct (Z.compare_spec a3 b3); try reflexivity; lia.
Qed.

Lemma SFleb_lex x y :
  SFleb x y = true <->
  exists a b, sf_key x = Some a /\ sf_key y = Some b /\ (lex_lt a b \/ a = b).
Proof.
  unfold SFleb. rewrite SFcompare_key.
  destruct (sf_key x) as [[[a1 a2] a3]|], (sf_key y) as [[[b1 b2] b3]|];
    try (split; [discriminate| intros (a & b & H1 & H2 & _); congruence]).
  split.
  - intros H. exists (a1, a2, a3), (b1, b2, b3). split; [reflexivity|split;[reflexivity|]].
    unfold lex_lt. destruct (Z.compare_spec a1 b1); try discriminate; [|lia].
    destruct (Z.compare_spec a2 b2); try discriminate; [|lia].
    destruct (Z.compare_spec a3 b3); try discriminate; [right; subst; reflexivity|lia].
  - intros (a & b & H1 & H2 & H). injection H1 as <-. injection H2 as <-. unfold lex_lt in H.
    destruct H as [H|H].
    + destruct (Z.compare_spec a1 b1); try reflexivity; [|lia].
      destruct (Z.compare_spec a2 b2); try reflexivity; [|lia].
      destruct (Z.compare_spec a3 b3); try reflexivity; lia.
    + injection H as -> -> ->. rewrite !Z.compare_refl. reflexivity.
Qed.

Lemma lex_trans a b c : lex_lt a b -> lex_lt b c -> lex_lt a c.
Proof. destruct a as [[? ?] ?], b as [[? ?] ?], c as [[? ?] ?]; unfold lex_lt; lia. Qed.
Lemma lex_irrefl a : ~ lex_lt a a.
Proof. destruct a as [[? ?] ?]; unfold lex_lt; lia. Qed.
Lemma lex_total a b : lex_lt a b \/ a = b \/ lex_lt b a.
Proof.
  destruct a as [[a1 a2] a3], b as [[b1 b2] b3]; unfold lex_lt.
  destruct (Z.lt_trichotomy a1 b1) as [|[->|]]; [lia| |lia].
  destruct (Z.lt_trichotomy a2 b2) as [|[->|]]; [lia| |lia].
  destruct (Z.lt_trichotomy a3 b3) as [|[->|]]; [lia| |lia]. right; left; reflexivity.
Qed.

Lemma F64_ord : OrdLaws F64.
Proof.
  assert (K : forall x, nisnan (n := F64) x = false -> exists a, sf_key x = Some a).
  { intros [[|]|[|]| |[|] m e]; cbn; intros H; try discriminate; eexists; reflexivity. }
  constructor; cbn [nlt nle F64].
  - intros x. destruct (SFltb x x) eqn:E; [|reflexivity].
    apply SFltb_lex in E as (a & b & H1 & H2 & H). rewrite H1 in H2; injection H2 as <-.
    destruct (lex_irrefl _ H).
  - intros x y z H1 H2. apply SFltb_lex in H1 as (a & b & A & B & H1).
    apply SFltb_lex in H2 as (b' & c & B' & C & H2). rewrite B in B'; injection B' as <-.
    apply SFltb_lex. exists a, c. split; [|split]; auto. eapply lex_trans; eauto.
  - intros x y H1. apply SFltb_lex in H1 as (a & b & A & B & H1).
    apply SFleb_lex. exists a, b; auto.
  - intros x y z H1 H2. apply SFleb_lex in H1 as (a & b & A & B & H1).
    apply SFltb_lex in H2 as (b' & c & B' & C & H2). rewrite B in B'; injection B' as <-.
    apply SFltb_lex. exists a, c. split; [|split]; auto.
    destruct H1 as [H1| ->]; [eapply lex_trans; eauto|assumption].
  - intros x y z H1 H2. apply SFltb_lex in H1 as (a & b & A & B & H1).
    apply SFleb_lex in H2 as (b' & c & B' & C & H2). rewrite B in B'; injection B' as <-.
    apply SFltb_lex. exists a, c. split; [|split]; auto.
    destruct H2 as [H2| <-]; [eapply lex_trans; eauto|assumption].
  - intros x y z H1 H2. apply SFleb_lex in H1 as (a & b & A & B & H1).
    apply SFleb_lex in H2 as (b' & c & B' & C & H2). rewrite B in B'; injection B' as <-.
    apply SFleb_lex. exists a, c. split; [|split]; auto.
    destruct H1 as [H1| ->]; [|assumption]. left.
    destruct H2 as [H2| <-]; [eapply lex_trans; eauto|assumption].
  - intros x y Hx Hy H. destruct (K x Hx) as [a A], (K y Hy) as [b B].
    apply SFleb_lex. exists b, a. split; [|split]; auto.
    destruct (lex_total a b) as [L|[L|L]]; auto.
    assert (SFltb x y = true) as C by (apply SFltb_lex; exists a, b; auto). congruence.
  - intros x y H. destruct (SFltb y x) eqn:E; [|reflexivity].
    apply SFleb_lex in H as (a & b & A & B & H). apply SFltb_lex in E as (b' & a' & B' & A' & E).
    rewrite A in A'; injection A' as <-. rewrite B in B'; injection B' as <-.
    destruct H as [H| ->]; [destruct (lex_irrefl a); eapply lex_trans; eauto | destruct (lex_irrefl _ E)].
  - intros x y H. destruct x; try discriminate. reflexivity.
  - intros x y H. destruct y; try discriminate. destruct x; reflexivity.
  - intros x y. cbn [neq F64]. unfold SFeqb, SFleb. rewrite !SFcompare_key.
    destruct (sf_key x) as [[[a1 a2] a3]|], (sf_key y) as [[[b1 b2] b3]|];
      try (split; [discriminate|intros [? ?]; discriminate]).
    rewrite (Z.compare_antisym a1 b1), (Z.compare_antisym a2 b2), (Z.compare_antisym a3 b3).
    destruct (Z.compare a1 b1), (Z.compare a2 b2), (Z.compare a3 b3); cbn;
      (split; [intros; split|intros [? ?]]); congruence.
Qed.

(** Short names for a few binary64 constants used by examples. *)
Definition fz (z : Z) : F64 := nofZ (n := F64) z.
Definition fnan : F64 := S754_nan.
Definition finf : F64 := S754_infinity false.
