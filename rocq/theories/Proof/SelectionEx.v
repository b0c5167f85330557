(** Concrete cases for the survivor selection of NSGA-II. *)
From Coq Require Import List Arith Bool ZArith Reals Lra Lia Permutation Sorted.
From Verif.Base Require Import Num Vec Instances.
From Verif.Model Require Import SA Pareto NSGA2.
From Verif.Spec Require Import ParetoSpec NSGA2Spec AGEMOEASpec SelectionSpec.
From Verif.Proof Require Import NSGA2Ex AGEMOEAEx SelectionProof SelectionRun.
Import ListNotations.

(** ** a run over the reals that meets all hypotheses *)
Section RealRun.
  Local Open Scope R_scope.
  Notation RN := (RNum 1000).
  Definition rf1 (x : list RN) : RN := nth 0 x 0.
  Definition rf2 (x : list RN) : RN := 2 * nth 0 x 0.
  Definition rinit (i : nat) : list RN := [nth i [11/2; 7/2; 9/2; 13/2] 0].
  Definition rrnd (g j : nat) : @draws RN :=
    Build_draws (N := RN) 0 1 [0] [0] [50 + 20 * INR j] [0] [60 + 20 * INR j].

  Lemma r_good : nsga2_good (N := RN) 4 1 [-1000] [1000] [rf1; rf2] rinit rrnd isort 10 [0].
  Proof.
    constructor.
    - lia.
    - lia.
    - split; [reflexivity|]. split; [reflexivity|]. intros [|i] l h; cbn; [|destruct i; discriminate].
      intros [= <-] [= <-]. unfold Rltb. destruct Rlt_dec; [lra|reflexivity].
    - reflexivity.
    - intros g j. repeat split; cbn; lia.
    - reflexivity.
    - intros c l. apply isort_perm.
    - lia.
  Qed.

  Definition rparents : list (list RN) := [[5]; [3]; [4]; [6]].
  Definition rchildren : list (list RN) := [[55]; [65]; [75]; [85]].

  Ltac dec := repeat (match goal with |- context [Rlt_dec ?a ?b] =>
    lazymatch a with context [Rlt_dec _ _] => fail | _ => idtac end;
    lazymatch b with context [Rlt_dec _ _] => fail | _ => idtac end;
    let Hd := fresh in destruct (@Rlt_dec (a : R) (b : R)) as [Hd|Hd]; [try (exfalso; clear - Hd; cbn in Hd; lra)|try (exfalso; clear - Hd; cbn in Hd; lra)] end).

  Lemma r_parents_eq : map (fun i => clip (N := RN) (spread (N := RN) 1 [-1000]) (spread (N := RN) 1 [1000]) (vadd (N := RN) (map (fun u : RN => nsub u (ndiv n1 (nofZ 2))) (rinit i)) [0])) (seq 0 4) = rparents.
  Proof.
    unfold rparents. cbn. unfold clip1, rinit. cbn. unfold Rltb. dec.
    repeat (apply (f_equal2 cons)); try reflexivity; match goal with |- ?a = ?b => change (@eq R a b) end; lra.
  Qed.

  Lemma r_children_eq : forall fuel gen cs,
    NSGA2.children (N := RN) 4 1 1 1 rrnd fuel gen 0 (spread (N := RN) 1 [-1000]) (spread (N := RN) 1 [1000]) rparents [] = NRet cs -> cs = rchildren.
  Proof.
    intros [|[|[|fuel]]] gen cs; try (cbn; discriminate).
    - cbn. unfold clip1. cbn. unfold Rltb, ind. cbn. dec. intros [= <-]. unfold rchildren. repeat (apply (f_equal2 cons)); try reflexivity; match goal with |- ?a = ?b => change (@eq R a b) end; lra.
    - cbn. unfold clip1. cbn. unfold Rltb, ind. cbn. dec. intros [= <-]. unfold rchildren. repeat (apply (f_equal2 cons)); try reflexivity; match goal with |- ?a = ?b => change (@eq R a b) end; lra.
  Qed.

  Lemma r_tie_free : tie_free (map (objv [rf1; rf2]) rparents) 2 (seq 0 4).
  Proof.
    intros m i j Hm Hi Hj. apply in_seq in Hi, Hj. unfold fval.
    destruct m as [|[|m]]; [| |lia]; destruct i as [|[|[|[|i]]]]; try lia; destruct j as [|[|[|[|j]]]]; try lia; try reflexivity;
      cbn; unfold rf1, rf2; cbn; intros H; exfalso; lra.
  Qed.

  Lemma r_apart : apart 0 (rparents ++ rchildren).
  Proof.
    intros p q Hp Hq NE. cbn in Hp, Hq.
    assert (X : forall a b : R, p = [a] -> q = [b] -> exists k a b, nth_error p k = Some a /\ nth_error q k = Some b /\ 0 < Rabs (a - b)).
    { intros a b -> ->. exists 0%nat, a, b. split; [reflexivity|]. split; [reflexivity|]. apply Rabs_pos_lt. intros H.
      apply NE. f_equal. lra. }
    repeat (destruct Hp as [<-|Hp]; [repeat (destruct Hq as [<-|Hq]; [eapply X; reflexivity|]); destruct Hq|]). destruct Hp.
  Qed.

  (** parents 5 3 4 6, children 55 65 75 85: only 3 survives, and 5 is replaced by worse children *)
  Lemma r_not_child : forall p, In p rparents -> ~ In p rchildren.
  Proof.
    intros p Hp Hq. cbn in Hp, Hq.
    repeat (destruct Hp as [<-|Hp]; [repeat (destruct Hq as [Hq|Hq]; [injection Hq as Hq; lra|]); destruct Hq|]). destruct Hp.
  Qed.
End RealRun.

(** ** what is false *)
Lemma worse_child_kept : exists r, zrun (fun _ => false) 1 = NRet r /\
  exists p q, In p (r_parents r) /\ ~ In p (r_pop r) /\ In q (r_pop r) /\ ~ In q (r_parents r) /\
    Dominates (objv [zf1; zf2] p) (objv [zf1; zf2] q).
Proof.
  let v := eval vm_compute in (zrun (fun _ => false) 1) in match v with NRet ?r => exists r end.
  split; [vm_compute; reflexivity|]. exists [4]%Z, [55]%Z. cbn [r_parents r_pop].
  split; [cbn; tauto|]. split; [|split; [|split; [|split]]].
  - intros H. repeat (destruct H as [H|H]; [discriminate H|]). destruct H.
  - cbn. tauto.
  - intros H. repeat (destruct H as [H|H]; [discriminate H|]). destruct H.
  - intros [|[|i]] a b; cbn; try (intros [= <-] [= <-]; reflexivity). destruct i; discriminate.
  - exists 0, 116%Z, 3125%Z. repeat split; reflexivity.
Qed.

(** a std::sort that leaves equivalent elements in descending order *)
Definition dsort (lt : list ZNum -> list ZNum -> bool) (l : list (list ZNum)) : list (list ZNum) :=
  isort lt (isort (fun a b => match a, b with [x], [y] => Z.ltb y x | _, _ => false end) l).
Lemma dsort_ok : is_sort dsort.
Proof.
  destruct (@isort_is_sort (list ZNum)) as [SP SS]. split.
  - intros lt l. unfold dsort. rewrite SP. apply SP.
  - intros lt l [S1 [S2 S3]]. unfold dsort.
    match goal with |- context [isort lt ?m] => set (l' := m) end.
    assert (I : forall a, In a l' -> In a l) by (intros a; apply Permutation_in; apply SP).
    apply SS. split; [|split]; [intros a Ha; auto|intros a b c Ha Hb Hc; apply (S2 a b c); auto|intros a b c Ha Hb Hc; apply (S3 a b c); auto].
Qed.

(** members 5 3 4 6 7; the second child is a copy of 3, the others are far away *)
Definition cinit (i : nat) : list ZNum := [nth i [5; 3; 4; 6; 7]%Z 0%Z].
Definition crnd (g j : nat) : @draws ZNum :=
  if Nat.eqb j 0
  then {| d_a := 1; d_b := 0; d_cross := [0%Z]; d_ua := [0%Z]; d_na := [50%Z]; d_ub := [2%Z]; d_nb := [50%Z] |}
  else {| d_a := 0; d_b := 1; d_cross := [0%Z]; d_ua := [0%Z]; d_na := [(50 + 20 * Z.of_nat j)%Z]; d_ub := [0%Z]; d_nb := [(60 + 20 * Z.of_nat j)%Z] |}.
Lemma copied_best_lost :
  nsga2_good (N := ZNum) 5 1 [-1000]%Z [1000]%Z [zf1; zf2] cinit crnd dsort 10 [0%Z] /\ is_sort dsort /\
  exists r, optimize (N := ZNum) 5 1 1%Z 1%Z 1%Z 0%Z [-1000]%Z [1000]%Z [zf1; zf2] (fun _ => false) cinit crnd dsort isort 10 [0%Z] = NRet r /\
  exists p, In p (r_parents r) /\ (forall q, In q (r_parents r) -> q = p \/ Dominates (objv [zf1; zf2] p) (objv [zf1; zf2] q)) /\
    (forall q, In q (r_pop r) -> Dominates (objv [zf1; zf2] p) (objv [zf1; zf2] q)).
Proof.
  split; [|split; [exact dsort_ok|]].
  - constructor.
    + lia. + lia.
    + split; [reflexivity|]. split; [reflexivity|]. intros [|i] l h; cbn; [intros [= <-] [= <-]; reflexivity|destruct i; discriminate].
    + reflexivity.
    + intros g [|j]; repeat split; cbn; lia.
    + reflexivity.
    + apply dsort_ok.
    + lia.
  - match goal with |- context [optimize ?n ?a ?b ?c ?d ?e ?f ?g ?h ?i ?j ?k ?l ?m ?o ?p] =>
      let v := eval vm_compute in (optimize n a b c d e f g h i j k l m o p) in match v with NRet ?r => exists r end end.
    split; [vm_compute; reflexivity|]. exists [3]%Z. cbn [r_parents r_pop].
    assert (D : forall a : Z, (9 < a * a)%Z -> Dominates (objv (N := ZNum) [zf1; zf2] [3%Z]) (objv [zf1; zf2] [a])).
    { intros a Ha. split.
      - intros i x y H1 H2. destruct i as [|[|[|i]]]; cbn [nth_error objv map] in H1, H2; try discriminate H1;
          injection H1 as <-; injection H2 as <-; apply Z.leb_le; first [change (109 <= 100 + a * a)%Z | change (209 <= 200 + a * a)%Z]; lia.
      - exists 0, 109%Z, (100 + a * a)%Z. split; [reflexivity|]. split; [reflexivity|]. apply Z.ltb_lt. lia. }
    split; [cbn; tauto|]. split; intros q Hq; cbn in Hq; repeat (destruct Hq as [<-|Hq]; [first [left; reflexivity | right; apply D; reflexivity | apply D; reflexivity]|]); destruct Hq.
Qed.

Lemma real_run : nsga2_good (N := RNum 1000) 4 1 [-1000]%R [1000]%R [rf1; rf2] rinit rrnd isort 10 [0%R] /\
  @is_sort (list R) isort /\ @is_sort nat isort /\
  exists r, optimize (N := RNum 1000) 4 1 1%R 1%R 1%R 0%R [-1000]%R [1000]%R [rf1; rf2] (fun _ => false) rinit rrnd isort isort 10 [0%R] = NRet r /\
    r_parents r = rparents /\
    (forall fuel gen cs, NSGA2.children (N := RNum 1000) 4 1%R 1%R 1%R rrnd fuel gen 0 (spread (N := RNum 1000) 1 [-1000]%R) (spread (N := RNum 1000) 1 [1000]%R) (r_parents r) [] = NRet cs ->
       cs = rchildren /\ apart 0 (r_parents r ++ cs) /\ (forall p, In p (r_parents r) -> ~ In p cs)) /\
    tie_free (map (objv [rf1; rf2]) (r_parents r)) 2 (seq 0 4) /\
    In [3%R] (r_pop r) /\ ~ In [5%R] (r_pop r).
Proof.
  split; [exact r_good|]. split; [apply isort_is_sort|]. split; [apply isort_is_sort|].
  destruct (NSGA2Proof.optimize_ok (R_ord 1000) 4 1 1%R 1%R 1%R 0%R [-1000]%R [1000]%R [rf1; rf2] (fun _ => false) rinit rrnd isort isort 10 [0%R] r_good)
    as (r & E & _).
  exists r. split; [exact E|].
  assert (P : r_parents r = rparents).
  { rewrite (one_generation (RNum 1000) 4 1%R 1%R 1%R 0%R _ _ _ _ _ _ _ _ _ _ _ E). exact r_parents_eq. }
  assert (MP : (0 < 1000)%R) by lra.
  destruct (optimize_survivors 1000 MP 4 1 1%R 1%R 1%R 0%R _ _ _ _ _ _ _ _ _ _ r r_good (isort_is_sort _) (isort_is_sort _) (Rle_refl 0) ltac:(discriminate) E)
    as (cs & dr & _ & (f & g & EC) & _ & SV).
  assert (CS : cs = rchildren) by (rewrite P in EC; eapply r_children_eq; exact EC).
  rewrite P in SV |- *. subst cs. split; [reflexivity|]. split; [|split; [exact r_tie_free|]].
  { intros f' g' cs' E'. apply r_children_eq in E'. subst cs'. split; [reflexivity|]. split; [exact r_apart|exact r_not_child]. }
  specialize (SV r_apart r_tie_free).
  assert (B1 : best_in (N := RNum 1000) [rf1; rf2] rparents 1).
  { clear. split; [cbn; lia|]. intros j (p & q & E1 & E2 & _ & (k & a & b & Ea & Eb & L)).
    injection E2 as <-. destruct j as [|[|[|[|j]]]]; cbn in E1; try (destruct j; discriminate E1); injection E1 as <-;
      (destruct k as [|[|k]]; cbn in Ea, Eb; try (destruct k; discriminate Ea); injection Ea as <-; injection Eb as <-;
       cbn in L; unfold Rltb in L; (destruct Rlt_dec; [|discriminate]); unfold rf1, rf2 in *; cbn in *; lra). }
  assert (B0 : ~ best_in (N := RNum 1000) [rf1; rf2] rparents 0).
  { clear. intros [_ NB]. apply (NB 1). exists [3; 2 * 3]%R, [5; 2 * 5]%R. split; [reflexivity|]. split; [reflexivity|]. split.
    - intros k a b Ea Eb. destruct k as [|[|k]]; cbn in Ea, Eb; try (destruct k; discriminate Ea); injection Ea as <-; injection Eb as <-;
        cbn; unfold Rleb; (destruct Rle_dec; [reflexivity|exfalso; lra]).
    - exists 0, 3%R, 5%R. split; [reflexivity|]. split; [reflexivity|]. cbn. unfold Rltb. destruct Rlt_dec; [reflexivity|exfalso; lra]. }
  split.
  - apply (proj2 (SV 1 ltac:(lia) (r_not_child (nth 1 rparents []) ltac:(cbn; tauto)))). exact B1.
  - intros H. apply B0. apply (proj1 (SV 0 ltac:(lia) (r_not_child (nth 0 rparents []) ltac:(cbn; tauto)))). exact H.
Qed.
