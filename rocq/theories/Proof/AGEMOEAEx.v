(** Concrete runs of AGE-MOEA, and the settings it does not survive. *)
From Coq Require Import QArith Qabs Lqa List Arith Bool ZArith QArith Lia Permutation Sorted.
From Verif.Base Require Import Num Vec Size QInst.
From Verif.Model Require Import SA Pareto NSGA2 AGEMOEA.
From Verif.Spec Require Import ParetoSpec NSGA2Spec AGEMOEASpec.
From Verif.Proof Require Import NSGA2Ex AGEMOEARun.
Import ListNotations.
Local Open Scope nat_scope.

(** insertion sort keeps the promise of std::sort *)
Lemma isort_is_sort : forall A : Type, is_sort (A := A) isort.
Proof.
  intros A. split; [intros; apply isort_perm|].
  intros lt l0 SW. destruct SW as (Irr & Tr & Ng).
  assert (As : forall a b, In a l0 -> In b l0 -> lt a b = true -> lt b a = false).
  { intros a b Ha Hb H. destruct (lt b a) eqn:E; [|reflexivity]. rewrite <- (Irr a Ha). symmetry. eapply Tr; eauto. }
  assert (G : forall l, incl l l0 -> StronglySorted (fun a b => lt b a = false) (isort lt l)); [|apply G; apply incl_refl].
  intros l; induction l as [|a l IH]; intros HI; [constructor|].
  change (isort lt (a :: l)) with (ins lt a (isort lt l)).
  assert (S := IH (fun z Hz => HI z (or_intror Hz))).
  assert (Ia : In a l0) by (apply HI; left; reflexivity).
  assert (Il : incl (isort lt l) l0).
  { intros z Hz. apply HI. right. apply (Permutation_in _ (isort_perm lt l)). exact Hz. }
  clear IH HI. revert S Il. generalize (isort lt l). clear l. intros l; induction l as [|b l IH]; intros S Il; cbn [ins].
  - constructor; constructor.
  - inversion S as [|? ? S' Fa]; subst. assert (Ib : In b l0) by (apply Il; left; reflexivity).
    assert (Il' : incl l l0) by (intros z Hz; apply Il; right; exact Hz).
    destruct (lt b a) eqn:E.
    + constructor; [apply IH; assumption|]. apply Forall_forall. intros z Hz.
      apply (Permutation_in _ (ins_perm lt a l)) in Hz. destruct Hz as [<-|Hz]; [apply As; assumption|].
      rewrite Forall_forall in Fa. apply Fa. exact Hz.
    + constructor; [exact S|]. constructor; [exact E|]. apply Forall_forall. intros z Hz.
      rewrite Forall_forall in Fa. specialize (Fa z Hz). cbn in Fa. eapply Ng; [apply Il'; exact Hz|exact Ib|exact Ia|exact Fa|exact E].
Qed.

(** Two objectives in one variable, 100 + x^2 and 200 + x^2, on [-10, 10].  The
    distribution index is 0, so that only powers with exponent 1 occur. *)
Definition qf1 (x : list QNum) : QNum := match x with [a] => Qred (100 + a * a) | _ => 0%Q end.
Definition qf2 (x : list QNum) : QNum := match x with [a] => Qred (200 + a * a) | _ => 0%Q end.
Definition qpw (a b : QNum) : QNum := if Qeq_bool b 1 then a else if Qeq_bool b (-1) then Qred (1 / a) else 0%Q.
Definition qdraw (ra rb : Q) : @adraws QNum :=
  {| a_a := 0; a_b := 1; a_u := 1%Q : QNum; a_us1 := [0%Q : T QNum]; a_us2 := [0%Q : T QNum]; a_us3 := [0%Q : T QNum];
     a_ma := [(0%Q : T QNum, ra : T QNum)]; a_mb := [(0%Q : T QNum, rb : T QNum)] |}.
Definition qrun (gens : nat) (init : nat -> list QNum) (rnd : nat -> nat -> @adraws QNum) : nout (@ares QNum) :=
  AGEMOEA.optimize (N := QNum) 4 gens (1#2)%Q 0%Q (1#1000)%Q 0%Q [-10]%Q [10]%Q [qf1; qf2] (fun _ => false)
    qpw (fun a => a) (fun _ => None) 1000000%Q (1#100000000000000)%Q (1#10000000000)%Q (1#1000000)%Q init rnd isort 10 [(1#2)%Q].

Lemma q_good : forall gens init rnd, 1 <= gens -> (forall i, length (init i) = 1) -> (forall g j, good_adraws 4 1 (rnd g j)) ->
  age_good (N := QNum) 4 gens [-10]%Q [10]%Q [qf1; qf2] init rnd isort [(1#2)%Q].
Proof.
  intros gens init rnd H HI HD. constructor; auto.
  - split; [reflexivity|]. split; [reflexivity|]. intros [|i] l h; cbn; [intros [= <-] [= <-]; reflexivity|destruct i; discriminate].
  - intros c l. apply isort_perm.
Qed.

(** members 4 1 5 6; the children are 7 8 9 9.5, all worse *)
Definition initB (i : nat) : list QNum := [nth i [4; 1; 5; 6]%Q 0%Q].
Definition rndB (g j : nat) : @adraws QNum := if Nat.eqb j 0 then qdraw (3#4) (8#9) else qdraw (11#12) (35#36).
Lemma drawB : forall g j, good_adraws 4 1 (rndB g j).
Proof. intros g [|j]; repeat split; cbn; lia. Qed.

Lemma one_gen : forall {N : Num} (x x2 x3 : list N) oo ff o f y,
  In (NGen y o f) [NBegin x; NGen x2 oo ff; NEnd x3] -> o = oo.
Proof. intros N x x2 x3 oo ff o f y [H|[H|[H|[]]]]; try discriminate. injection H as _ H _. symmetry; exact H. Qed.

Lemma runB : exists (r : @ares QNum) objs fronts, qrun 1 initB rndB = NRet r /\
  q_set r = [[1]; [4]; [5]; [6]]%Q /\ q_x r = [4]%Q /\ (q_val r < 4)%Q /\
  q_merged r = [[4]; [1]; [5]; [6]; [7]; [8]; [9]; [19 # 2]]%Q /\
  q_tr r = [NBegin (N := QNum) [(1#2)%Q]; NGen (N := QNum) [(1#2)%Q] objs fronts; NEnd (N := QNum) [4%Q]] /\
  hd [] objs = [(116 # 101)%Q; (72 # 67)%Q].
Proof.
  let v := eval vm_compute in (qrun 1 initB rndB) in
  match v with NRet ?r => exists r; let t := eval cbn in (q_tr r) in match t with [_; NGen _ ?o ?f; _] => exists o, f end end.
  split; [vm_cast_no_check (eq_refl (qrun 1 initB rndB))|].
  split; [reflexivity|]. split; [reflexivity|]. split; [reflexivity|]. split; [reflexivity|]. split; reflexivity.
Qed.

(** members 3 4 5 6; the children are 0 1 2 2.5, all better *)
Definition initA (i : nat) : list QNum := [nth i [3; 4; 5; 6]%Q 0%Q].
Definition rndA (g j : nat) : @adraws QNum := if Nat.eqb j 0 then qdraw (5#13) (11#28) else qdraw (6#13) (25#56).
Lemma drawA : forall g j, good_adraws 4 1 (rndA g j).
Proof. intros g [|j]; repeat split; cbn; lia. Qed.
Definition is_bad' {A : Type} (o : nout A) : bool := match o with NBad => true | _ => false end.
Lemma runA : qrun 1 initA rndA = NBad.
Proof.
  assert (H : is_bad' (qrun 1 initA rndA) = true) by (vm_compute; reflexivity).
  destruct (qrun 1 initA rndA); try discriminate H. reflexivity.
Qed.

Lemma reads_past_end :
  exists init rnd, age_good (N := QNum) 4 1 [-10]%Q [10]%Q [qf1; qf2] init rnd isort [(1#2)%Q] /\ qrun 1 init rnd = NBad.
Proof. exists initA, rndA. split; [apply q_good; [lia|reflexivity|apply drawA]|exact runA]. Qed.

Lemma age_front_false :
  exists init rnd r, age_good (N := QNum) 4 1 [-10]%Q [10]%Q [qf1; qf2] init rnd isort [(1#2)%Q] /\ qrun 1 init rnd = NRet r /\
    (* a slice of the front is dominated by another *)
    (exists p q, In p (q_front r) /\ In q (q_front r) /\ Dominates p q) /\
    (* so is the iterate *)
    (exists p, In p (q_set r) /\ Dominates (objv [qf1; qf2] p) (objv [qf1; qf2] (q_x r))) /\
    (* the returned value is below every value of every objective *)
    (forall f x, In f [qf1; qf2] -> length x = 1 -> (q_val r < f x)%Q) /\
    (* the objectives shown to the callbacks are not those of the individuals *)
    (forall objs fronts y, In (NGen y objs fronts) (q_tr r) -> objs <> map (objv [qf1; qf2]) (q_merged r)).
Proof.
  exists initB, rndB. destruct runB as (r & objs & fronts & E & E1 & E2 & E3 & E4 & E5 & E6). exists r.
  assert (GB := q_good 1 initB rndB (le_n 1) (fun _ => eq_refl) drawB).
  split; [exact GB|]. split; [exact E|].
  assert (D : Dominates (objv (N := QNum) [qf1; qf2] [1%Q]) (objv [qf1; qf2] [4%Q])).
  { split.
    - intros [|[|i]] a b; cbn; try (intros [= <-] [= <-]; reflexivity). destruct i; discriminate.
    - exists 0, (101#1)%Q, (116#1)%Q. repeat split; reflexivity. }
  split.
  { assert (R : age_reported (N := QNum) 4 1 [-10]%Q [10]%Q [qf1; qf2] (fun _ => false) [(1#2)%Q] r).
    { unfold qrun in E. eapply (optimize_report Q_ord); [exact GB| | |exact E]; [discriminate|lia]. }
    destruct R as (_ & _ & EF & _). rewrite EF, E1.
    exists (objv [qf1; qf2] [1%Q]), (objv [qf1; qf2] [4%Q]). cbn [map]. split; [left; reflexivity|]. split; [right; left; reflexivity|exact D]. }
  split; [exists [1%Q]; rewrite E1, E2; split; [left; reflexivity|exact D]|].
  split.
  { intros f x Hf Hx. destruct x as [|a [|b x]]; try discriminate Hx. clear - E3 Hf.
    assert (Qa : (0 <= a * a)%Q).
    { unfold Qle. cbn. destruct a as [u v]. cbn. nia. }
    eapply Qlt_trans; [exact E3|]. destruct Hf as [<-|[<-|[]]]; unfold qf1, qf2; rewrite Qred_correct; Lqa.lra. }
  intros o fr y H. rewrite E5 in H. apply one_gen in H. subst o.
  intros X. rewrite X, E4 in E6. vm_compute in E6. discriminate.
Qed.

Lemma qge_iff : forall a : QNum, nlt a n0 = false <-> (0 <= a)%Q.
Proof.
  intros a. cbn [nlt n0 QNum]. unfold Qltb. rewrite negb_false_iff, Qle_bool_iff. reflexivity.
Qed.
Lemma qpw_ge : forall a b : QNum, (0 <= a)%Q -> (0 <= qpw a b)%Q.
Proof.
  intros a b H. unfold qpw. destruct (Qeq_bool b 1); [exact H|]. destruct (Qeq_bool b (-1)); [|lra].
  rewrite Qred_correct. unfold Qdiv. rewrite Qmult_1_l. apply Qinv_le_0_compat. exact H.
Qed.
Lemma qsum_ge : forall (l : list QNum) (a : QNum), (0 <= a)%Q -> (forall e, In e l -> (0 <= e)%Q) -> (0 <= fold_left nadd l a)%Q.
Proof.
  intros l; induction l as [|e l IH]; intros a Ha H; cbn [fold_left]; [exact Ha|].
  apply IH; [|intros; apply H; right; assumption]. cbn [nadd QNum]. rewrite Qred_correct.
  assert (0 <= e)%Q by (apply H; left; reflexivity). lra.
Qed.
Lemma qpnorm_ge : forall (p : QNum) v, (0 <= pnorm qpw p v)%Q.
Proof.
  intros p v. unfold pnorm. apply qpw_ge. apply qsum_ge; [cbn; lra|].
  intros e He. apply in_map_iff in He as (z & <- & _). apply qpw_ge. cbn [nabs QNum]. rewrite Qred_correct. apply Qabs_nonneg.
Qed.
Lemma qdist : forall o fr p i j, nlt (pairwise (N := QNum) qpw o fr p i j) n0 = false.
Proof.
  intros o fr p i j. apply qge_iff. unfold pairwise. cbn [ndiv QNum]. rewrite Qred_correct. unfold Qdiv.
  apply Qmult_le_0_compat; [|apply Qinv_le_0_compat; apply qpnorm_ge].
  destruct (Nat.eqb i j); [cbn; lra|apply qpnorm_ge].
Qed.
Lemma qscore : score_laws (N := QNum) 1000000%Q.
Proof.
  constructor; [reflexivity|reflexivity|].
  assert (G : forall a : QNum, (a = n0 \/ (nlt a n0 = false /\ nlt a 1000000%Q = true)) -> (0 <= a)%Q).
  { intros a [->|[H _]]; [cbn; lra|apply qge_iff; exact H]. }
  intros a b Ha Hb. apply G in Ha, Hb. cbn [nlt nadd nopp n1 QNum]. apply Qltb_lt. rewrite !Qred_correct. lra.
Qed.
Lemma age_ex :
  age_good (N := QNum) 4 1 [-10]%Q [10]%Q [qf1; qf2] initB rndB isort [(1#2)%Q] /\
  score_laws (N := QNum) 1000000%Q /\
  (forall o fr p i j, nlt (pairwise (N := QNum) qpw o fr p i j) n0 = false) /\
  @is_sort (list QNum) isort /\
  (forall a : QNum, nle (nabs (nsub a a)) (1#1000)%Q = true) /\
  exists r, qrun 1 initB rndB = NRet r /\ q_set r = [[1]; [4]; [5]; [6]]%Q /\
    (forall p q, In p (q_merged r) -> In q (q_merged r) -> approx_equal (N := QNum) (1#1000)%Q p q = true -> p = q).
Proof.
  split; [exact (q_good 1 initB rndB (le_n 1) (fun _ => eq_refl) drawB)|]. split; [exact qscore|]. split; [exact qdist|].
  split; [apply isort_is_sort|]. split.
  { intros a. cbn [nle nabs nsub QNum]. apply Qle_bool_iff. rewrite !Qred_correct.
    setoid_replace (a - a)%Q with 0%Q by ring. cbn. lra. }
  destruct runB as (r & objs & fronts & E & E1 & _ & _ & E4 & _). exists r. split; [exact E|]. split; [exact E1|].
  rewrite E4. intros p q Hp Hq.
  repeat (destruct Hp as [<-|Hp]; [repeat (destruct Hq as [<-|Hq]; [solve [intros _; reflexivity|vm_compute; discriminate]|]); destruct Hq|]); destruct Hp.
Qed.

Section Gen.
  Context {N : Num}.
  Lemma age_small_throws : forall n maxGen (cp di eps eta : N) lb ub fs stop pw lg solve inf t14 t10 t6 init rnd sortp fuel x,
    1 <= n <= 3 -> AGEMOEA.optimize n maxGen cp di eps eta lb ub fs stop pw lg solve inf t14 t10 t6 init rnd sortp fuel x = NThrow.
  Proof.
    intros. unfold AGEMOEA.optimize. destruct n as [|[|[|[|n]]]]; try lia; reflexivity.
  Qed.
  Lemma age_no_generation : forall n (cp di eps eta : N) lb ub fs stop pw lg solve inf t14 t10 t6 init rnd sortp fuel x,
    n = 0 \/ 4 <= n -> AGEMOEA.optimize n 0 cp di eps eta lb ub fs stop pw lg solve inf t14 t10 t6 init rnd sortp fuel x = NBad.
  Proof.
    intros n cp di eps eta lb ub fs stop pw lg solve inf t14 t10 t6 init rnd sortp fuel x H. unfold AGEMOEA.optimize.
    replace (Nat.ltb n 4 && negb (Nat.eqb (n mod 4) 0)) with false; [reflexivity|].
    destruct H as [->|H]; [reflexivity|]. replace (Nat.ltb n 4) with false; [reflexivity|].
    symmetry. apply Nat.ltb_ge. exact H.
  Qed.
  Lemma age_no_population : forall maxGen (cp di eps eta : N) lb ub fs stop pw lg solve inf t14 t10 t6 init rnd sortp fuel x,
    AGEMOEA.optimize 0 maxGen cp di eps eta lb ub fs stop pw lg solve inf t14 t10 t6 init rnd sortp (S fuel) x = NBad.
  Proof.
    intros maxGen cp di eps eta lb ub fs stop pw lg solve inf t14 t10 t6 init rnd sortp fuel x.
    destruct maxGen as [|k]; [reflexivity|]. destruct fs; reflexivity.
  Qed.
End Gen.
