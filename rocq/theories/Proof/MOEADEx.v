(** MOEA/D: rejected settings, the decomposition policies, and concrete runs. *)
From Coq Require Import List Arith Bool ZArith Lia Permutation Reals Lra.
From Verif.Base Require Import Num Vec Instances SortIdx.
From Verif.Model Require Import SA Pareto NSGA2 MOEAD.
From Verif.Spec Require Import ParetoSpec NSGA2Spec MOEADSpec LpSpec.
From Verif.Proof Require Import SAProof NSGA2Proof MOEADProof LpMore.
Import ListNotations.
Local Open Scope nat_scope.

Lemma moead_throws : forall (N : Num) n maxGen (cp np : N) ns (di dw : N) maxReplace (lb ub : list N) apply weights fs stop npow ssort init shuf shuf_front rnd rows x,
  n < 3 \/ ns < 2 \/ n - 1 < ns ->
  moead n maxGen cp np ns di dw maxReplace lb ub apply weights fs stop npow ssort init shuf shuf_front rnd rows x = NThrow.
Proof.
  intros until x. intros H. unfold moead. destruct (Nat.ltb_spec n 3); [reflexivity|].
  destruct (Nat.ltb_spec ns 2); [reflexivity|]. destruct (Nat.ltb_spec (n - 1) ns); [reflexivity|lia].
Qed.

Lemma nearest_self : forall (N : Num) (weights : list (list N)) k i s l, nearest weights k i s l -> i < length weights ->
  (forall j, j < length weights -> j <> i ->
     nlt (dist (nth i weights []) (nth i weights [])) (dist (nth i weights []) (nth j weights [])) = true) ->
  s = i /\ ~ In i l.
Proof.
  intros N weights k i s l (_ & _ & NI & LS & _ & H & _) Hi D. destruct (Nat.eq_dec s i) as [->|NE]; [auto|].
  pose proof (H i Hi) as X. cbv zeta in X. rewrite (D s LS NE) in X. discriminate.
Qed.

(** genes past the first [rows] are not written *)
Lemma set_fold_other : forall {A} (f : list A -> nat -> A) l c k, ~ In k l ->
  nth_error (fold_left (fun c i => set_nth i (f c i) c) l c) k = nth_error c k.
Proof.
  intros A f l; induction l as [|i l IH]; intros c k H; [reflexivity|]. cbn [fold_left].
  rewrite IH by (intros I; apply H; right; exact I). apply set_nth_other. intros ->. apply H. left. reflexivity.
Qed.
Lemma clip_nth : forall {N : Num} (lo hi x : list N) i, i < length lo -> i < length hi -> i < length x ->
  nth_error (clip lo hi x) i = Some (clip1 (nth i lo n0) (nth i hi n0) (nth i x n0)).
Proof.
  intros N lo; induction lo as [|l lo IH]; intros [|h hi] [|a x] [|i] H1 H2 H3; cbn in *; try lia; [reflexivity|].
  apply IH; lia.
Qed.
Lemma later_columns : forall (N : Num) (cp di dw : N) npow w rows lo hi p1 p2 p3 i,
  length lo = length (w_blank w) -> length hi = length (w_blank w) -> rows <= i < length (w_blank w) ->
  nth_error (reproduce cp di dw npow w rows lo hi p1 p2 p3) i =
  Some (clip1 (nth i lo n0) (nth i hi n0) (nth i (w_blank w) n0)).
Proof.
  intros N cp di dw npow w rows lo hi p1 p2 p3 i L1 L2 Hi. unfold reproduce, polynomial.
  set (c := crossed _ _ _ _ _ _ _ _ _).
  assert (LC : length c = length (w_blank w)) by (apply (set_fold_length (fun c i => de_gene cp dw w lo hi p1 p2 p3 i))).
  assert (NI : ~ In i (seq 0 rows)) by (rewrite in_seq; lia).
  set (m := fold_left _ (seq 0 rows) c).
  assert (LM : length m = length (w_blank w)).
  { unfold m. rewrite (set_fold_length (fun c' i => mutated_gene di npow w rows lo hi c' i)). exact LC. }
  rewrite clip_nth by lia. do 2 f_equal.
  assert (E : nth_error m i = nth_error (w_blank w) i).
  { unfold m. rewrite (set_fold_other (fun c' i => mutated_gene di npow w rows lo hi c' i)) by exact NI.
    unfold c, crossed. apply (set_fold_other (fun c i => de_gene cp dw w lo hi p1 p2 p3 i)). exact NI. }
  rewrite (nth_error_nth' m n0), (nth_error_nth' (w_blank w) n0) in E by lia. injection E as E. exact E.
Qed.

(** ** The decomposition policies over the reals *)
Section D.
  Local Open Scope R_scope.
  Variable mx : R.
  Notation RN := (RNum mx).

  Lemma worse_tail : forall a b (P Q : list RN), nowhere_worse (N := RN) (a :: P) (b :: Q) -> a <= b /\ nowhere_worse (N := RN) P Q.
  Proof.
    intros a b P Q H. split; [|intros i u v E1 E2; apply (H (S i) u v); assumption].
    pose proof (H 0%nat a b eq_refl eq_refl) as X. cbn in X. destruct (Rleb_spec a b); [assumption|discriminate].
  Qed.
  Lemma vdot_cons : forall (a b : R) (w f : list R), vdot (N := RN) (a :: w) (b :: f) = a * b + vdot (N := RN) w f.
  Proof. intros. unfold vdot, vmul. rewrite !(vsum_sumR mx). reflexivity. Qed.

  Lemma weighted_mono : forall (w z f g : list RN), length w = length f -> length f = length g -> (forall v, In v w -> 0 < v) ->
    Dominates (N := RN) f g -> weighted_average (N := RN) w z f < weighted_average (N := RN) w z g.
  Proof.
    intros w z f g L1 L2 HW [H1 H2]. unfold weighted_average. clear z.
    assert (X : vdot (N := RN) w f <= vdot (N := RN) w g /\
                (somewhere_better (N := RN) f g -> vdot (N := RN) w f < vdot (N := RN) w g)); [|apply X; exact H2].
    clear H2. revert f g L1 L2 HW H1.
    induction w as [|a w IH]; intros [|b f] [|c g] L1 L2 HW H1; try discriminate.
    - split; [cbn; lra|]. intros (i & u & v & E & _). destruct i; discriminate.
    - rewrite !vdot_cons. apply worse_tail in H1 as [H1 H3].
      destruct (IH f g) as [I1 I2]; [injection L1; auto|injection L2; auto|intros; apply HW; right; assumption|exact H3|].
      assert (A : 0 < a) by (apply HW; left; reflexivity). assert (a * b <= a * c) by (apply Rmult_le_compat_l; lra).
      split; [lra|]. intros ([|i] & u & v & E1 & E2 & E3).
      + cbn in E1, E2. injection E1 as <-. injection E2 as <-. cbn in E3. destruct (Rltb_spec b c); [|discriminate].
        assert (a * b < a * c) by (apply Rmult_lt_compat_l; lra). lra.
      + assert (vdot (N := RN) w f < vdot (N := RN) w g) by (apply I2; exists i, u, v; auto). lra.
  Qed.

  Lemma fold_max : forall (l : list R) m, let r := fold_left (fun m v => if Rltb m v then v else m) l m in
    m <= r /\ (forall v, In v l -> v <= r) /\ (r = m \/ In r l).
  Proof.
    intros l; induction l as [|a l IH]; intros m; cbn [fold_left].
    - cbv zeta. split; [lra|]. split; [intros v []|left; reflexivity].
    - destruct (IH (if Rltb m a then a else m)) as (A & B & C). cbv zeta in *.
      destruct (Rltb_spec m a).
      + split; [lra|]. split; [intros v [<-|I]; [lra|apply B; exact I]|]. destruct C as [->|C]; right; [left; reflexivity|right; exact C].
      + split; [lra|]. split; [intros v [<-|I]; [lra|apply B; exact I]|]. destruct C as [->|C]; [left; reflexivity|right; right; exact C].
  Qed.
  (** the greatest of weight * distance to the ideal point *)
  Lemma tcheby_greatest : forall (w z f : list RN), w <> [] -> length w = length f -> length f = length z ->
    let t := tchebycheff (N := RN) w z f in
    (forall i a b c, nth_error w i = Some a -> nth_error z i = Some b -> nth_error f i = Some c -> a * Rabs (c - b) <= t) /\
    (exists i a b c, nth_error w i = Some a /\ nth_error z i = Some b /\ nth_error f i = Some c /\ t = a * Rabs (c - b)).
  Proof.
    intros w z f NE L1 L2. cbv zeta. unfold tchebycheff.
    set (l := vmul (N := RN) w (map nabs (vsub (N := RN) f z))).
    assert (E : forall i v, nth_error l i = Some v <-> exists a b c, nth_error w i = Some a /\ nth_error z i = Some b /\ nth_error f i = Some c /\ v = a * Rabs (c - b)).
    { intros i v. unfold l, vmul, vsub. rewrite nth_error_map2, nth_error_map, nth_error_map2.
      destruct (nth_error w i), (nth_error f i), (nth_error z i); cbn; split; try discriminate; try (intros (? & ? & ? & ? & ? & ? & ?); discriminate).
      - intros [= <-]. repeat eexists.
      - intros (? & ? & ? & [= <-] & [= <-] & [= <-] & ->). reflexivity. }
    assert (LL : length l = length w).
    { unfold l, vmul, vsub. rewrite map2_length, map_length, map2_length. cbn [T RNum] in *. lia. }
    destruct l as [|v r] eqn:EL; [destruct w; [congruence|discriminate]|].
    destruct (fold_max r v) as (A & B & C). cbv zeta in *.
    split.
    - intros i a b c E1 E2 E3. assert (X : nth_error (v :: r) i = Some (a * Rabs (c - b))) by (apply E; eauto 10).
      apply nth_error_In in X. destruct X as [X|X]; [rewrite <- X; exact A|apply B; exact X].
    - assert (I : In (fold_left (fun m v => if Rltb m v then v else m) r v) (v :: r)) by (destruct C as [C|C]; [left; symmetry; exact C|right; exact C]).
      apply In_nth_error in I as [i I]. apply E in I. exists i. exact I.
  Qed.
  Lemma tcheby_mono : forall (w z f g : list RN), w <> [] -> length w = length f -> length f = length g -> length f = length z ->
    (forall v, In v w -> 0 <= v) -> nowhere_worse (N := RN) z f -> nowhere_worse (N := RN) f g ->
    tchebycheff (N := RN) w z f <= tchebycheff (N := RN) w z g.
  Proof.
    intros w z f g NE L1 L2 L3 HW H1 H2.
    destruct (tcheby_greatest w z f NE L1 L3) as (_ & i & a & b & c & E1 & E2 & E3 & ->).
    destruct (tcheby_greatest w z g NE) as (X & _); [congruence|congruence|].
    destruct (nth_error g i) as [d|] eqn:E4.
    2:{ apply nth_error_None in E4. assert (i < length f)%nat by (apply nth_error_Some; congruence). cbn [T RNum] in *. lia. }
    eapply Rle_trans; [|exact (X i a b d E1 E2 E4)].
    pose proof (H1 i b c E2 E3) as Y1. pose proof (H2 i c d E3 E4) as Y2. cbn in Y1, Y2.
    destruct (Rleb_spec b c); [|discriminate]. destruct (Rleb_spec c d); [|discriminate].
    apply Rmult_le_compat_l; [apply HW; eapply nth_error_In; eauto|]. rewrite !Rabs_right by lra. lra.
  Qed.

  (** penalty boundary intersection can rank a dominated vector first *)
  Lemma pbi_prefers_dominated :
    Dominates (N := RN) [1; 0] [1; 1] /\ nowhere_worse (N := RN) [0; 0] [1; 0] /\
    pbi (N := RN) 5 [3; 4] [0; 0] [1; 1] < pbi (N := RN) 5 [3; 4] [0; 0] [1; 0].
  Proof.
    assert (LE : forall a b : R, a <= b -> Rleb a b = true) by (intros a b H; destruct (Rleb_spec a b); [reflexivity|lra]).
    assert (LT : forall a b : R, a < b -> Rltb a b = true) by (intros a b H; destruct (Rltb_spec a b); [reflexivity|lra]).
    assert (NW : forall a b c d : R, a <= c -> b <= d -> nowhere_worse (N := RN) [a; b] [c; d]).
    { intros a b c d H1 H2 [|[|i]] u v E1 E2; cbn in E1, E2;
        [injection E1 as <-; injection E2 as <-; apply LE; assumption
        |injection E1 as <-; injection E2 as <-; apply LE; assumption|destruct i; discriminate]. }
    split; [split; [apply NW; lra|exists 1%nat, 0, 1; split; [reflexivity|split; [reflexivity|apply LT; lra]]]|].
    split; [apply NW; lra|].
    assert (S5 : sqrt (0 + 3 * 3 + 4 * 4) = 5) by (replace (0 + 3 * 3 + 4 * 4) with (5 * 5) by lra; apply sqrt_square; lra).
    unfold pbi, vdot, vsum, vmul, vsub, vadd, vscale. cbn. rewrite !S5.
    replace (sqrt _) with (1 / 5); [replace (sqrt _) with (4 / 5); [lra|]|].
    - symmetry. match goal with |- sqrt ?e = _ => replace e with ((4 / 5) * (4 / 5)) by field end. apply sqrt_square. lra.
    - symmetry. match goal with |- sqrt ?e = _ => replace e with ((1 / 5) * (1 / 5)) by field end. apply sqrt_square. lra.
  Qed.
End D.

(** ** Concrete runs *)
Definition mz_f (x : list ZNum) : ZNum := match x with [a] => a | _ => 0%Z end.
Definition mz_init (i : nat) : list ZNum := [nth i [5; 4; 3]%Z 0%Z].
Definition mz_rnd (g j : nat) : @mdraws ZNum :=
  {| w_nb := 2%Z; w_a := 0; w_b := 1; w_cross := fun _ => 0%Z; w_lo := fun _ => 0%Z; w_hi := fun _ => 0%Z;
     w_mut := fun _ => 2%Z; w_rand := fun _ => 0%Z;
     w_shuf := fun k => if Nat.eqb k 3 then (if Nat.eqb j 2 then [1; 0; 2] else [0; 1; 2]) else seq 0 k;
     w_blank := [7]%Z |}.
Definition mz_run (fs : list (list ZNum -> ZNum)) : nout (@mres ZNum) :=
  moead (N := ZNum) 3 1 0%Z 1%Z 2 1%Z 1%Z 1 [-9]%Z [9]%Z (weighted_average (N := ZNum)) [[1]; [1]; [1]]%Z fs (fun _ => false)
    (fun a b => a) isort_index mz_init (fun _ => [0; 1; 2]) (fun _ => [2; 0; 1]) mz_rnd 1 [0%Z].

Lemma mz_draws : forall g j, good_mdraws (N := ZNum) 3 2 1 1%Z (mz_rnd g j).
Proof.
  intros g j. split.
  - intros k. cbn [w_shuf mz_rnd]. destruct (Nat.eqb_spec k 3) as [->|]; [|reflexivity].
    destruct (Nat.eqb j 2); [apply perm_swap|reflexivity].
  - cbn. split; [reflexivity|]. split; lia.
Qed.
Lemma mz_good : moead_good (N := ZNum) 3 2 1%Z [-9]%Z [9]%Z [[1]; [1]; [1]]%Z [mz_f] isort_index mz_init
    (fun _ => [0; 1; 2]) (fun _ => [2; 0; 1]) mz_rnd [0%Z].
Proof.
  constructor; try (cbn; lia).
  - split; [reflexivity|]. split; [reflexivity|]. intros [|i] l h; cbn; [intros [= <-] [= <-]; reflexivity|destruct i; discriminate].
  - intros l H. apply (isort_ok Z_ord). exact H.
  - reflexivity.
  - intros g. change (seq 0 3) with ([0; 1] ++ [2]). change [2; 0; 1] with ([2] ++ [0; 1]). apply Permutation_app_comm.
  - exact mz_draws.
Qed.

Lemma mz_run1 : exists r, mz_run [mz_f] = NRet r /\ q_set r = [[4]; [3]; [3]]%Z /\ q_val r = 4%Z.
Proof.
  let v := eval vm_compute in (mz_run [mz_f]) in match v with NRet ?r => exists r end.
  split; [vm_compute; reflexivity|]. split; reflexivity.
Qed.

(** the "Pareto" set has dominated members, and the value is not the least in it *)
Lemma pareto_false : exists r, mz_run [mz_f] = NRet r /\
  (exists p q, In p (q_set r) /\ In q (q_set r) /\ Dominates (objv [mz_f] p) (objv [mz_f] q)) /\
  (exists p, In p (q_set r) /\ (vsum (N := ZNum) (objv [mz_f] p) < q_val r)%Z).
Proof.
  destruct mz_run1 as (r & E & S & V). exists r. split; [exact E|]. rewrite S, V. split.
  - exists [3]%Z, [4]%Z. split; [right; left; reflexivity|]. split; [left; reflexivity|]. split.
    + intros [|i] a b; cbn; [intros [= <-] [= <-]; reflexivity|destruct i; discriminate].
    + exists 0, 3%Z, 4%Z. repeat split.
  - exists [3]%Z. split; [right; left; reflexivity|]. cbn. lia.
Qed.

(** more objectives than individuals: the last loop reads past the end *)
Lemma many_objectives : mz_run [mz_f; mz_f; mz_f; mz_f] = NBad.
Proof. vm_compute. reflexivity. Qed.

(** equal draws send one parent out of the neighbourhood, even to the sub-problem itself *)
Lemma mating_leaves : mating 5 [1; 3] true 0 0 = Some (2, 1) /\ ~ In 2 [1; 3].
Proof. split; [reflexivity|]. intros [H|[H|[]]]; discriminate. Qed.
