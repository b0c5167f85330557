From Coq Require Import List Arith Bool Reals Lra Lia.
From Verif.Base Require Import Num Instances Vec.
From Verif.Spec Require Import LBFGSSpec.
Import ListNotations.
Local Open Scope R_scope.

(** ** Sums *)
Lemma rsum_ext n u v : (forall i, (i < n)%nat -> u i = v i) -> rsum n u = rsum n v.
Proof. induction n as [|n IH]; intros H; cbn; [reflexivity|]. rewrite IH, H by (auto with arith). reflexivity. Qed.
Lemma rsum_plus n u v : rsum n (fun i => u i + v i) = rsum n u + rsum n v.
Proof. induction n as [|n IH]; cbn; [ring|]. rewrite IH. ring. Qed.
Lemma rsum_minus n u v : rsum n (fun i => u i - v i) = rsum n u - rsum n v.
Proof. induction n as [|n IH]; cbn; [ring|]. rewrite IH. ring. Qed.
Lemma rsum_scal n c u : rsum n (fun i => c * u i) = c * rsum n u.
Proof. induction n as [|n IH]; cbn; [ring|]. rewrite IH. ring. Qed.
Lemma rsum_scal_r n c u : rsum n (fun i => u i * c) = rsum n u * c.
Proof. induction n as [|n IH]; cbn; [ring|]. rewrite IH. ring. Qed.
Lemma rsum_0 n : rsum n (fun _ => 0) = 0.
Proof. induction n as [|n IH]; cbn; [reflexivity|]. rewrite IH. ring. Qed.
Lemma rsum_swap n m u : rsum n (fun i => rsum m (fun j => u i j)) = rsum m (fun j => rsum n (fun i => u i j)).
Proof.
  induction n as [|n IH]; cbn [rsum]; [symmetry; apply rsum_0|].
  rewrite IH, <- rsum_plus. reflexivity.
Qed.
Lemma rsum_delta n i u : (i < n)%nat -> rsum n (fun j => mid i j * u j) = u i.
Proof.
  induction n as [|n IH]; intros H; [lia|]. cbn [rsum]. unfold mid at 2.
  destruct (Nat.eqb_spec i n) as [->|NE].
  - rewrite (rsum_ext n _ (fun _ => 0)), rsum_0; [ring|].
    intros j J. unfold mid. destruct (Nat.eqb_spec n j); [lia|ring].
  - rewrite IH by lia. ring.
Qed.
Lemma rsum_nonneg n u : (forall i, (i < n)%nat -> 0 <= u i) -> 0 <= rsum n u.
Proof.
  induction n as [|n IH]; intros H; cbn; [lra|]. pose proof (H n (Nat.lt_succ_diag_r n)).
  assert (0 <= rsum n u) by (apply IH; auto with arith). lra.
Qed.
Lemma rsum_zero n u : (forall i, (i < n)%nat -> 0 <= u i) -> rsum n u = 0 -> forall i, (i < n)%nat -> u i = 0.
Proof.
  induction n as [|n IH]; intros H E i I; [lia|]. cbn in E.
  pose proof (H n (Nat.lt_succ_diag_r n)).
  assert (0 <= rsum n u) by (apply rsum_nonneg; auto with arith).
  destruct (Nat.eq_dec i n) as [->|NE]; [lra|]. apply IH; [auto with arith|lra|lia].
Qed.

Lemma rdot_comm n u v : rdot n u v = rdot n v u.
Proof. apply rsum_ext. intros; ring. Qed.
Lemma rdot_ext n u u' v v' : (forall i, (i < n)%nat -> u i = u' i) -> (forall i, (i < n)%nat -> v i = v' i) ->
  rdot n u v = rdot n u' v'.
Proof. intros A B. apply rsum_ext. intros i I. rewrite A, B by exact I. reflexivity. Qed.

(** ** Matrices *)
Lemma mv_ext n A x y i : (forall j, (j < n)%nat -> x j = y j) -> mv n A x i = mv n A y i.
Proof. intros H. apply rsum_ext. intros j J. rewrite H by exact J. reflexivity. Qed.
Lemma mv_mmul n A B x i : mv n (mmul n A B) x i = mv n A (mv n B x) i.
Proof.
  unfold mv, mmul. transitivity (rsum n (fun j => rsum n (fun k => A i k * B k j * x j))).
  - apply rsum_ext. intros j _. rewrite <- rsum_scal_r. reflexivity.
  - rewrite rsum_swap. apply rsum_ext. intros k _. rewrite <- rsum_scal. apply rsum_ext. intros; ring.
Qed.
(** v . (A^T w) = (A v) . w *)
Lemma rdot_trans n A v w : rdot n v (mv n (mtrans A) w) = rdot n (mv n A v) w.
Proof.
  unfold rdot, mv, mtrans. transitivity (rsum n (fun i => rsum n (fun j => v i * (A j i * w j)))).
  - apply rsum_ext. intros i _. rewrite <- rsum_scal. reflexivity.
  - rewrite rsum_swap. apply rsum_ext. intros j _. rewrite <- rsum_scal_r. apply rsum_ext. intros; ring.
Qed.

Section Update.
  Variables (n : nat) (s y : list R).
  Notation r := (rho n s y).
  Notation V := (fun i j => mid i j - r * at_ y i * at_ s j).

  Lemma mv_V x i : (i < n)%nat -> mv n V x i = x i - r * rdot n (at_ s) x * at_ y i.
  Proof.
    intros I. unfold mv. transitivity (rsum n (fun j => mid i j * x j - r * at_ y i * (at_ s j * x j))).
    { apply rsum_ext. intros; ring. }
    rewrite rsum_minus, rsum_delta, rsum_scal by exact I. unfold rdot. ring.
  Qed.
  Lemma mid_sym i j : mid i j = mid j i.
  Proof. unfold mid. rewrite Nat.eqb_sym. reflexivity. Qed.
  Lemma mv_VT x i : (i < n)%nat -> mv n (mtrans V) x i = x i - r * rdot n (at_ y) x * at_ s i.
  Proof.
    intros I. unfold mv, mtrans.
    transitivity (rsum n (fun j => mid i j * x j - r * at_ s i * (at_ y j * x j))).
    { apply rsum_ext. intros j _. rewrite (mid_sym j i). ring. }
    rewrite rsum_minus, rsum_delta, rsum_scal by exact I. unfold rdot. ring.
  Qed.
  Lemma mv_update H x i : (i < n)%nat ->
    mv n (bfgs_update n s y H) x i =
    mv n (mtrans V) (mv n H (mv n V x)) i + r * rdot n (at_ s) x * at_ s i.
  Proof.
    intros I. unfold bfgs_update. unfold mv at 1.
    transitivity (rsum n (fun j => mmul n (mtrans V) (mmul n H V) i j * x j + r * at_ s i * (at_ s j * x j))).
    { apply rsum_ext. intros; ring. }
    rewrite rsum_plus, rsum_scal. fold (mv n (mmul n (mtrans V) (mmul n H V)) x i).
    rewrite mv_mmul. rewrite (mv_ext n _ _ (mv n H (mv n V x))); [unfold rdot; ring|].
    intros j _. apply mv_mmul.
  Qed.
  (** v . (H' v) = (V v) . (H (V v)) + rho (s . v)^2 *)
  Lemma quad_update H v :
    rdot n v (mv n (bfgs_update n s y H) v) =
    rdot n (mv n V v) (mv n H (mv n V v)) + r * (rdot n (at_ s) v * rdot n (at_ s) v).
  Proof.
    transitivity (rdot n v (fun i => mv n (mtrans V) (mv n H (mv n V v)) i + r * rdot n (at_ s) v * at_ s i)).
    { apply rdot_ext; [reflexivity|]. intros i I. apply mv_update, I. }
    transitivity (rdot n v (mv n (mtrans V) (mv n H (mv n V v))) + r * rdot n (at_ s) v * rdot n v (at_ s)).
    - generalize (r * rdot n (at_ s) v). intros c. unfold rdot. rewrite <- rsum_scal, <- rsum_plus.
      apply rsum_ext. intros; ring.
    - rewrite rdot_trans, (rdot_comm n v (at_ s)). ring.
  Qed.
  Lemma rho_pos : 0 <= rdot n (at_ y) (at_ s) -> 0 < r.
  Proof.
    intros H. unfold rho. destruct (Req_EM_T _ 0) as [E|NE]; [lra|].
    apply Rdiv_lt_0_compat; lra.
  Qed.
  Lemma rho_inv : rdot n (at_ y) (at_ s) <> 0 -> r * rdot n (at_ s) (at_ y) = 1.
  Proof.
    intros H. rewrite (rdot_comm n (at_ s)). unfold rho. destruct (Req_EM_T _ 0) as [E|NE]; [lra|]. field. exact NE.
  Qed.
  (** the secant equation *)
  Lemma update_secant H i : (i < n)%nat -> rdot n (at_ y) (at_ s) <> 0 ->
    mv n (bfgs_update n s y H) (at_ y) i = at_ s i.
  Proof.
    intros I NE. rewrite mv_update by exact I. pose proof (rho_inv NE) as R1.
    assert (Z : forall j, (j < n)%nat -> mv n V (at_ y) j = 0).
    { intros j J. rewrite mv_V by exact J. rewrite R1. ring. }
    assert (Z2 : forall j, (j < n)%nat -> mv n H (mv n V (at_ y)) j = 0).
    { intros j J. rewrite (mv_ext n H _ (fun _ => 0)) by exact Z. unfold mv.
      rewrite (rsum_ext n _ (fun _ => 0)), rsum_0; [reflexivity|intros; ring]. }
    rewrite (mv_ext n _ _ (fun _ => 0)) by exact Z2. unfold mv at 1.
    rewrite (rsum_ext n _ (fun _ => 0)), rsum_0; [|intros; ring]. rewrite R1. ring.
  Qed.
  Lemma update_sym H : (forall i j, (i < n)%nat -> (j < n)%nat -> H i j = H j i) ->
    forall i j, (i < n)%nat -> (j < n)%nat -> bfgs_update n s y H i j = bfgs_update n s y H j i.
  Proof.
    intros S i j I J. unfold bfgs_update, mmul, mtrans. f_equal; [|ring].
    transitivity (rsum n (fun k => rsum n (fun l => V k i * (H k l * V l j)))).
    { apply rsum_ext. intros k _. rewrite <- rsum_scal. reflexivity. }
    rewrite rsum_swap. apply rsum_ext. intros k K. rewrite <- rsum_scal. apply rsum_ext. intros l L.
    rewrite (S l k) by assumption. ring.
  Qed.
End Update.

(** ** Positive definiteness, symmetry *)
Definition nonneg_curvature (n : nat) (ps : list (list R * list R)) : Prop :=
  forall s y, In (s, y) ps -> 0 <= rdot n (at_ y) (at_ s).

Lemma sq_pos n v : (exists i, (i < n)%nat /\ v i <> 0) -> 0 < rdot n v v.
Proof.
  intros (i & I & NE). assert (0 <= rdot n v v) by (apply rsum_nonneg; intros j _; apply Rle_0_sqr).
  destruct (Req_dec (rdot n v v) 0) as [Z|Z]; [|lra]. exfalso. apply NE.
  assert (v i * v i = 0).
  { apply (rsum_zero n (fun i => v i * v i)); [intros j _; apply Rle_0_sqr|exact Z|exact I]. }
  apply Rmult_integral in H0. destruct H0; assumption.
Qed.

Theorem bfgs_positive n gamma : 0 < gamma -> forall ps, nonneg_curvature n ps ->
  forall v, (exists i, (i < n)%nat /\ v i <> 0) -> 0 < rdot n v (mv n (bfgs_inverse n gamma ps) v).
Proof.
  intros G. induction ps as [|[s y] ps IH]; intros C v NZ; cbn [bfgs_inverse].
  - pose proof (sq_pos n v NZ).
    replace (rdot n v (mv n (fun i j => gamma * mid i j) v)) with (gamma * rdot n v v); [nra|].
    unfold rdot. rewrite <- rsum_scal. apply rsum_ext. intros i I. unfold mv.
    rewrite (rsum_ext n _ (fun j => gamma * (mid i j * v j))) by (intros; ring).
    rewrite rsum_scal, rsum_delta by exact I. ring.
  - rewrite quad_update. set (V := fun i j => _).
    assert (RP : 0 < rho n s y) by (apply rho_pos, (C s y); left; reflexivity).
    assert (IH' : (exists i, (i < n)%nat /\ mv n V v i <> 0) -> 0 < rdot n (mv n V v) (mv n (bfgs_inverse n gamma ps) (mv n V v))).
    { apply IH. intros s' y' I. apply C. right. exact I. }
    destruct (Req_dec (rdot n (at_ s) v) 0) as [Z|NZ'].
    + rewrite Z. assert (0 < rdot n (mv n V v) (mv n (bfgs_inverse n gamma ps) (mv n V v))); [|lra].
      apply IH'. destruct NZ as (i & I & NE). exists i. split; [exact I|]. unfold V. rewrite mv_V, Z by exact I. lra.
    + assert (0 < rdot n (at_ s) v * rdot n (at_ s) v) by nra.
      assert (0 <= rdot n (mv n V v) (mv n (bfgs_inverse n gamma ps) (mv n V v))).
      { destruct (Req_dec (rdot n (mv n V v) (mv n V v)) 0) as [ZV|NV].
        - assert (Z0 : forall i, (i < n)%nat -> mv n V v i = 0).
          { intros i I. assert (mv n V v i * mv n V v i = 0) as E0.
            { apply (rsum_zero n (fun i => mv n V v i * mv n V v i)); [intros j _; apply Rle_0_sqr|exact ZV|exact I]. }
            apply Rmult_integral in E0. destruct E0; assumption. }
          unfold rdot. rewrite (rsum_ext n _ (fun _ => 0)), rsum_0; [lra|]. intros i I. rewrite Z0 by exact I. ring.
        - left. apply IH'. destruct (Rlt_dec 0 0); [lra|].
          assert (D : forall m, (m <= n)%nat -> rsum m (fun i => mv n V v i * mv n V v i) <> 0 ->
                    exists i, (i < n)%nat /\ mv n V v i <> 0).
          { induction m as [|m IHm]; intros M NM; cbn in NM; [lra|].
            destruct (Req_dec (mv n V v m) 0) as [E|E]; [|exists m; split; [lia|exact E]].
            apply IHm; [lia|]. rewrite E in NM. lra. }
          apply (D n (le_n n) NV). }
      nra.
Qed.

Theorem bfgs_symmetric n gamma : forall ps i j, (i < n)%nat -> (j < n)%nat ->
  bfgs_inverse n gamma ps i j = bfgs_inverse n gamma ps j i.
Proof.
  induction ps as [|[s y] ps IH]; intros i j I J; cbn [bfgs_inverse].
  - rewrite mid_sym. reflexivity.
  - apply update_sym; [exact IH|exact I|exact J].
Qed.

(** ** The recursion computes the product *)
Section Rec.
  Variable mx : R.
  Notation N := (RNum mx).

  Lemma vdot_rdot : forall n (a b : list R), length a = n -> length b = n ->
    vdot (N := N) a b = rdot n (at_ a) (at_ b).
  Proof.
    intros n a b LA LB. unfold vdot, vsum, vmul.
    assert (G : forall n (a b : list R) acc, length a = n -> length b = n ->
      fold_left Rplus (map2 Rmult a b) acc = acc + rdot n (at_ a) (at_ b)).
    2: { transitivity (0 + rdot n (at_ a) (at_ b)); [exact (G n a b 0 LA LB)|apply Rplus_0_l]. }
    clear. induction n as [|n IH]; intros a b acc LA LB.
    - destruct a; [|discriminate]. cbn. unfold rdot. cbn. ring.
    - destruct (exists_last (l := a) ltac:(intros ->; discriminate)) as (a' & x & ->).
      destruct (exists_last (l := b) ltac:(intros ->; discriminate)) as (b' & z & ->).
      rewrite app_length in LA, LB. cbn in LA, LB.
      assert (LA' : length a' = n) by lia. assert (LB' : length b' = n) by lia.
      assert (M : map2 Rmult (a' ++ [x]) (b' ++ [z]) = map2 Rmult a' b' ++ [x * z]).
      { clear - LA' LB'. revert b' n LA' LB'. induction a' as [|p a' IH]; intros [|q b'] n LA LB; cbn in *; try lia; [reflexivity|].
        f_equal. apply (IH b' (pred n)); lia. }
      rewrite M, fold_left_app. cbn [fold_left]. rewrite IH by assumption.
      unfold rdot. cbn [rsum]. unfold at_. rewrite (app_nth2 a' [x]), (app_nth2 b' [z]) by lia.
      rewrite LA', LB', Nat.sub_diag. cbn [nth].
      rewrite (rsum_ext n (fun i => nth i (a' ++ [x]) 0 * nth i (b' ++ [z]) 0) (fun i => nth i a' 0 * nth i b' 0)).
      + ring.
      + intros i I. rewrite !app_nth1 by lia. reflexivity.
  Qed.
  Lemma at_map2 (op : R -> R -> R) (a b : list R) i : (i < length a)%nat -> (i < length b)%nat ->
    at_ (map2 op a b) i = op (at_ a i) (at_ b i).
  Proof.
    unfold at_. revert b i. induction a as [|x a IH]; intros [|z b] [|i] A B; cbn in *; try lia; auto.
    apply IH; lia.
  Qed.
  Lemma at_map (op : R -> R) (a : list R) i : (i < length a)%nat -> at_ (map op a) i = op (at_ a i).
  Proof.
    unfold at_. revert i. induction a as [|x a IH]; intros [|i] A; cbn in *; try lia; auto. apply IH; lia.
  Qed.
  Lemma rho_weight n (s y : list R) : length s = n -> length y = n ->
    curvature_weight (N := N) s y = rho n s y.
  Proof.
    intros LS LY. unfold curvature_weight, rho. rewrite (vdot_rdot n y s LY LS).
    cbn [neq n0 n1 ndiv RNum]. unfold Reqb. destruct (Req_EM_T _ 0); reflexivity.
  Qed.

  Definition sized (n : nat) (ps : list (list R * list R)) : Prop :=
    forall s y, In (s, y) ps -> length s = n /\ length y = n.

  Theorem two_loop_product n gamma : forall ps (q : list R), sized n ps -> length q = n ->
    length (two_loop (N := N) gamma ps q) = n /\
    forall i, (i < n)%nat -> at_ (two_loop (N := N) gamma ps q) i = mv n (bfgs_inverse n gamma ps) (at_ q) i.
  Proof.
    induction ps as [|[s y] ps IH]; intros q SZ LQ; cbn [two_loop bfgs_inverse].
    - split; [rewrite map_length; exact LQ|]. intros i I. cbn [nmul RNum].
      rewrite at_map by lia. unfold mv.
      rewrite (rsum_ext n _ (fun j => gamma * (mid i j * at_ q j))) by (intros; ring).
      rewrite rsum_scal, rsum_delta by exact I. ring.
    - destruct (SZ s y (or_introl eq_refl)) as [LS LY].
      rewrite (rho_weight n s y LS LY). cbn [nmul nsub RNum].
      rewrite (vdot_rdot n s q LS LQ).
      set (a := rho n s y * rdot n (at_ s) (at_ q)).
      unfold vadd, vsub, vscale. cbn [nadd nsub nmul RNum]. change (T (RNum mx)) with R.
      set (q' := map2 Rminus q (map (Rmult a) y)).
      assert (LQ' : length q' = n) by (unfold q'; rewrite map2_length, map_length; lia).
      destruct (IH q') as [LR P]; [intros s' y' I; apply SZ; right; exact I|exact LQ'|].
      set (t := two_loop (N := N) gamma ps q') in *.
      rewrite (vdot_rdot n y t LY LR).
      assert (LR' : @length R t = n) by exact LR.
      split; [rewrite map2_length, map_length, LR', LS; apply Nat.min_id|].
      intros i I. rewrite at_map2 by (rewrite ?map_length; lia). rewrite at_map by lia.
      rewrite mv_update by exact I.
      assert (Q : forall j, (j < n)%nat -> mv n (fun i j => mid i j - rho n s y * at_ y i * at_ s j) (at_ q) j = at_ q' j).
      { intros j J. rewrite mv_V by exact J. unfold q'. rewrite at_map2, at_map by (rewrite ?map_length; lia). unfold a. ring. }
      rewrite mv_VT by exact I.
      assert (T1 : forall j, (j < n)%nat ->
        mv n (bfgs_inverse n gamma ps) (mv n (fun i j => mid i j - rho n s y * at_ y i * at_ s j) (at_ q)) j = at_ t j).
      { intros j J. rewrite (mv_ext n _ _ (at_ q')) by exact Q. symmetry. apply P, J. }
      rewrite (T1 i I). rewrite (rdot_ext n (at_ y) (at_ y)
        (mv n (bfgs_inverse n gamma ps) (mv n (fun i j => mid i j - rho n s y * at_ y i * at_ s j) (at_ q))) (at_ t));
        [|reflexivity|exact T1].
      unfold a. ring.
  Qed.

  Theorem direction_product n gamma ps (g : list R) : sized n ps -> length g = n ->
    length (direction (N := N) gamma ps g) = n /\
    forall i, (i < n)%nat -> at_ (direction (N := N) gamma ps g) i = - mv n (bfgs_inverse n gamma ps) (at_ g) i.
  Proof.
    intros SZ LG. destruct (two_loop_product n gamma ps g SZ LG) as [L P]. unfold direction. cbn [nmul nopp n1 RNum].
    split; [rewrite map_length; exact L|]. intros i I. rewrite at_map by (change (T (RNum mx)) with R in L; rewrite L; exact I). rewrite P by exact I. ring.
  Qed.

  Theorem direction_descent n gamma ps (g : list R) : 0 < gamma -> sized n ps -> nonneg_curvature n ps ->
    length g = n -> (exists i, (i < n)%nat /\ at_ g i <> 0) ->
    vdot (N := N) g (direction (N := N) gamma ps g) < 0.
  Proof.
    intros G SZ C LG NZ. destruct (direction_product n gamma ps g SZ LG) as [L P].
    rewrite (vdot_rdot n _ _ LG L).
    rewrite (rdot_ext n (at_ g) (at_ g) _ (fun i => - mv n (bfgs_inverse n gamma ps) (at_ g) i)); [|reflexivity|exact P].
    pose proof (bfgs_positive n gamma G ps C (at_ g) NZ) as Q.
    replace (rdot n (at_ g) (fun i => - mv n (bfgs_inverse n gamma ps) (at_ g) i))
      with (- rdot n (at_ g) (mv n (bfgs_inverse n gamma ps) (at_ g))); [lra|].
    unfold rdot. rewrite <- (Rmult_1_l (rsum n (fun i => at_ g i * mv _ _ _ i))), Ropp_mult_distr_l, <- rsum_scal.
    apply rsum_ext. intros; ring.
  Qed.

  (** with g = y of the newest pair the direction is -s *)
  Theorem direction_secant n gamma s y ps : sized n ((s, y) :: ps) -> rdot n (at_ y) (at_ s) <> 0 ->
    forall i, (i < n)%nat -> at_ (direction (N := N) gamma ((s, y) :: ps) y) i = - at_ s i.
  Proof.
    intros SZ NE i I. destruct (SZ s y (or_introl eq_refl)) as [LS LY].
    destruct (direction_product n gamma ((s, y) :: ps) y SZ LY) as [_ P].
    rewrite P by exact I. cbn [bfgs_inverse]. rewrite update_secant by assumption. reflexivity.
  Qed.
End Rec.
