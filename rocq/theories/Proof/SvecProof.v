From Coq Require Import List Arith Bool ZArith Reals Lia Lra Permutation.
From Verif.Base Require Import Num Vec Instances.
From Verif.Model Require Import SA Svec.
From Verif.Spec Require Import LpSpec SvecSpec.
From Verif.Proof Require Import SAProof LpMore ProximalProof IndicatorsProof.
Import ListNotations.

(** ** indices *)
Definition tri (m : nat) : nat := m * (m + 1) / 2.

Lemma tri_double : forall m, m * (m + 1) = 2 * tri m.
Proof.
  intros m. unfold tri. assert (E : exists q, m * (m + 1) = q * 2).
  { induction m as [|m [q IH]]; [exists 0; reflexivity|]. exists (q + m + 1). lia. }
  destruct E as [q E]. rewrite E, Nat.div_mul by lia. lia.
Qed.

Lemma tri_S : forall m, tri (S m) = tri m + S m.
Proof. intros m. assert (A := tri_double m). assert (B := tri_double (S m)). nia. Qed.

Lemma tri_mono : forall a b, a <= b -> tri a <= tri b.
Proof. intros a b H. induction H as [|b H IH]; [lia|]. rewrite tri_S. lia. Qed.

Lemma svec_index_up : forall i j n, i <= j -> svec_index i j n = (j - i) + (tri n - tri (n - i)).
Proof.
  intros i j n H. unfold svec_index. destruct (Nat.ltb_spec j i) as [L|_]; [lia|].
  rewrite !tri_double. f_equal. rewrite <- Nat.mul_sub_distr_l, (Nat.mul_comm 2). apply Nat.div_mul. lia.
Qed.

Lemma svec_index_sym : forall i j n, svec_index i j n = svec_index j i n.
Proof.
  intros i j n. unfold svec_index. destruct (Nat.ltb_spec j i), (Nat.ltb_spec i j); try lia; try reflexivity.
  assert (i = j) by lia. subst. reflexivity.
Qed.

Lemma pairs_from_S : forall i n, i < n -> pairs_from i n = map (fun j => (i, j)) (seq i (n - i)) ++ pairs_from (S i) n.
Proof.
  intros i n H. unfold pairs_from. remember (n - i) as k eqn:E. destruct k as [|k]; [lia|].
  replace (n - S i) with k by lia. rewrite E at 2. reflexivity.
Qed.

Lemma pairs_from_end : forall i n, n <= i -> pairs_from i n = [].
Proof. intros i n H. unfold pairs_from. replace (n - i) with 0 by lia. reflexivity. Qed.

Lemma pairs_from_length : forall k i n, n - i = k -> length (pairs_from i n) = tri k.
Proof.
  induction k as [|k IH]; intros i n H.
  - rewrite pairs_from_end by lia. reflexivity.
  - rewrite pairs_from_S by lia. rewrite app_length, map_length, seq_length, (IH (S i)) by lia. rewrite H, tri_S. lia.
Qed.

Lemma pairs_length : forall n, length (pairs n) = tri n.
Proof. intros n. apply pairs_from_length. lia. Qed.

Lemma pairs_from_nth : forall k s n i j, n - s = k -> s <= i -> i <= j -> j < n ->
  nth_error (pairs_from s n) ((j - i) + (tri (n - s) - tri (n - i))) = Some (i, j).
Proof.
  induction k as [|k IH]; intros s n i j Hk Hs Hij Hj; [lia|].
  rewrite pairs_from_S by lia. destruct (Nat.eq_dec s i) as [->|Ns].
  - rewrite Nat.sub_diag, Nat.add_0_r. rewrite nth_error_app1 by (rewrite map_length, seq_length; lia).
    rewrite nth_error_map. replace (nth_error (seq i (n - i)) (j - i)) with (Some j); [reflexivity|].
    symmetry. rewrite (nth_error_nth' _ 0) by (rewrite seq_length; lia). rewrite seq_nth by lia. f_equal. lia.
  - rewrite nth_error_app2; rewrite map_length, seq_length; assert (X := tri_S k); rewrite Hk.
    + replace (j - i + (tri (S k) - tri (n - i)) - S k) with (j - i + (tri (n - S s) - tri (n - i))).
      * apply IH; lia.
      * replace (n - S s) with k by lia. assert (tri (n - i) <= tri k) by (apply tri_mono; lia). lia.
    + assert (tri (n - i) <= tri k) by (apply tri_mono; lia). lia.
Qed.

Lemma pairs_nth : forall n i j, i <= j -> j < n -> nth_error (pairs n) (svec_index i j n) = Some (i, j).
Proof.
  intros n i j H1 H2. rewrite svec_index_up by exact H1.
  assert (X := pairs_from_nth n 0 n i j). rewrite Nat.sub_0_r in X. apply X; lia.
Qed.

Lemma pairs_In : forall n i j, In (i, j) (pairs n) <-> i <= j /\ j < n.
Proof.
  intros n i j. unfold pairs, pairs_from. rewrite in_flat_map. split.
  - intros (x & Hx & H). apply in_map_iff in H. destruct H as (y & E & Hy). injection E as <- <-.
    apply in_seq in Hx, Hy. lia.
  - intros [A B]. exists i. split; [apply in_seq; lia|]. apply in_map_iff. exists j. split; [reflexivity|apply in_seq; lia].
Qed.

Theorem index_range : forall n i j, i < n -> j < n -> svec_index i j n < n * (n + 1) / 2.
Proof.
  intros n i j Hi Hj. fold (tri n). rewrite <- pairs_length. apply nth_error_Some.
  destruct (Nat.le_ge_cases i j) as [H|H]; [|rewrite svec_index_sym]; rewrite pairs_nth by lia; discriminate.
Qed.

Theorem index_inj : forall n i j i' j', i <= j -> j < n -> i' <= j' -> j' < n ->
  svec_index i j n = svec_index i' j' n -> i = i' /\ j = j'.
Proof.
  intros n i j i' j' A B C D E. assert (X := pairs_nth n i j A B). rewrite E, (pairs_nth n i' j' C D) in X.
  injection X as -> ->. auto.
Qed.

Theorem index_surj : forall n k, k < n * (n + 1) / 2 -> exists i j, i <= j /\ j < n /\ svec_index i j n = k.
Proof.
  intros n k H. fold (tri n) in H. rewrite <- pairs_length in H. destruct (nth_error (pairs n) k) as [[i j]|] eqn:E; [|apply nth_error_None in E; lia].
  assert (HI : In (i, j) (pairs n)) by (eapply nth_error_In; exact E). apply pairs_In in HI. exists i, j. split; [apply HI|]. split; [apply HI|].
  assert (N1 : NoDup (pairs n)).
  { assert (G : forall k i n, n - i = k -> NoDup (pairs_from i n) /\ forall a b, In (a, b) (pairs_from i n) -> i <= a).
    { clear. induction k as [|k IH]; intros i n H.
      - rewrite pairs_from_end by lia. split; [constructor|intros a b []].
      - rewrite pairs_from_S by lia. destruct (IH (S i) n ltac:(lia)) as [ND LB]. split.
        + assert (ND1 : forall l, NoDup l -> NoDup (map (fun j => (i, j)) l ++ pairs_from (S i) n)).
          { intros l Hl. induction Hl as [|x l Hx Hl IHl]; cbn; [exact ND|]. constructor; [|exact IHl].
            rewrite in_app_iff. intros [K|K]; [apply in_map_iff in K; destruct K as (y & E & Hy); injection E as ->; contradiction|].
            apply LB in K. lia. }
          apply ND1, seq_NoDup.
        + intros a b K. apply in_app_iff in K. destruct K as [K|K].
          * apply in_map_iff in K. destruct K as (y & E & _). injection E as <- _. lia.
          * apply LB in K. lia. }
    apply (G n 0 n). lia. }
  apply (proj1 (NoDup_nth_error (pairs n)) N1).
  - apply nth_error_Some. rewrite pairs_nth by apply HI. discriminate.
  - rewrite pairs_nth by apply HI. symmetry. exact E.
Qed.

(** ** size of Smat *)
Lemma size_from : forall fuel m len, (m = 0 \/ tri (m - 1) < len) -> len <= tri (m + fuel) ->
  let s := smat_size_from fuel m len in len <= tri s /\ (s = 0 \/ tri (s - 1) < len).
Proof.
  induction fuel as [|fuel IH]; intros m len A B; cbn [smat_size_from].
  - rewrite Nat.add_0_r in B. auto.
  - fold (tri m). destruct (Nat.leb_spec len (tri m)) as [L|L]; [auto|]. apply IH.
    + right. rewrite Nat.add_sub. exact L.
    + replace (m + 1 + fuel) with (m + S fuel) by lia. exact B.
Qed.

Lemma tri_ge : forall m, m <= tri m.
Proof. induction m as [|m IH]; [lia|]. rewrite tri_S. lia. Qed.

Lemma size_ok : forall len, let s := smat_size len in len <= tri s /\ (s = 0 \/ tri (s - 1) < len).
Proof. intros len. apply size_from; [left; reflexivity|]. apply tri_ge. Qed.

Lemma size_tri : forall n, smat_size (tri n) = n.
Proof.
  intros n. destruct (size_ok (tri n)) as [A B]. set (s := smat_size (tri n)) in *.
  destruct (Nat.lt_trichotomy s n) as [L|[E|L]]; [|exact E|].
  - assert (tri (S s) <= tri n) by (apply tri_mono; lia). rewrite tri_S in H. lia.
  - destruct B as [B|B]; [lia|]. assert (tri n <= tri (s - 1)) by (apply tri_mono; lia). lia.
Qed.

Local Open Scope R_scope.

Theorem size_real : forall len, let x := (-1 + sqrt (1 + 8 * INR len)) / 2 in
  x <= INR (smat_size len) < x + 1.
Proof.
  intros len x. destruct (size_ok len) as [A B]. set (s := smat_size len) in *.
  assert (P : 0 <= INR len) by apply pos_INR. assert (Ps : 0 <= INR s) by apply pos_INR.
  assert (S0 : 0 <= sqrt (1 + 8 * INR len)) by apply sqrt_pos.
  assert (SS : sqrt (1 + 8 * INR len) * sqrt (1 + 8 * INR len) = 1 + 8 * INR len) by (apply sqrt_sqrt; lra).
  assert (T2 : forall m, INR m * (INR m + 1) = 2 * INR (tri m)).
  { intros m. assert (X := tri_double m). apply (f_equal INR) in X. rewrite mult_INR, plus_INR, mult_INR in X. change (INR 1) with 1 in X. change (INR 2) with 2 in X. exact X. }
  unfold x. split.
  - apply le_INR in A. specialize (T2 s).
    assert (K : sqrt (1 + 8 * INR len) <= 2 * INR s + 1).
    { destruct (Rle_lt_dec (sqrt (1 + 8 * INR len)) (2 * INR s + 1)) as [L|L]; [exact L|]. nra. }
    lra.
  - assert (K : 2 * INR s - 1 < sqrt (1 + 8 * INR len)).
    { destruct B as [E|B].
      - rewrite E. cbn. lra.
      - destruct s as [|s]; [cbn; lra|]. cbn [Nat.sub] in B. rewrite Nat.sub_0_r in B. apply lt_INR in B. specialize (T2 s).
        rewrite S_INR. assert (0 <= INR s) by apply pos_INR.
        destruct (Rlt_le_dec (2 * (INR s + 1) - 1) (sqrt (1 + 8 * INR len))) as [L|L]; [exact L|]. nra. }
    lra.
Qed.

(** ** Svec *)
Definition cell (A : nat -> nat -> R) (ij : nat * nat) : R :=
  if Nat.eqb (fst ij) (snd ij) then A (fst ij) (snd ij) else sqrt 2 * A (fst ij) (snd ij).

Lemma svec_cells : forall mx n (A : nat -> nat -> R), svec (N := RNum mx) (sqrt 2) n A = map (cell A) (pairs n).
Proof. intros mx n A. unfold svec. apply map_ext. intros [i j]. reflexivity. Qed.

Lemma svec_length : forall mx n (A : nat -> nat -> R), length (svec (N := RNum mx) (sqrt 2) n A) = tri n.
Proof. intros mx n A. rewrite svec_cells, map_length. apply pairs_length. Qed.

Lemma svec_nth : forall mx n (A : nat -> nat -> R) i j, (i <= j)%nat -> (j < n)%nat ->
  nth_error (svec (N := RNum mx) (sqrt 2) n A) (svec_index i j n) = Some (cell A (i, j)).
Proof. intros mx n A i j H1 H2. rewrite svec_cells. refine (map_nth_error (cell A) _ _ _). apply pairs_nth; assumption. Qed.

Lemma svec_nth_sym : forall mx n (A : nat -> nat -> R) i j, symmetric n A -> (i < n)%nat -> (j < n)%nat ->
  nth_error (svec (N := RNum mx) (sqrt 2) n A) (svec_index i j n) = Some (if Nat.eqb i j then A i j else sqrt 2 * A i j).
Proof.
  intros mx n A i j SA Hi Hj. destruct (Nat.le_ge_cases i j) as [H|H].
  - exact (svec_nth mx n A i j H Hj).
  - rewrite svec_index_sym. rewrite (svec_nth mx n A j i H Hi). unfold cell. cbn [fst snd]. rewrite Nat.eqb_sym, (SA j i Hj Hi). reflexivity.
Qed.

Lemma sqrt22 : sqrt 2 * sqrt 2 = 2.
Proof. apply sqrt_sqrt. lra. Qed.

(** ** Smat *)
Lemma smat_fill_ok : forall mx (A : nat -> nat -> R) ps (out : nat -> nat -> R), (forall i j, In (i, j) ps -> A i j = A j i) ->
  exists B, smat_fill (N := RNum mx) (sqrt 2) (/ 2) ps (map (cell A) ps) out = Some B /\
    forall a b, B a b = (if existsb (fun ij => (Nat.eqb a (fst ij) && Nat.eqb b (snd ij)) || (Nat.eqb a (snd ij) && Nat.eqb b (fst ij)))%bool ps
                         then A a b else out a b).
Proof.
  intros mx A ps; induction ps as [|[i j] ps IH]; intros out SA.
  - exists out. split; [reflexivity|]. intros a b. reflexivity.
  - cbn [map smat_fill]. set (y := if Nat.eqb i j then _ else _).
    assert (Ey : y = A i j).
    { unfold y, cell. cbn [fst snd nmul RNum]. destruct (Nat.eqb i j); [reflexivity|]. assert (X := sqrt22).
      change ((/ 2 * sqrt 2) * (sqrt 2 * A i j) = A i j :> R). transitivity (/ 2 * (sqrt 2 * sqrt 2) * A i j); [ring|]. rewrite X. field. }
    clearbody y. destruct (IH (fun a b => if (Nat.eqb a i && Nat.eqb b j) || (Nat.eqb a j && Nat.eqb b i) then y else out a b)%bool) as (B & E & HB).
    { intros a b H. apply SA. right; exact H. }
    exists B. split; [exact E|]. intros a b. rewrite HB. cbn [existsb fst snd].
    set (c1 := existsb _ ps). destruct c1; [rewrite orb_true_r; reflexivity|]. rewrite orb_false_r.
    destruct ((Nat.eqb a i && Nat.eqb b j) || (Nat.eqb a j && Nat.eqb b i))%bool eqn:C; [|reflexivity].
    rewrite Ey. apply orb_true_iff in C. destruct C as [C|C]; apply andb_true_iff in C; destruct C as [C1 C2]; apply Nat.eqb_eq in C1, C2; subst.
    + reflexivity.
    + apply SA. left; reflexivity.
Qed.

Theorem smat_svec : forall mx n (A : nat -> nat -> R), symmetric n A ->
  exists B, smat (N := RNum mx) (sqrt 2) (/ 2) (svec (N := RNum mx) (sqrt 2) n A) = Some (n, B) /\
    forall i j, (i < n)%nat -> (j < n)%nat -> B i j = A i j.
Proof.
  intros mx n A SA. unfold smat. rewrite svec_length, size_tri, svec_cells.
  destruct (smat_fill_ok mx A (pairs n) (fun _ _ => 0)) as (B & E & HB).
  { intros i j H. apply pairs_In in H. apply SA; lia. }
  exists B. split.
  - assert (E' : smat_fill (N := RNum mx) (sqrt 2) (/ 2) (pairs n) (map (cell A) (pairs n)) (fun _ _ => n0) = Some B) by exact E.
    rewrite E'. reflexivity.
  - intros i j Hi Hj. rewrite HB. replace (existsb _ (pairs n)) with true; [reflexivity|]. symmetry. apply existsb_exists.
    destruct (Nat.le_ge_cases i j) as [H|H].
    + exists (i, j). split; [apply pairs_In; lia|]. cbn. rewrite !Nat.eqb_refl. reflexivity.
    + exists (j, i). split; [apply pairs_In; lia|]. cbn. rewrite !Nat.eqb_refl. rewrite orb_true_r. reflexivity.
Qed.

(** ** inner products *)
Lemma sum_pairs : forall n (f : nat -> nat -> R), (forall i j, (i < n)%nat -> (j < n)%nat -> f i j = f j i) ->
  sumR (map (fun ij => if Nat.eqb (fst ij) (snd ij) then f (fst ij) (snd ij) else 2 * f (fst ij) (snd ij)) (pairs n))
  = sum_n n (fun i => sum_n n (fun j => f i j)).
Proof.
  intros n f SF.
  (* from row s on *)
  assert (G : forall k s, (n - s = k)%nat -> (s <= n)%nat ->
     sumR (map (fun ij => if Nat.eqb (fst ij) (snd ij) then f (fst ij) (snd ij) else 2 * f (fst ij) (snd ij)) (pairs_from s n))
     = sumR (map (fun i => sumR (map (fun j => f i j) (seq s (n - s)))) (seq s (n - s)))).
  { induction k as [|k IH]; intros s Hk Hs.
    - rewrite pairs_from_end by lia. replace (n - s)%nat with 0%nat by lia. reflexivity.
    - rewrite pairs_from_S by lia. rewrite map_app, sumR_app, (IH (S s)) by lia.
      replace (n - s)%nat with (S k) by lia. replace (n - S s)%nat with k by lia. cbn [seq].
      rewrite map_map. cbn [map sumR fst snd]. rewrite Nat.eqb_refl.
      assert (R1 : sumR (map (fun x => if Nat.eqb s x then f s x else 2 * f s x) (seq (S s) k)) = 2 * sumR (map (fun j => f s j) (seq (S s) k))).
      { assert (K : forall l, (forall x, In x l -> s <> x) -> sumR (map (fun x => if Nat.eqb s x then f s x else 2 * f s x) l) = 2 * sumR (map (fun j => f s j) l)).
        { intros l; induction l as [|x l IHl]; intros HN; cbn [map sumR]; [lra|].
          rewrite IHl by (intros y Hy; apply HN; right; exact Hy).
          destruct (Nat.eqb_spec s x) as [E|_]; [exfalso; apply (HN x (or_introl eq_refl) E)|lra]. }
        apply K. intros x Hx. apply in_seq in Hx. lia. }
      rewrite R1.
      assert (R2 : sumR (map (fun i => f i s + sumR (map (fun j => f i j) (seq (S s) k))) (seq (S s) k))
                 = sumR (map (fun j => f s j) (seq (S s) k)) + sumR (map (fun i => sumR (map (fun j => f i j) (seq (S s) k))) (seq (S s) k))).
      { assert (K : forall l, (forall x, In x l -> (x < n)%nat) -> sumR (map (fun i => f i s + sumR (map (fun j => f i j) (seq (S s) k))) l)
                 = sumR (map (fun j => f s j) l) + sumR (map (fun i => sumR (map (fun j => f i j) (seq (S s) k))) l)).
        { intros l; induction l as [|x l IHl]; intros HL; cbn [map sumR]; [lra|].
          rewrite IHl by (intros y Hy; apply HL; right; exact Hy). rewrite (SF x s (HL x (or_introl eq_refl)) ltac:(lia)). lra. }
        apply K. intros x Hx. apply in_seq in Hx. lia. }
      rewrite R2. lra. }
  specialize (G n 0%nat). rewrite Nat.sub_0_r in G. unfold pairs, sum_n. apply G; lia.
Qed.

Lemma combine_map : forall {A} (f g : A -> R) l, combine (map f l) (map g l) = map (fun x => (f x, g x)) l.
Proof. intros A f g l; induction l as [|a l IH]; cbn; [reflexivity|]. rewrite IH. reflexivity. Qed.

Theorem svec_dot : forall mx n (A B : nat -> nat -> R), symmetric n A -> symmetric n B ->
  dotv (svec (N := RNum mx) (sqrt 2) n A) (svec (N := RNum mx) (sqrt 2) n B) = trace n (matmul n A B).
Proof.
  intros mx n A B SA SB. rewrite !svec_cells. unfold dotv. rewrite combine_map, map_map.
  transitivity (sumR (map (fun ij => if Nat.eqb (fst ij) (snd ij) then A (fst ij) (snd ij) * B (fst ij) (snd ij)
                                     else 2 * (A (fst ij) (snd ij) * B (fst ij) (snd ij))) (pairs n))).
  - f_equal. apply map_ext. intros [i j]. unfold cell. cbn [fst snd]. destruct (Nat.eqb i j); [reflexivity|].
    transitivity (sqrt 2 * sqrt 2 * (A i j * B i j)); [ring|]. rewrite sqrt22. reflexivity.
  - rewrite (sum_pairs n (fun i j => A i j * B i j)).
    + unfold trace, matmul, sum_n. f_equal. apply map_ext_in. intros i Hi. f_equal. apply map_ext_in. intros j Hj.
      apply in_seq in Hi, Hj. rewrite (SB i j) by lia. reflexivity.
    + intros i j Hi Hj. rewrite (SA i j), (SB i j) by assumption. reflexivity.
Qed.

(** ** SymKronId *)
Lemma dotv_set : forall k x (row v : list R), (k < length row)%nat -> length row = length v ->
  dotv (set_nth k (nth k row 0 + x) row) v = dotv row v + x * nth k v 0.
Proof.
  intros k; induction k as [|k IH]; intros x [|a row] [|b v] H L; cbn [length] in *; try lia.
  - unfold dotv. cbn. ring.
  - cbn [set_nth nth]. change (a * b + dotv (set_nth k (nth k row 0 + x) row) v = a * b + dotv row v + x * nth k v 0).
    rewrite IH by lia. ring.
Qed.

Lemma dotv_repeat0 : forall m v, dotv (repeat 0 m) v = 0.
Proof.
  induction m as [|m IH]; intros [|b v]; unfold dotv in *; cbn; try reflexivity. rewrite IH. ring.
Qed.

Lemma dotv_scale : forall c row v, dotv (map (fun x => x * c) row) v = c * dotv row v.
Proof.
  intros c row; induction row as [|a row IH]; intros [|b v]; unfold dotv in *; cbn; try (ring).
  rewrite IH. ring.
Qed.

Lemma kron_row_dot : forall mx n (A H : nat -> nat -> R) i j, symmetric n H -> (i < n)%nat -> (j < n)%nat ->
  forall ks (row : list R), (forall k, In k ks -> (k < n)%nat) -> length row = tri n ->
  let v := svec (N := RNum mx) (sqrt 2) n H in
  let row' := kron_row (N := RNum mx) (sqrt 2) (/ 2) n A i j ks row in
  length row' = tri n /\ dotv row' v = dotv row v + sumR (map (fun k => A i k * H k j + H i k * A k j) ks).
Proof.
  intros mx n A H i j SH Hi Hj ks; induction ks as [|k ks IH]; intros row HK L v.
  - split; [exact L|]. symmetry. exact (Rplus_0_r _).
  - intros row'. assert (Hk : (k < n)%nat) by (apply HK; left; reflexivity).
    pose (r1 := set_nth (svec_index k j n) (nth (svec_index k j n) row 0 + (if Nat.eqb k j then 1 else / 2 * sqrt 2) * A i k) row : list R).
    pose (r2 := set_nth (svec_index i k n) (nth (svec_index i k n) r1 0 + (if Nat.eqb k i then 1 else / 2 * sqrt 2) * A k j) r1 : list R).
    change row' with (kron_row (N := RNum mx) (sqrt 2) (/ 2) n A i j ks r2). clear row'. cbn [map sumR].
    assert (L1 : length r1 = tri n) by (unfold r1; refine (eq_trans (set_nth_length _ _ _) L)).
    assert (L2 : length r2 = tri n) by (unfold r2; refine (eq_trans (set_nth_length _ _ _) L1)).
    destruct (IH r2 (fun x Hx => HK x (or_intror Hx)) L2) as [L' D]. split; [exact L'|].
    refine (eq_trans D _).
    assert (LV : length v = tri n) by apply svec_length.
    assert (SC : forall a b, (a < n)%nat -> (b < n)%nat -> forall y, (if Nat.eqb a b then 1 else / 2 * sqrt 2) * y * nth (svec_index a b n) v 0 = y * H a b).
    { intros a b Ha Hb y. unfold v. rewrite (nth_error_nth _ _ _ (svec_nth_sym mx n H a b SH Ha Hb)).
      destruct (Nat.eqb a b); [ring|]. transitivity (/ 2 * (sqrt 2 * sqrt 2) * (y * H a b)); [ring|]. rewrite sqrt22. field. }
    assert (R1 : (svec_index k j n < tri n)%nat) by (apply index_range; assumption).
    assert (R2 : (svec_index i k n < tri n)%nat) by (apply index_range; assumption).
    assert (D1 : dotv r1 v = dotv row v + A i k * H k j).
    { unfold r1. refine (eq_trans (dotv_set _ _ _ _ _ _) _); [cbn [T RNum] in *; lia|cbn [T RNum] in *; lia|]. f_equal. apply (SC k j Hk Hj). }
    assert (D2 : dotv r2 v = dotv r1 v + H i k * A k j).
    { unfold r2. refine (eq_trans (dotv_set _ _ _ _ _ _) _); [cbn [T RNum] in *; lia|cbn [T RNum] in *; lia|]. f_equal.
      refine (eq_trans _ (eq_trans (SC i k Hi Hk (A k j)) (Rmult_comm _ _))). rewrite Nat.eqb_sym. reflexivity. }
    fold v. lra.
Qed.

Theorem sym_kron_ok : forall mx n (A H : nat -> nat -> R), symmetric n H ->
  apply_rows (sym_kron_id (N := RNum mx) (sqrt 2) (/ 2) n A) (svec (N := RNum mx) (sqrt 2) n H)
  = svec (N := RNum mx) (sqrt 2) n (half_sum (matmul n A H) (matmul n H A)).
Proof.
  intros mx n A H SH. rewrite (svec_cells mx n (half_sum _ _)). unfold apply_rows, sym_kron_id. rewrite map_map. apply map_ext_in.
  intros [i j] HI. apply pairs_In in HI.
  destruct (kron_row_dot mx n A H i j SH ltac:(lia) ltac:(lia) (seq 0 n) (repeat 0 (n * (n + 1) / 2))) as [L D].
  { intros k Hk. apply in_seq in Hk. lia. }
  { apply repeat_length. }
  rewrite dotv_repeat0, Rplus_0_l in D.
  assert (E : sumR (map (fun k => A i k * H k j + H i k * A k j) (seq 0 n)) = matmul n A H i j + matmul n H A i j).
  { unfold matmul, sum_n. clear. induction (seq 0 n) as [|k l IH]; cbn [map sumR]; [lra|]. rewrite IH. lra. }
  unfold cell, half_sum. cbn [fst snd].
  set (row := kron_row (N := RNum mx) (sqrt 2) (/ 2) n A i j (seq 0 n) (repeat n0 (n * (n + 1) / 2))).
  assert (D' : dotv row (svec (N := RNum mx) (sqrt 2) n H) = matmul n A H i j + matmul n H A i j) by (exact (eq_trans D E)).
  destruct (Nat.eqb i j).
  - refine (eq_trans (dotv_scale (/ 2) row _) _). rewrite D'. field.
  - refine (eq_trans (dotv_scale (sqrt 2) (map (fun x => x * / 2) row) _) _). rewrite (dotv_scale (/ 2) row), D'. field.
Qed.

(** ** the sparse overload *)
Lemma svec_fill_length : forall mx n es (out : list R), length (svec_fill (N := RNum mx) (sqrt 2) n es out) = length out.
Proof.
  intros mx n es; induction es as [|[[i j] v] es IH]; intros out; cbn [svec_fill]; [reflexivity|]. rewrite IH.
  destruct (Nat.ltb j i); [reflexivity|]. apply set_nth_length.
Qed.

Lemma svec_fill_nth : forall mx n (A : nat -> nat -> R) es (out : list R) a b, (a <= b)%nat -> (b < n)%nat -> length out = tri n ->
  NoDup (map fst es) -> (forall i j v, In (i, j, v) es -> (i < n)%nat /\ (j < n)%nat /\ v = A i j) ->
  nth_error (svec_fill (N := RNum mx) (sqrt 2) n es out) (svec_index a b n) =
    (if existsb (fun e => Nat.eqb (fst (fst e)) a && Nat.eqb (snd (fst e)) b)%bool es then Some (cell A (a, b))
     else nth_error out (svec_index a b n)).
Proof.
  intros mx n A es; induction es as [|[[i j] v] es IH]; intros out a b Hab Hb L ND HV; cbn [svec_fill existsb]; [reflexivity|].
  cbn [map fst] in ND. inversion ND as [|? ? NI ND']; subst.
  destruct (HV i j v (or_introl eq_refl)) as (Hi & Hj & EV).
  pose (out' := if Nat.ltb j i then out else set_nth (svec_index i j n) (if Nat.eqb i j then v else sqrt 2 * v) out : list R).
  change (nth_error (svec_fill (N := RNum mx) (sqrt 2) n es out') (svec_index a b n) =
    (if (Nat.eqb (fst (fst (i, j, v))) a && Nat.eqb (snd (fst (i, j, v))) b || existsb (fun e => Nat.eqb (fst (fst e)) a && Nat.eqb (snd (fst e)) b) es)%bool
     then Some (cell A (a, b)) else nth_error out (svec_index a b n))).
  assert (L' : length out' = tri n) by (unfold out'; destruct (Nat.ltb j i); [exact L|refine (eq_trans (set_nth_length _ _ _) L)]).
  rewrite (IH out' a b Hab Hb L' ND') by (intros; apply HV; right; assumption).
  set (c := existsb _ es). destruct c; [rewrite orb_true_r; reflexivity|]. rewrite orb_false_r. cbn [fst snd].
  destruct (Nat.eqb i a && Nat.eqb j b)%bool eqn:C.
  - apply andb_true_iff in C. destruct C as [C1 C2]. apply Nat.eqb_eq in C1, C2. subst i j.
    unfold out'. destruct (Nat.ltb_spec b a) as [X|_]; [lia|].
    refine (eq_trans (set_nth_same _ _ _ _) _); [cbn [T RNum] in *; rewrite L; apply index_range; lia|].
    unfold cell. cbn [fst snd]. rewrite EV. reflexivity.
  - unfold out'. destruct (Nat.ltb_spec j i) as [X|X]; [reflexivity|]. apply set_nth_other. intros E.
    apply index_inj in E; try lia. destruct E as [-> ->]. rewrite !Nat.eqb_refl in C. discriminate C.
Qed.

Lemma nth_error_same {A} : forall l l' : list A, (forall i, nth_error l i = nth_error l' i) -> l = l'.
Proof.
  induction l as [|a l IH]; intros [|b l'] H; [reflexivity|specialize (H 0%nat); discriminate H|specialize (H 0%nat); discriminate H|].
  f_equal; [specialize (H 0%nat); cbn in H; congruence|]. apply IH. intros i. exact (H (S i)).
Qed.

Theorem svec_sparse_ok : forall mx n (A : nat -> nat -> R) es, elements_of n A es ->
  svec_sparse (N := RNum mx) (sqrt 2) n es = svec (N := RNum mx) (sqrt 2) n A.
Proof.
  intros mx n A es (ND & HV & HA). apply nth_error_same. intros k.
  destruct (Nat.lt_ge_cases k (tri n)) as [Lk|Lk].
  - destruct (index_surj n k Lk) as (i & j & Hij & Hj & <-). rewrite svec_nth by assumption.
    unfold svec_sparse. refine (eq_trans (svec_fill_nth mx n A es _ i j Hij Hj (repeat_length _ _) ND HV) _).
    destruct (existsb _ es) eqn:C; [reflexivity|].
    assert (Z : A i j = 0).
    { destruct (Req_dec (A i j) 0) as [Z|Z]; [exact Z|]. exfalso. specialize (HA i j ltac:(lia) ltac:(lia) Z).
      assert (X : existsb (fun e : nat * nat * R => (Nat.eqb (fst (fst e)) i && Nat.eqb (snd (fst e)) j)%bool) es = true).
      { apply existsb_exists. exists (i, j, A i j). split; [exact HA|]. cbn. rewrite !Nat.eqb_refl. reflexivity. }
      congruence. }
    refine (eq_trans (nth_error_repeat _ _) _); [exact Lk|]. f_equal. unfold cell. cbn [fst snd]. rewrite Z. cbn. destruct (Nat.eqb i j); lra.
  - assert (E1 : nth_error (svec (N := RNum mx) (sqrt 2) n A) k = None) by (apply nth_error_None; rewrite svec_length; exact Lk).
    rewrite E1. apply nth_error_None. unfold svec_sparse. refine (Nat.le_trans _ _ _ (Nat.eq_le_incl _ _ (svec_fill_length mx n es _)) _).
    rewrite repeat_length. exact Lk.
Qed.
