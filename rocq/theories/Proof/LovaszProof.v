(** Lovasz theta: the objective, the constraints and what Gradient computes. *)
From Coq Require Import Arith Bool List Reals Lia Lra ZArith.
From Verif.Model Require Import Softmax Lovasz.
From Verif.Spec Require Import SoftmaxSpec LovaszSpec.
From Verif.Proof Require Import SoftmaxProof.
Import ListNotations.
Local Open Scope R_scope.

Lemma column_gram r x i j : column_product r x i j = gram r x i j.
Proof. apply total_usum. Qed.
Lemma gram_sym r x i j : gram r x i j = gram r x j i.
Proof. apply usum_ext. intros. lra. Qed.
Lemma square_gram r c x : square_sum r c x = usum c (fun i => gram r x i i).
Proof.
  unfold square_sum, gram. rewrite total_usum. rewrite usum_swap. apply usum_ext. intros a _. apply total_usum.
Qed.

Lemma entry_deriv x a i b k : derivable_pt_lim (fun t => put x a i t b k) (x a i) (if ((b =? a) && (k =? i))%nat%bool then 1 else 0).
Proof. unfold put. destruct ((b =? a) && (k =? i))%nat%bool; [apply derivable_pt_lim_id|apply derivable_pt_lim_const]. Qed.
Lemma put_same x a i b k : put x a i (x a i) b k = x b k.
Proof.
  unfold put. destruct ((b =? a) && (k =? i))%nat%bool eqn:E; [|reflexivity].
  apply andb_true_iff in E as [E F]. apply Nat.eqb_eq in E, F. now subst.
Qed.
Definition gram_slope (x : mat) (a i k l : nat) : R := (if (k =? i)%nat then x a l else 0) + (if (l =? i)%nat then x a k else 0).
Lemma gram_deriv r x a i k l : (a < r)%nat ->
  derivable_pt_lim (fun t => gram r (put x a i t) k l) (x a i) (gram_slope x a i k l).
Proof.
  intros A. unfold gram.
  pose (d := fun b (_ : R) => (if ((b =? a) && (k =? i))%nat%bool then 1 else 0) * x b l + x b k * (if ((b =? a) && (l =? i))%nat%bool then 1 else 0)).
  replace (gram_slope x a i k l) with (usum r (fun b => d b (x a i))).
  - apply (usum_deriv r (fun b t => put x a i t b k * put x a i t b l) d). intros b _. unfold d.
    pose proof (derivable_pt_lim_mult _ _ _ _ _ (entry_deriv x a i b k) (entry_deriv x a i b l)) as H.
    cbv beta in H. rewrite !put_same in H. exact H.
  - unfold d. rewrite usum_plus.
    rewrite (usum_ext r (fun b => (if ((b =? a) && (k =? i))%nat%bool then 1 else 0) * x b l) (fun b => if (b =? a)%nat then (if (k =? i)%nat then x b l else 0) else 0)).
    2: { intros b _. destruct (b =? a)%nat, (k =? i)%nat; cbn; lra. }
    rewrite (usum_ext r (fun b => x b k * (if ((b =? a) && (l =? i))%nat%bool then 1 else 0)) (fun b => if (b =? a)%nat then (if (l =? i)%nat then x b k else 0) else 0)).
    2: { intros b _. destruct (b =? a)%nat, (l =? i)%nat; cbn; lra. }
    rewrite !usum_pick. destruct (Nat.ltb_spec a r); [reflexivity|lia].
Qed.
Lemma gram_same r x a i k l : gram r (put x a i (x a i)) k l = gram r x k l.
Proof. unfold gram. apply usum_ext. intros. now rewrite !put_same. Qed.

(** sums of slopes *)
Lemma slope_all n x a i : (i < n)%nat -> usum n (fun k => usum n (fun l => gram_slope x a i k l)) = 2 * usum n (fun l => x a l).
Proof.
  intros L. unfold gram_slope. rewrite (usum_ext n _ (fun k => (if (k =? i)%nat then usum n (fun l => x a l) else 0) + x a k)).
  - rewrite usum_plus, (usum_pick n i (fun _ => usum n (fun l => x a l))). destruct (Nat.ltb_spec i n); [|lia].
    change (fun l => x a l) with (x a). change (fun k => x a k) with (x a). ring.
  - intros k _. rewrite usum_plus. rewrite (usum_pick n i (fun _ => x a k)). destruct (Nat.ltb_spec i n); [|lia].
    destruct (k =? i)%nat; [lra|]. rewrite usum_0. lra.
Qed.
Lemma slope_diag n x a i : (i < n)%nat -> usum n (fun k => gram_slope x a i k k) = 2 * x a i.
Proof.
  intros L. unfold gram_slope. rewrite usum_plus, !usum_pick. destruct (Nat.ltb_spec i n); [cbv beta; lra|lia].
Qed.

(** minus the squared length of the sum of the columns *)
Theorem objective_value r c x : lv_evaluate r c x = - total r (fun a => total c (fun j => x a j) ^ 2).
Proof.
  unfold lv_evaluate, accu, gram. f_equal. rewrite total_usum.
  rewrite (usum_ext c _ (fun j => usum r (fun a => x a j * usum c (fun i => x a i)))).
  - rewrite usum_swap. apply usum_ext. intros a _. rewrite total_usum.
    rewrite (usum_ext c _ (fun j => usum c (fun i => x a i) * x a j)) by (intros; lra). rewrite usum_scal. cbn [pow]. rewrite Rmult_1_r. reflexivity.
  - intros j _. rewrite usum_swap. apply usum_ext. intros a _. rewrite <- usum_scal. apply usum_ext. intros. lra.
Qed.
Lemma evaluate_deriv r c x a i : (a < r)%nat -> (i < c)%nat ->
  derivable_pt_lim (fun t => lv_evaluate r c (put x a i t)) (x a i) (- 2 * usum c (fun j => x a j)).
Proof.
  intros A I. unfold lv_evaluate, accu.
  replace (- 2 * usum c (fun j => x a j)) with (- usum c (fun k => usum c (fun l => gram_slope x a i l k))).
  - apply (derivable_pt_lim_opp (fun t => usum c (fun j => usum c (fun i0 => gram r (put x a i t) i0 j)))).
    apply (usum_deriv c (fun j t => usum c (fun i0 => gram r (put x a i t) i0 j)) (fun j _ => usum c (fun l => gram_slope x a i l j))).
    intros j _. apply (usum_deriv c (fun l t => gram r (put x a i t) l j) (fun l _ => gram_slope x a i l j)).
    intros l _. now apply gram_deriv.
  - rewrite <- usum_swap, slope_all by exact I. lra.
Qed.
Theorem evaluate_gradient r c x : is_gradient r c (lv_evaluate r c) x (fun a _ => - 2 * total c (fun j => x a j)).
Proof. intros a i A I. rewrite total_usum. now apply evaluate_deriv. Qed.

(** the constraints *)
Theorem constraint_zero l r c x : lv_constraint l 0 r c x = Some (square_sum r c x - 1).
Proof.
  cbn. f_equal. rewrite square_gram. rewrite (usum_ext c (fun i => Rabs (gram r x i i)) (fun i => gram r x i i)); [lra|].
  intros i _. apply Rabs_pos_eq. unfold gram. pose proof (usum_le r (fun _ => 0) (fun a => x a i * x a i)) as H.
  rewrite usum_0 in H. apply H. intros. nra.
Qed.
Lemma square_deriv r c x a i : (a < r)%nat -> (i < c)%nat ->
  derivable_pt_lim (fun t => square_sum r c (put x a i t)) (x a i) (2 * x a i).
Proof.
  intros A I. rewrite <- (slope_diag c x a i I).
  apply deriv_ext with (f := fun t => usum c (fun k => gram r (put x a i t) k k)); [intros t; symmetry; apply square_gram|].
  apply (usum_deriv c (fun k t => gram r (put x a i t) k k) (fun k _ => gram_slope x a i k k)). intros k _. now apply gram_deriv.
Qed.
Theorem trace_gradient l r c x : exists g, lv_constraint_gradient l 0 r c x = Some g /\
  is_gradient r c (fun y => square_sum r c y - 1) x g.
Proof.
  eexists; split; [reflexivity|]. intros a i A I. cbv beta.
  replace (2 * x a i) with (2 * x a i - 0) by lra.
  apply (derivable_pt_lim_minus (fun t => square_sum r c (put x a i t)) (fun _ => 1)); [now apply square_deriv|apply derivable_pt_lim_const].
Qed.

Lemma abs_deriv f x d : derivable_pt_lim f x d -> 0 < f x -> derivable_pt_lim (fun t => Rabs (f t)) x d.
Proof.
  intros D P. replace d with (1 * d) by lra. apply (derivable_pt_lim_comp f Rabs); [exact D|]. now apply Rabs_derive_1.
Qed.
Lemma abs_deriv_neg f x d : derivable_pt_lim f x d -> f x < 0 -> derivable_pt_lim (fun t => Rabs (f t)) x (- d).
Proof.
  intros D P. replace (- d) with (-1 * d) by lra. apply (derivable_pt_lim_comp f Rabs); [exact D|]. now apply Rabs_derive_2.
Qed.
Theorem edge_constraint l k i j r c x : nth_error (lv_edges l) k = Some (i, j) -> (i < c)%nat -> (j < c)%nat ->
  lv_constraint l (S k) r c x = Some (Rabs (column_product r x i j)) /\
  exists g, lv_constraint_gradient l (S k) r c x = Some g /\
    (0 < column_product r x i j -> is_gradient r c (fun y => Rabs (column_product r y i j)) x g) /\
    (column_product r x i j < 0 -> is_gradient r c (fun y => Rabs (column_product r y i j)) x (fun a b => - g a b)).
Proof.
  intros E I J. assert (In1 : edge_inside c (i, j) = true).
  { unfold edge_inside. apply andb_true_iff. split; apply Nat.ltb_lt; assumption. }
  cbn [lv_constraint lv_constraint_gradient]. rewrite E, In1. split; [now rewrite column_gram|].
  eexists; split; [reflexivity|].
  assert (G : forall a b, (a < r)%nat -> derivable_pt_lim (fun t => column_product r (put x a b t) i j) (x a b)
    (if (b =? j)%nat then (if (b =? i)%nat then x a j else 0) + x a i else (if (b =? i)%nat then x a j else 0))).
  { intros a b A. apply deriv_ext with (f := fun t => gram r (put x a b t) i j); [intros; symmetry; apply column_gram|].
    replace (if (b =? j)%nat then (if (b =? i)%nat then x a j else 0) + x a i else (if (b =? i)%nat then x a j else 0)) with (gram_slope x a b i j).
    - now apply gram_deriv.
    - unfold gram_slope. rewrite (Nat.eqb_sym i b), (Nat.eqb_sym j b). destruct (b =? i)%nat, (b =? j)%nat; lra. }
  split; intros P a b A B.
  - apply abs_deriv; [apply G; exact A|]. rewrite column_gram, gram_same, <- column_gram. exact P.
  - apply abs_deriv_neg; [apply G; exact A|]. rewrite column_gram, gram_same, <- column_gram. exact P.
Qed.

(** Gradient *)
Lemma forallb_inside c es : forallb (edge_inside c) es = true <-> forall e, In e es -> (fst e < c)%nat /\ (snd e < c)%nat.
Proof.
  rewrite forallb_forall. unfold edge_inside. split; intros H e I; specialize (H e I).
  - apply andb_true_iff in H as [H G]. now apply Nat.ltb_lt in H, G.
  - destruct H. apply andb_true_iff. split; now apply Nat.ltb_lt.
Qed.
Theorem gradient_throws l r c x : r <> c -> lv_gradient l r c x = None.
Proof. intros H. unfold lv_gradient. destruct (Nat.eqb_spec r c); [contradiction|reflexivity]. Qed.

Lemma edge_accu n e m : proper_edge e -> (fst e < n)%nat -> (snd e < n)%nat ->
  accu n n (fun i j => edge_matrix e i j * m i j) = m (fst e) (snd e) + m (snd e) (fst e).
Proof.
  destruct e as [u v]. unfold proper_edge. cbn [fst snd]. intros P U V. unfold accu, edge_matrix. cbn [fst snd].
  rewrite (usum_ext n _ (fun j => (if (j =? v)%nat then m u j else 0) + (if (j =? u)%nat then m v j else 0))).
  - rewrite usum_plus, !usum_pick. destruct (Nat.ltb_spec u n), (Nat.ltb_spec v n); try lia; lra.
  - intros j _.
    rewrite (usum_ext n _ (fun i => (if (i =? u)%nat then (if (j =? v)%nat then m i j else 0) else 0) + (if (i =? v)%nat then (if (j =? u)%nat then m i j else 0) else 0))).
    + rewrite usum_plus, !usum_pick. destruct (Nat.ltb_spec u n), (Nat.ltb_spec v n); try lia. reflexivity.
    + intros i _. destruct (Nat.eqb_spec i u), (Nat.eqb_spec j v), (Nat.eqb_spec i v), (Nat.eqb_spec j u); subst; cbn; try congruence; lra.
Qed.
Lemma edge_row n e (y : nat -> R) i : proper_edge e -> (fst e < n)%nat -> (snd e < n)%nat ->
  usum n (fun k => edge_matrix e i k * y k) = (if (fst e =? i)%nat then y (snd e) else 0) + (if (snd e =? i)%nat then y (fst e) else 0).
Proof.
  destruct e as [u v]. unfold proper_edge. cbn [fst snd]. intros P U V. unfold edge_matrix. cbn [fst snd].
  rewrite (usum_ext n _ (fun k => (if (k =? v)%nat then (if (u =? i)%nat then y k else 0) else 0) + (if (k =? u)%nat then (if (v =? i)%nat then y k else 0) else 0))).
  - rewrite usum_plus, !usum_pick. destruct (Nat.ltb_spec u n), (Nat.ltb_spec v n); try lia. reflexivity.
  - intros k _. rewrite (Nat.eqb_sym i u), (Nat.eqb_sym i v).
    destruct (Nat.eqb_spec k u), (Nat.eqb_spec k v), (Nat.eqb_spec u i), (Nat.eqb_spec v i); subst; cbn; try congruence; lra.
Qed.
Lemma s_row es r n x (y : nat -> R) i (b : nat -> R) :
  usum n (fun k => fold_left (fun s e => s - inner_edge r n x e * edge_matrix e i k) es (b k) * y k)
  = usum n (fun k => b k * y k) - fold_right Rplus 0 (map (fun e => inner_edge r n x e * usum n (fun k => edge_matrix e i k * y k)) es).
Proof.
  revert b. induction es as [|e es IH]; intros b; cbn [fold_left map fold_right]; [lra|].
  rewrite (IH (fun k => b k - inner_edge r n x e * edge_matrix e i k)).
  rewrite (usum_ext n (fun k => (b k - inner_edge r n x e * edge_matrix e i k) * y k) (fun k => b k * y k + - inner_edge r n x e * (edge_matrix e i k * y k))) by (intros; lra).
  rewrite usum_plus, usum_scal. lra.
Qed.

Lemma edges_deriv es r n x a i : (a < r)%nat ->
  (forall e, In e es -> proper_edge e /\ (fst e < n)%nat /\ (snd e < n)%nat) ->
  derivable_pt_lim (fun t => fold_right Rplus 0 (map (fun e => let v := 2 * column_product r (put x a i t) (fst e) (snd e) in v + / 4 * v ^ 2) es))
    (x a i) (- 2 * fold_right Rplus 0 (map (fun e => inner_edge r n x e * usum n (fun k => edge_matrix e i k * x a k)) es)).
Proof.
  intros A H. induction es as [|e es IH]; cbn [map fold_right].
  - rewrite Rmult_0_r. apply derivable_pt_lim_const.
  - destruct (H e (or_introl eq_refl)) as (P & U & V). specialize (IH (fun e' I => H e' (or_intror I))).
    rewrite (edge_row n e (x a) i P U V). unfold inner_edge. rewrite (edge_accu n e (gram r x) P U V), (gram_sym r x (snd e)).
    set (G := gram r x (fst e) (snd e)). set (D := gram_slope x a i (fst e) (snd e)).
    change ((if (fst e =? i)%nat then x a (snd e) else 0) + (if (snd e =? i)%nat then x a (fst e) else 0)) with D.
    match goal with |- derivable_pt_lim _ _ (-2 * (?p + ?q)) => replace (-2 * (p + q)) with ((2 * D + / 2 * (2 * G) * (2 * D)) + - 2 * q) by lra end.
    apply (derivable_pt_lim_plus (fun t => let v := 2 * column_product r (put x a i t) (fst e) (snd e) in v + / 4 * v ^ 2)); [|exact IH].
    cbv zeta.
    assert (B : derivable_pt_lim (fun t => 2 * column_product r (put x a i t) (fst e) (snd e)) (x a i) (2 * D)).
    { apply (derivable_pt_lim_scal (fun t => column_product r (put x a i t) (fst e) (snd e))).
      apply deriv_ext with (f := fun t => gram r (put x a i t) (fst e) (snd e)); [intros; symmetry; apply column_gram|]. now apply gram_deriv. }
    apply (derivable_pt_lim_plus (fun t => 2 * column_product r (put x a i t) (fst e) (snd e))); [exact B|].
    apply deriv_ext with (f := fun t => / 4 * ((2 * column_product r (put x a i t) (fst e) (snd e)) * (2 * column_product r (put x a i t) (fst e) (snd e)))); [intros; ring|].
    pose proof (derivable_pt_lim_scal _ (/ 4) _ _ (derivable_pt_lim_mult _ _ _ _ _ B B)) as S. cbv beta in S.
    rewrite column_gram, gram_same in S. fold G in S.
    replace (/ 2 * (2 * G) * (2 * D)) with (/ 4 * (2 * D * (2 * G) + 2 * G * (2 * D))) by lra. exact S.
Qed.

(** where the matrix is square and its symmetric product has the right trace (every symmetric
    matrix), Gradient is the gradient of the augmented Lagrangian with fixed multipliers *)
Theorem gradient_lagrangian l n x :
  (forall e, In e (lv_edges l) -> proper_edge e /\ (fst e < n)%nat /\ (snd e < n)%nat) ->
  (forall i j, (i < n)%nat -> (j < n)%nat -> x i j = x j i) ->
  exists g, lv_gradient l n n x = Some g /\ is_gradient n n (fixed_lagrangian (lv_edges l) n n) x g.
Proof.
  intros H Sy. unfold lv_gradient. rewrite Nat.eqb_refl.
  assert (F : forallb (edge_inside n) (lv_edges l) = true) by (apply forallb_inside; intros e I; apply H, I).
  rewrite F. cbn [andb]. eexists; split; [reflexivity|]. intros a i A I. cbv beta.
  assert (Tr : accu n n (fun i j => x j i * x i j) = square_sum n n x).
  { unfold accu. rewrite square_gram. unfold gram. apply usum_ext. intros j J. apply usum_ext. intros k K. rewrite (Sy j k J K). reflexivity. }
  set (q := square_sum n n x) in *.
  replace (usum n (fun k => 2 * lv_s l n n x i k * x a k)) with
    ((- 2 * usum n (fun j => x a j) + (INR n * (2 * x a i) + / 2 * (q - 1) * (2 * x a i)))
     + - 2 * fold_right Rplus 0 (map (fun e => inner_edge n n x e * usum n (fun k => edge_matrix e i k * x a k)) (lv_edges l))).
  - unfold fixed_lagrangian.
    apply (derivable_pt_lim_plus (fun t => - total n (fun i0 => total n (fun j => column_product n (put x a i t) i0 j)) + (INR n * (square_sum n n (put x a i t) - 1) + / 4 * (square_sum n n (put x a i t) - 1) ^ 2)));
      [|now apply edges_deriv].
    apply (derivable_pt_lim_plus (fun t => - total n (fun i0 => total n (fun j => column_product n (put x a i t) i0 j)))).
    + apply deriv_ext with (f := fun t => lv_evaluate n n (put x a i t)); [|now apply evaluate_deriv].
      intros t. unfold lv_evaluate, accu. f_equal. rewrite total_usum, usum_swap. apply usum_ext. intros u _. rewrite total_usum. apply usum_ext. intros v _. symmetry; apply column_gram.
    + assert (B : derivable_pt_lim (fun t => square_sum n n (put x a i t) - 1) (x a i) (2 * x a i)).
      { replace (2 * x a i) with (2 * x a i - 0) by lra.
        apply (derivable_pt_lim_minus (fun t => square_sum n n (put x a i t)) (fun _ => 1)); [now apply square_deriv|apply derivable_pt_lim_const]. }
      apply (derivable_pt_lim_plus (fun t => INR n * (square_sum n n (put x a i t) - 1))); [now apply (derivable_pt_lim_scal (fun t => square_sum n n (put x a i t) - 1))|].
      apply deriv_ext with (f := fun t => / 4 * ((square_sum n n (put x a i t) - 1) * (square_sum n n (put x a i t) - 1))); [intros; ring|].
      pose proof (derivable_pt_lim_scal _ (/ 4) _ _ (derivable_pt_lim_mult _ _ _ _ _ B B)) as S. cbv beta in S.
      assert (Q : square_sum n n (put x a i (x a i)) = q).
      { unfold q. rewrite !square_gram. apply usum_ext. intros. apply gram_same. }
      rewrite Q in S. replace (/ 2 * (q - 1) * (2 * x a i)) with (/ 4 * (2 * x a i * (q - 1) + (q - 1) * (2 * x a i))) by lra. exact S.
  - rewrite (usum_ext n (fun k => 2 * lv_s l n n x i k * x a k) (fun k => 2 * (lv_s l n n x i k * x a k))) by (intros; lra).
    rewrite usum_scal. unfold lv_s. rewrite (s_row (lv_edges l) n n x (x a) i (fun k => - 1 - inner_trace n x * eye i k)).
    rewrite (usum_ext n (fun k => (- 1 - inner_trace n x * eye i k) * x a k) (fun k => - 1 * x a k + - inner_trace n x * (if (k =? i)%nat then x a k else 0))).
    2: { intros k _. unfold eye. rewrite (Nat.eqb_sym i k). destruct (k =? i)%nat; lra. }
    rewrite usum_plus, !usum_scal, (usum_pick n i (x a)). destruct (Nat.ltb_spec i n); [|lia].
    unfold inner_trace. rewrite Tr. change (fun k => x a k) with (x a). change (fun j => x a j) with (x a). field.
Qed.

(** ... which is not the gradient of Evaluate *)
Theorem gradient_wrong : exists l x g, lv_gradient l 2 2 x = Some g /\ (forall i j, (i < 2)%nat -> (j < 2)%nat -> x i j = x j i) /\
  ~ is_gradient 2 2 (lv_evaluate 2 2) x g.
Proof.
  exists {| lv_edges := [(0, 1)%nat]; lv_vertices := 2 |}, (fun i j => if (i =? j)%nat then 1 else 0).
  eexists. split; [reflexivity|]. split.
  - intros i j _ _. now rewrite Nat.eqb_sym.
  - intros H. specialize (H 0%nat 0%nat ltac:(lia) ltac:(lia)).
    pose proof (evaluate_deriv 2 2 (fun i j => if (i =? j)%nat then 1 else 0) 0 0 ltac:(lia) ltac:(lia)) as G.
    pose proof (uniqueness_limite _ _ _ _ H G) as E. revert E. clear.
    unfold lv_s, inner_trace, inner_edge, accu, gram, edge_matrix, eye. cbn. lra.
Qed.

(** the number of rows of the initial point *)
Lemma ceil_spec x : IZR (ceil x) - 1 < x <= IZR (ceil x).
Proof. unfold ceil. rewrite opp_IZR. destruct (base_Int_part (- x)). lra. Qed.
Lemma ceil_unique x z : IZR z - 1 < x <= IZR z -> ceil x = z.
Proof.
  intros [A B]. destruct (ceil_spec x) as [C D].
  assert (ceil x - 1 < z)%Z by (apply lt_IZR; rewrite minus_IZR; lra).
  assert (z - 1 < ceil x)%Z by (apply lt_IZR; rewrite minus_IZR; lra). lia.
Qed.
Theorem initial_rows l k : (k * (k + 1) <= 2 * lv_constraints l < (k + 1) * (k + 2))%nat ->
  lv_initial_rows l = Nat.min (lv_vertices l) (if (k * (k + 1) =? 2 * lv_constraints l)%nat then k + 1 else k + 2).
Proof.
  set (m := lv_constraints l). intros [A B].
  assert (C : ceil (/ 2 + sqrt (/ 4 + 2 * INR m)) = Z.of_nat (if (k * (k + 1) =? 2 * m)%nat then k + 1 else k + 2)).
  { assert (E : 2 * INR m = INR (2 * m)) by (rewrite mult_INR; cbn; lra). rewrite E.
    destruct (Nat.eqb_spec (k * (k + 1)) (2 * m)) as [Q|Q].
    - rewrite <- Q. rewrite mult_INR, plus_INR. cbn [INR].
      replace (/ 4 + INR k * (INR k + 1)) with ((INR k + / 2) * (INR k + / 2)) by lra.
      pose proof (pos_INR k) as K. rewrite sqrt_square by lra. apply ceil_unique. rewrite <- INR_IZR_INZ, plus_INR. cbn [INR]. lra.
    - apply ceil_unique. rewrite <- INR_IZR_INZ, plus_INR. cbn [INR].
      assert (L : INR (k * (k + 1)) < INR (2 * m)) by (apply lt_INR; lia). assert (U : INR (2 * m) < INR ((k + 1) * (k + 2))) by (apply lt_INR; lia).
      rewrite (mult_INR k (k + 1)), plus_INR in L. rewrite (mult_INR (k + 1) (k + 2)), !plus_INR in U. cbn [INR] in L, U. pose proof (pos_INR k) as K.
      split.
      + assert (sqrt ((INR k + / 2) * (INR k + / 2)) < sqrt (/ 4 + INR (2 * m))) by (apply sqrt_lt_1; nra). rewrite sqrt_square in H by lra. lra.
      + assert (sqrt (/ 4 + INR (2 * m)) <= sqrt ((INR k + 3 / 2) * (INR k + 3 / 2))) by (apply sqrt_le_1; nra). rewrite sqrt_square in H by lra. lra. }
  unfold lv_initial_rows, lv_r. fold m. rewrite C.
  set (v := lv_vertices l). set (w := if (k * (k + 1) =? 2 * m)%nat then (k + 1)%nat else (k + 2)%nat) in *.
  destruct (Z.ltb_spec (Z.of_nat v) (Z.of_nat w)) as [V|V].
  - rewrite Nat.min_l by lia. replace (ceil (INR v)) with (Z.of_nat v); [now rewrite Nat2Z.id|]. symmetry. apply ceil_unique. rewrite <- INR_IZR_INZ. lra.
  - rewrite Nat.min_r by lia. rewrite C. now rewrite Nat2Z.id.
Qed.

(** the trace constraint at the initial point *)
Lemma usum_two_values n k a b : (k < n)%nat -> usum n (fun i => if (i =? k)%nat then a else b) = a + (INR n - 1) * b.
Proof.
  intros K. rewrite (usum_ext n _ (fun i => (if (i =? k)%nat then (fun _ => a - b) i else 0) + b)).
  - rewrite usum_plus, usum_pick, usum_const. destruct (Nat.ltb_spec k n); [|lia]. lra.
  - intros i _. destruct (i =? k)%nat; lra.
Qed.
Lemma square_two_values r c (a b : R) : (r <= c)%nat ->
  square_sum r c (fun i j => if (i =? j)%nat then a else b) = INR r * (a * a + (INR c - 1) * (b * b)).
Proof.
  intros L. unfold square_sum. rewrite total_usum, <- usum_const. apply usum_ext. intros i I. rewrite total_usum.
  rewrite <- (usum_two_values c i (a * a) (b * b)) by lia. apply usum_ext. intros j _. rewrite Nat.eqb_sym. now destruct (j =? i)%nat.
Qed.
Theorem initial_trace edges l : lv_construct edges = Some l ->
  exists r, INR (lv_initial_rows l) - 1 < r <= INR (lv_initial_rows l) /\
    (r = INR (lv_vertices l) \/ r * (r - 1) = 2 * INR (lv_constraints l)) /\
    (lv_initial_rows l <= lv_vertices l)%nat /\
    exists c, lv_constraint l 0 (lv_initial_rows l) (lv_initial_cols l) (lv_initial l) = Some c /\
      c = INR (lv_initial_rows l) / r - 1 + 2 * INR (lv_initial_rows l) * sqrt (1 / (r * INR (lv_vertices l) * INR (lv_constraints l)))
          + INR (lv_initial_rows l) / INR (lv_constraints l) /\
      0 < c.
Proof.
  intros K. assert (V : 1 <= INR (lv_vertices l)).
  { destruct edges; [discriminate|]. injection K as <-. cbn [lv_vertices]. rewrite S_INR. pose proof (pos_INR (fold_right (fun e m => Nat.max (Nat.max (fst e) (snd e)) m) 0%nat (p :: edges))). cbn [fold_right] in *. lra. }
  assert (M : 1 <= INR (lv_constraints l)) by (unfold lv_constraints; rewrite S_INR; pose proof (pos_INR (length (lv_edges l))); lra).
  set (v := lv_vertices l) in *. set (m := lv_constraints l) in *.
  assert (Q : 1 <= / 2 + sqrt (/ 4 + 2 * INR m)).
  { assert (sqrt (/ 2 * / 2) <= sqrt (/ 4 + 2 * INR m)) by (apply sqrt_le_1_alt; lra). rewrite sqrt_square in H by lra. lra. }
  assert (F : 1 <= lv_r l /\ (lv_r l = INR v \/ lv_r l * (lv_r l - 1) = 2 * INR m) /\ (ceil (lv_r l) <= Z.of_nat v)%Z).
  { unfold lv_r. fold v m. destruct (Z.ltb_spec (Z.of_nat v) (ceil (/ 2 + sqrt (/ 4 + 2 * INR m)))) as [W|W].
    - split; [exact V|]. split; [now left|]. rewrite (ceil_unique (INR v) (Z.of_nat v)); [lia|]. rewrite <- INR_IZR_INZ. lra.
    - split; [exact Q|]. split; [right|exact W]. set (q := sqrt (/ 4 + 2 * INR m)) in *.
      assert (q * q = / 4 + 2 * INR m) by (apply sqrt_sqrt; lra). lra. }
  destruct F as (R1 & D & W). destruct (ceil_spec (lv_r l)) as [C1 C2]. set (r := lv_r l) in *.
  assert (Z1 : (1 <= ceil r)%Z) by (apply le_IZR; lra).
  assert (E : INR (lv_initial_rows l) = IZR (ceil r)).
  { unfold lv_initial_rows. fold r. rewrite INR_IZR_INZ, Z2Nat.id by lia. reflexivity. }
  assert (L : (lv_initial_rows l <= v)%nat) by (unfold lv_initial_rows; fold r; lia).
  exists r. rewrite E at 1 2. split; [lra|]. split; [exact D|]. split; [exact L|].
  rewrite constraint_zero. eexists. split; [reflexivity|].
  set (k := INR (lv_initial_rows l)) in *.
  assert (S1 : square_sum (lv_initial_rows l) (lv_initial_cols l) (lv_initial l)
               = k * (1 / r + 2 * sqrt (1 / (r * INR v * INR m)) + 1 / INR m)).
  { unfold lv_initial_cols. fold v. unfold lv_initial. fold r v m. rewrite square_two_values by exact L. fold k. f_equal.
    assert (P1 : 0 <= 1 / r) by (apply Rlt_le, Rdiv_lt_0_compat; lra).
    assert (N0 : 0 < INR v * INR m) by (apply Rmult_lt_0_compat; lra).
    assert (P2 : 0 <= 1 / (INR v * INR m)) by (apply Rlt_le, Rdiv_lt_0_compat; lra).
    replace (1 / (r * INR v * INR m)) with (1 / r * (1 / (INR v * INR m))) by (field; lra).
    rewrite sqrt_mult by assumption.
    pose proof (sqrt_sqrt _ P1) as A1. pose proof (sqrt_sqrt _ P2) as A2.
    set (a := sqrt (1 / r)) in *. set (b := sqrt (1 / (INR v * INR m))) in *.
    replace ((a + b) * (a + b) + (INR v - 1) * (b * b)) with (a * a + 2 * (a * b) + INR v * (b * b)) by ring.
    rewrite A1, A2. field. lra. }
  rewrite S1. assert (K1 : 1 <= k) by lra. assert (K2 : 1 <= k / r) by (apply (Rmult_le_reg_r r); [lra|]; unfold Rdiv; rewrite Rmult_assoc, Rinv_l by lra; lra).
  assert (K3 : 0 < k / INR m) by (apply Rdiv_lt_0_compat; lra).
  pose proof (sqrt_pos (1 / (r * INR v * INR m))) as K4.
  split; [unfold Rdiv; ring|].
  replace (-1 + k * (1 / r + 2 * sqrt (1 / (r * INR v * INR m)) + 1 / INR m))
    with (k / r - 1 + 2 * (k * sqrt (1 / (r * INR v * INR m))) + k / INR m) by (unfold Rdiv; ring).
  assert (0 <= k * sqrt (1 / (r * INR v * INR m))) by (apply Rmult_le_pos; lra). lra.
Qed.
