(** Logistic regression: gradient, batches, shuffling. *)
From Coq Require Import List Arith Reals Lra Lia Permutation.
From Coquelicot Require Import Coquelicot.
From Verif.Spec Require Import Gradient LpSpec SvecSpec ProblemsSpec.
From Verif.Model Require Import Problems ProblemsN.
From Verif.Proof Require Import ProximalProof LRSDPProof PrimalDualProof GradientProof ProblemsGrad ProblemsSum ProblemsNGrad.
Import ListNotations.
Local Open Scope R_scope.

(** sums over consecutive batches of a list *)
Lemma sum_cols (f : point -> R) : forall sizes pts b, (b + list_sum sizes = length pts)%nat ->
  sumR (map (fun q => sumR (map f (cols pts (fst q) (snd q)))) (batches_from b sizes)) = sumR (map f (skipn b pts)).
Proof.
  induction sizes as [|s r IH]; intros pts b E.
  - cbn [batches_from map sumR]. rewrite skipn_all2 by (cbn in E; lia). reflexivity.
  - change (list_sum (s :: r)) with (s + list_sum r)%nat in E. cbn [batches_from map sumR fst snd]. rewrite IH by lia.
    unfold cols. rewrite <- sumR_app, <- map_app. f_equal. f_equal.
    rewrite <- (firstn_skipn s (skipn b pts)) at 2. f_equal. clear. revert pts. induction b as [|b IH]; intros pts; [reflexivity|]. destruct pts; [rewrite !skipn_nil; reflexivity|]. apply IH.
Qed.
Lemma loglik_eq w pts : loglik w pts = sumR (map (fun q => ln (1 - INR (snd q) + sigm w q * (2 * INR (snd q) - 1))) pts).
Proof. unfold loglik. rewrite fold_Rplus. lra. Qed.
Lemma lr_values lambda pts w : pts <> [] -> values_add_up (length pts) (lr_batch lambda pts w) (lr_evaluate lambda pts w).
Proof.
  intros Hp sizes E. unfold lr_batch, lr_evaluate. set (D := dot_ (tl w) (tl w)). set (N := INR (length pts)).
  assert (HN : 0 < N) by (apply lt_0_INR; destruct pts; [contradiction|cbn; lia]).
  set (l := fun q : list R * nat => ln (1 - INR (snd q) + sigm w q * (2 * INR (snd q) - 1))).
  rewrite (sumR_map_ext _ (fun q => lambda * D / (2 * N) * INR (snd q) + -1 * sumR (map l (cols pts (fst q) (snd q))))).
  2:{ intros q _. rewrite loglik_eq. fold l. field. lra. }
  rewrite sumR_map_plus, !sumR_map_scal, sum_sizes, E, (sum_cols l) by exact E. rewrite loglik_eq. fold l. cbn [skipn]. fold N. change (@map point R l pts) with (@map (list R * nat) R l pts). field. lra.
Qed.
Lemma lr_slope_length w pts reg : (0 < length w)%nat -> length (lr_slope w pts reg) = length w.
Proof. intros H. unfold lr_slope. cbn [length]. rewrite map_length, seq_length. lia. Qed.
(** entry i of the slope *)
Definition lr_dir (q : point) (i : nat) : R := match i with O => 1 | S k => co (fst q) k end.
Lemma lr_slope_nth w pts reg i : (i < length w)%nat ->
  nth i (lr_slope w pts reg) 0 = sumR (map (fun q => (sigm w q - INR (snd q)) * lr_dir q i) pts) + match i with O => 0 | S k => co reg k end.
Proof.
  intros H. unfold lr_slope. destruct i as [|k]; cbn [nth lr_dir].
  - rewrite fold_Rplus, Rplus_0_l, Rplus_0_r.
    replace (- sumR (map (fun q => INR (snd q) - sigm w q) pts)) with (-1 * sumR (map (fun q => INR (snd q) - sigm w q) pts)) by ring.
    rewrite <- sumR_map_scal. apply sumR_map_ext. intros q _. ring.
  - rewrite (nth_map_seq (fun k => fold_left Rplus (map (fun q => (sigm w q - INR (snd q)) * co (fst q) k) pts) 0 + co reg k)) by lia.
    rewrite fold_Rplus, Rplus_0_l. reflexivity.
Qed.
Lemma lr_vectors lambda pts w : pts <> [] -> (0 < length w)%nat ->
  vectors_add_up (length pts) (lr_batch_gradient lambda pts w) (lr_gradient lambda pts w).
Proof.
  intros Hp Hw sizes E. unfold lr_batch_gradient, lr_gradient. split. { intros q _. rewrite !lr_slope_length by exact Hw. reflexivity. }
  set (N := INR (length pts)). assert (HN : 0 < N) by (apply lt_0_INR; destruct pts; [contradiction|cbn; lia]).
  intros i. destruct (Nat.lt_ge_cases i (length w)) as [H|H].
  - set (l := fun q : point => (sigm w q - INR (snd q)) * lr_dir q i). rewrite lr_slope_nth by exact H. fold l.
    assert (G : forall c, match i with O => 0 | S k => co (map (fun a => c * a) (tl w)) k end = c * match i with O => 0 | S k => co (tl w) k end).
    { intros c. destruct i as [|k]; [ring|]. unfold co. rewrite <- (map_nth (fun a => c * a)). f_equal. ring. }
    rewrite (sumR_map_ext _ (fun q => sumR (map l (cols pts (fst q) (snd q))) + (lambda / N * match i with O => 0 | S k => co (tl w) k end) * INR (snd q))).
    2:{ intros q _. rewrite lr_slope_nth by exact H. fold l. f_equal. rewrite (map_ext _ (fun a => (lambda / N * INR (snd q)) * a)) by (intros a; unfold Rdiv; ring).
        rewrite G. ring. }
    rewrite sumR_map_plus, sumR_map_scal, sum_sizes, (sum_cols l), E by exact E. rewrite G. cbn [skipn]. fold N. field. lra.
  - rewrite (nth_overflow (lr_slope _ _ _)) by (rewrite lr_slope_length; auto).
    rewrite (sumR_map_ext _ (fun _ => 0 * 0)). { rewrite sumR_map_scal. lra. }
    intros q _. rewrite nth_overflow by (rewrite lr_slope_length; auto). lra.
Qed.
(** shuffling *)
Lemma lr_shuffle_perm ordering pts : Permutation ordering (seq 0 (length pts)) -> Permutation (lr_shuffle ordering pts) pts.
Proof.
  intros P. unfold lr_shuffle. rewrite (Permutation_map _ P). set (d := ([], 0%nat) : point).
  assert (E : map (fun i => nth i pts d) (seq 0 (length pts)) = pts); [|rewrite E; reflexivity].
  apply (nth_ext _ _ d d). { rewrite map_length, seq_length. reflexivity. }
  intros i Hi. rewrite map_length, seq_length in Hi. rewrite (nth_indep _ d (nth 0 pts d)) by (rewrite map_length, seq_length; exact Hi).
  rewrite (map_nth (fun j => nth j pts d)), seq_nth by exact Hi. reflexivity.
Qed.
Lemma lr_perm lambda pts pts' w : Permutation pts' pts -> (0 < length w)%nat ->
  lr_evaluate lambda pts' w = lr_evaluate lambda pts w /\ lr_gradient lambda pts' w = lr_gradient lambda pts w.
Proof.
  intros P Hw. split.
  - unfold lr_evaluate. rewrite !loglik_eq. f_equal. apply sumR_perm, Permutation_map, P.
  - apply (nth_ext _ _ 0 0); unfold lr_gradient. { rewrite !lr_slope_length by exact Hw. reflexivity. }
    intros i Hi. rewrite lr_slope_length in Hi by exact Hw. rewrite !lr_slope_nth by exact Hi. f_equal. apply sumR_perm, Permutation_map, P.
Qed.
(** ---- the gradient ---- *)
Lemma dot_sum : forall a b n, length a = n -> length b = n -> dot_ a b = sum_n n (fun k => co a k * co b k).
Proof.
  induction a as [|u a IH]; intros [|v b] n La Lb; cbn [length] in *; subst n; try discriminate Lb; [reflexivity|].
  cbn [dot_]. rewrite sum_n_first. rewrite (IH b (length a)) by lia. reflexivity.
Qed.
Lemma dot_along : forall w d a t, length d = length w -> dot_ (along w d t) a = dot_ w a + t * dot_ d a.
Proof.
  induction w as [|u w IH]; intros [|v d] a t L; try discriminate L; [cbn; lra|]. injection L as L. destruct a as [|z a]; cbn [along dot_]; [lra|].
  rewrite IH by exact L. ring.
Qed.
Lemma along_tl w d t : tl (along w d t) = along (tl w) (tl d) t.
Proof. destruct w as [|a w]; destruct d as [|b d]; cbn [along tl]; auto. destruct w; reflexivity. Qed.
(** the derivative of one term in w0 + w' x *)
Lemma logistic_term y u : (y <= 1)%nat ->
  is_derive (fun u => ln (1 - INR y + 1 / (1 + exp (- u)) * (2 * INR y - 1))) u (INR y - 1 / (1 + exp (- u))).
Proof.
  intros Hy. pose proof (exp_pos (- u)) as E. assert (E1 : 0 < 1 / (1 + exp (- u)) < 1).
  { split. - apply Rdiv_lt_0_compat; lra. - apply Rmult_lt_reg_r with (1 + exp (- u)); [lra|]. unfold Rdiv. rewrite Rmult_assoc, Rinv_l by lra. lra. }
  set (s := 1 / (1 + exp (- u))) in *.
  assert (Hs : s * (1 + exp (- u)) = 1) by (unfold s; field; lra).
  destruct y as [|[|y]]; [| |lia]; cbn [INR].
  - auto_derive.
    + unfold s in E1. split; [lra|]. unfold Rdiv in E1. split; [|exact I]. lra.
    + unfold s. field. unfold s in E1. split; [|lra]. intros Q.
      assert (1 / (1 + exp (- u)) = 1 - exp (-u) / (1 + exp (- u))) by (field; lra). nra.
  - auto_derive.
    + unfold s in E1. split; [lra|]. unfold Rdiv in E1. split; [|exact I]. lra.
    + unfold s. field. unfold s in E1. nra.
Qed.
Lemma lr_gradient_ok lambda pts w : (0 < length w)%nat ->
  List.Forall (fun q => length (fst q) = (length w - 1)%nat /\ (snd q <= 1)%nat) pts ->
  gradient_at (lr_evaluate lambda pts) w (lr_gradient lambda pts w).
Proof.
  intros Hw F. unfold lr_gradient. split; [apply lr_slope_length; exact Hw|]. intros d Ld. set (m := (length w - 1)%nat) in *.
  rewrite dotR_sum by (rewrite lr_slope_length; auto). rewrite Ld.
  set (lin := fun q : point => co d 0 + dot_ (tl d) (fst q)).
  assert (Ew : length w = S m) by (unfold m; lia).
  assert (Ltw : length (tl w) = m) by (destruct w; cbn in *; lia). assert (Ltd : length (tl d) = m) by (destruct d; cbn in *; lia).
  assert (Hlin : forall q, length (fst q) = m -> lin q = sum_n (S m) (fun i => lr_dir q i * co d i)).
  { intros q Hq. unfold lin. rewrite (dot_sum (tl d) (fst q) m Ltd Hq), sum_n_first. cbn [lr_dir]. f_equal; [ring|]. apply sum_n_ext. intros k _.
    destruct d as [|d0 d]; [destruct w; discriminate|]. unfold co. cbn [tl nth]. ring. }
  (* the value of the linear form *)
  assert (V : sum_n (length w) (fun p => nth p (lr_slope w pts (map (fun a => lambda * a) (tl w))) 0 * nth p d 0) =
              lambda * dot_ (tl w) (tl d) - sumR (map (fun q => (INR (snd q) - sigm w q) * lin q) pts)).
  { rewrite Ew. rewrite (sum_n_ext (S m) _ (fun i => sumR (map (fun q => (sigm w q - INR (snd q)) * lr_dir q i) pts) * co d i +
        (match i with O => 0 | S k => lambda * co (tl w) k end) * co d i)).
    2:{ intros i Hi. rewrite lr_slope_nth by lia. unfold co at 3. rewrite Rmult_plus_distr_r. f_equal. f_equal. destruct i as [|k]; [reflexivity|].
        unfold co. rewrite <- (map_nth (fun a => lambda * a)). f_equal. ring. }
    rewrite sum_n_plus, Rplus_comm. match goal with |- _ = ?a - ?b => change (a - b) with (a + - b) end. f_equal.
    - rewrite sum_n_first, Rmult_0_l, Rplus_0_l. rewrite (dot_sum (tl w) (tl d) m Ltw Ltd), <- sum_n_scal. apply sum_n_ext. intros k _.
      destruct d as [|d0 d]; [destruct w; discriminate|]. unfold co. cbn [tl nth]. ring.
    - transitivity (-1 * sumR (map (fun q => (INR (snd q) - sigm w q) * lin q) pts)); [|ring].
      rewrite <- sumR_map_scal. clear -F Hlin. induction F as [|q pts [Hq _] F IH].
      + cbn [map sumR]. rewrite (sum_n_ext (S m) _ (fun _ => 0)) by (intros; ring). apply sum_n_zero.
      + cbn [map sumR]. rewrite <- IH. rewrite (Hlin q Hq), <- sum_n_scal, <- sum_n_scal, <- sum_n_plus. apply sum_n_ext. intros i _. ring. }
  rewrite V. clear V Hlin.
  (* the function along d *)
  apply is_derive_Reals.
  apply (is_derive_ext (fun t => 5/10 * lambda * (dot_ (tl w) (tl w) + 2 * t * dot_ (tl w) (tl d) + t * t * dot_ (tl d) (tl d)) +
    -1 * sumR (map (fun q => ln (1 - INR (snd q) + 1 / (1 + exp (- ((co w 0 + dot_ (tl w) (fst q)) + t * lin q))) * (2 * INR (snd q) - 1))) pts))).
  { intros t. unfold lr_evaluate. rewrite along_tl, loglik_eq.
    assert (C : forall u v, dot_ u v = dot_ v u) by (clear; induction u as [|a u IH]; intros [|b v]; cbn [dot_]; auto; rewrite IH; ring).
    rewrite dot_along by lia. rewrite (C (tl w) (along _ _ _)), (C (tl d) (along _ _ _)), !dot_along by lia. rewrite (C (tl d) (tl w)).
    assert (K : map (fun q => ln (1 - INR (snd q) + 1 / (1 + exp (- ((co w 0 + dot_ (tl w) (fst q)) + t * lin q))) * (2 * INR (snd q) - 1))) pts =
      map (fun q => ln (1 - INR (snd q) + sigm (along w d t) q * (2 * INR (snd q) - 1))) pts).
    { apply map_ext. intros q. unfold sigm. rewrite along_tl, dot_along by lia. unfold co at 2. rewrite nth_along by exact Ld. fold (co w 0). fold (co d 0).
      unfold lin. replace (co w 0 + t * co d 0 + (dot_ (tl w) (fst q) + t * dot_ (tl d) (fst q))) with (co w 0 + dot_ (tl w) (fst q) + t * (co d 0 + dot_ (tl d) (fst q))) by ring. reflexivity. }
    rewrite K. match goal with |- ?a = ?b => change (@eq R a b) end. ring. }
  apply (is_derive_plus (K := R_AbsRing) (V := R_NormedModule)).
  - auto_derive; [auto|]. field.
  - assert (Q : is_derive (fun t => sumR (map (fun q => ln (1 - INR (snd q) + 1 / (1 + exp (- ((co w 0 + dot_ (tl w) (fst q)) + t * lin q))) * (2 * INR (snd q) - 1))) pts)) 0
             (sumR (map (fun q => (INR (snd q) - sigm w q) * lin q) pts))).
    { clear -F. induction F as [|q pts [_ Hq] F IH]; [apply (is_derive_const (K := R_AbsRing) (V := R_NormedModule) 0 0)|]. cbn [map sumR].
      apply (is_derive_plus (K := R_AbsRing) (V := R_NormedModule)); [|exact IH]. apply is_derive_Reals.
      apply (deriv_line (fun u => ln (1 - INR (snd q) + 1 / (1 + exp (- u)) * (2 * INR (snd q) - 1)))). apply logistic_term. exact Hq. }
    replace (- sumR (map (fun q => (INR (snd q) - sigm w q) * lin q) pts)) with (-1 * sumR (map (fun q => (INR (snd q) - sigm w q) * lin q) pts)) by ring.
    apply (is_derive_scal _ 0 (-1)). exact Q.
Qed.
Lemma lr_partial_ok lambda pts w j : (j < length w)%nat -> lr_partial_gradient lambda pts w j = nth j (lr_gradient lambda pts w) 0.
Proof.
  intros H. unfold lr_gradient. rewrite lr_slope_nth by exact H. unfold lr_partial_gradient. destruct j as [|k].
  - rewrite fold_Rplus, Rplus_0_l, Rplus_0_r.
    replace (- sumR (map (fun q => INR (snd q) - sigm w q) pts)) with (-1 * sumR (map (fun q => INR (snd q) - sigm w q) pts)) by ring.
    rewrite <- sumR_map_scal. apply sumR_map_ext. intros q _. unfold lr_dir. ring.
  - rewrite fold_Rplus, Rplus_0_l. f_equal.
    + apply sumR_map_ext. intros q _. unfold lr_dir. ring.
    + destruct w as [|a w]; [cbn in H; lia|]. unfold co. cbn [nth tl]. rewrite <- (map_nth (fun a => lambda * a)). f_equal. ring.
Qed.
Lemma lr_ewg lambda pts w : lr_evaluate_with_gradient lambda pts w = (lr_evaluate lambda pts w, lr_gradient lambda pts w).
Proof. unfold lr_evaluate_with_gradient, lr_evaluate, lr_gradient. f_equal. field. Qed.
