(** The weights as real numbers. *)
From Coq Require Import List Arith Bool ZArith Reals Lia Lra Permutation Sorting.Sorted.
From Verif.Base Require Import Num Vec Instances.
From Verif.Model Require Import DasDennis.
From Verif.Spec Require Import DasDennisSpec LpSpec.
From Verif.Proof Require Import DasDennisProof ProximalProof LpMore.
Import ListNotations.
Local Open Scope R_scope.

Definition weight (p : nat) (eps : R) (i : nat) : R := (1 / INR p) * INR i + eps.

Lemma sum_weight : forall p eps c, (1 <= p)%nat ->
  sumR (map (weight p eps) c) = INR (list_sum c) / INR p + INR (length c) * eps.
Proof.
  intros p eps c Hp. assert (P : 0 < INR p) by (apply lt_0_INR; lia).
  induction c as [|i c IH].
  - cbn. unfold Rdiv. ring.
  - cbn [map sumR length]. rewrite IH. unfold list_sum at 2. cbn [fold_right]. fold (list_sum c).
    rewrite plus_INR, S_INR. unfold weight. field. lra.
Qed.

Lemma weights_sum : forall m p eps c, (1 <= p)%nat -> lattice m p c ->
  sumR (map (weight p eps) c) = 1 + INR m * eps /\ (0 <= eps -> forall w, In w (map (weight p eps) c) -> 0 <= w).
Proof.
  intros m p eps c Hp [L Sm]. assert (P : 0 < INR p) by (apply lt_0_INR; lia). split.
  - rewrite sum_weight, L, Sm by exact Hp. field. lra.
  - intros He w Hw. apply in_map_iff in Hw. destruct Hw as (i & <- & _). unfold weight.
    assert (0 <= INR i) by apply pos_INR. assert (0 < 1 / INR p) by (apply Rdiv_lt_0_compat; lra). nra.
Qed.

Lemma weights_inj : forall p eps c c', (1 <= p)%nat -> map (weight p eps) c = map (weight p eps) c' -> c = c'.
Proof.
  intros p eps c c' Hp. assert (P : 0 < INR p) by (apply lt_0_INR; lia). revert c'.
  induction c as [|i c IH]; intros [|j c'] H; cbn in H; try discriminate; [reflexivity|].
  apply (f_equal (fun l => (hd 0 l, tl l))) in H. cbn in H.
  assert (H1 := f_equal fst H). assert (H2 := f_equal snd H). cbn in H1, H2. f_equal; [|apply IH; exact H2].
  unfold weight in H1. apply INR_eq.
  assert (1 / INR p <> 0) by (assert (0 < 1 / INR p) by (apply Rdiv_lt_0_compat; lra); lra).
  apply (Rmult_eq_reg_l (1 / INR p)); [lra|assumption].
Qed.

(** the code's arithmetic is [weight] *)
Lemma weight_code : forall mx p (eps : R) i,
  nadd (n := RNum mx) (nmul (ndiv n1 (nofnat p)) (nofnat i)) eps = weight p eps i.
Proof. intros mx p eps i. unfold weight, nofnat. cbn. rewrite !INR_IZR_INZ. reflexivity. Qed.

(** ** the random policies *)
Lemma last_default : forall (l : list R) a b c, last (c :: l) a = last (c :: l) b.
Proof. induction l as [|d l IH]; intros a b c; [reflexivity|]. exact (IH a b d). Qed.

Lemma last_cons : forall (l : list R) a b, last (b :: l) a = last l b.
Proof. intros [|c l] a b; [reflexivity|]. change (last (c :: l) a = last (c :: l) b). apply last_default. Qed.

Lemma last_In : forall (r : list R) a, In (last r a) (a :: r).
Proof.
  induction r as [|b r IH]; intros a; [left; reflexivity|]. rewrite last_cons. right. apply IH.
Qed.

Lemma diffs_sum : forall mx (l : list R) a, sumR (diffs (N := RNum mx) (a :: l)) = last l a - a.
Proof.
  intros mx l; induction l as [|b l IH]; intros a.
  - cbn. lra.
  - change (diffs (N := RNum mx) (a :: b :: l)) with ((b - a) :: diffs (N := RNum mx) (b :: l)). cbn [sumR]. rewrite IH.
    rewrite last_cons. lra.
Qed.

Lemma diffs_nonneg : forall mx (l : list R), StronglySorted Rle l -> forall d, In d (diffs (N := RNum mx) l) -> 0 <= d.
Proof.
  intros mx l S. induction S as [|a l S IH F]; intros d H; [destruct H|].
  destruct l as [|b l]; [destruct H|]. change (diffs (N := RNum mx) (a :: b :: l)) with ((b - a) :: diffs (N := RNum mx) (b :: l)) in H.
  destruct H as [<-|H]; [|apply IH; exact H]. inversion F; subst. lra.
Qed.

Lemma diffs_length : forall (N : Num) (l : list N), length (diffs l) = (length l - 1)%nat.
Proof.
  intros N l; induction l as [|a l IH]; [reflexivity|]. destruct l as [|b l]; [reflexivity|].
  change (diffs (a :: b :: l)) with (nsub b a :: diffs (b :: l)). cbn [length] in *. lia.
Qed.

Lemma sorted_ends : forall l lo hi, StronglySorted Rle l -> In lo l -> In hi l ->
  (forall x, In x l -> lo <= x <= hi) -> exists r, l = lo :: r /\ last r lo = hi.
Proof.
  intros l lo hi S Il Ih B. destruct l as [|a r]; [destruct Il|].
  assert (EA : a = lo).
  { apply Rle_antisym; [|apply B; left; reflexivity].
    inversion S as [|? ? S' F]; subst. rewrite Forall_forall in F. destruct Il as [->|Il]; [lra|apply F; exact Il]. }
  subst a. exists r. split; [reflexivity|].
  (* the last element of a sorted list is its greatest *)
  assert (G : forall r a, StronglySorted Rle (a :: r) -> forall x, In x (a :: r) -> x <= last r a).
  { clear. induction r as [|b r IH]; intros a S x H.
    - destruct H as [->|[]]. cbn. lra.
    - inversion S as [|? ? S' F]; subst. assert (E : last (b :: r) a = last r b) by apply last_cons.
      rewrite E. destruct H as [->|H]; [|apply IH; assumption].
      apply Rle_trans with b; [inversion F; assumption|apply IH; [assumption|left; reflexivity]]. }
  apply Rle_antisym; [apply B, last_In|apply G; assumption].
Qed.

Lemma bbs_ok : forall mx sortv m (u : list R) (eps : R), sorts_up sortv -> (1 <= m)%nat -> length u = (m + 1)%nat ->
  (forall x, In x u -> 0 <= x <= 1) ->
  let w := bbs_column (N := RNum mx) sortv u eps in
  length w = m /\ sumR w = 1 + INR m * eps /\ (0 <= eps -> forall x, In x w -> 0 <= x).
Proof.
  intros mx sortv m u eps SU Hm HL HB w. destruct u as [|u0 [|u1 u]]; cbn in HL; try lia.
  unfold w, bbs_column. set (l := 0 :: removelast (u1 :: u) ++ [1]).
  change (sortv (n0 (n := RNum mx) :: removelast (u1 :: u) ++ [n1 (n := RNum mx)])) with (sortv l).
  destruct (SU l) as [P S].
  assert (LL : length l = (m + 1)%nat).
  { unfold l. cbn [length]. rewrite app_length. cbn [length].
    assert (X := app_removelast_last 0 (l := u1 :: u) ltac:(discriminate)). apply (f_equal (@length R)) in X.
    rewrite app_length in X. cbn [length] in X. lia. }
  destruct (sorted_ends (sortv l) 0 1) as (r & E & La).
  - exact S.
  - apply (Permutation_in _ (Permutation_sym P)). left; reflexivity.
  - apply (Permutation_in _ (Permutation_sym P)). unfold l. right. apply in_or_app. right. left; reflexivity.
  - intros x Hx. apply (Permutation_in _ P) in Hx. unfold l in Hx. destruct Hx as [<-|Hx]; [lra|].
    apply in_app_or in Hx. destruct Hx as [Hx|[<-|[]]]; [|lra]. apply HB. right.
    rewrite (app_removelast_last 0 (l := u1 :: u)) by discriminate. apply in_or_app. left; exact Hx.
  - assert (LD : length (diffs (N := RNum mx) (sortv l)) = m).
    { refine (eq_trans (diffs_length (RNum mx) _) _). assert (X := Permutation_length P). cbn [T RNum] in *. lia. }
    split; [refine (eq_trans (map_length _ _) LD)|]. split.
    + assert (G : forall k : list R, sumR (map (fun a => a + eps) k) = sumR k + INR (length k) * eps).
      { induction k as [|a k IH]; cbn [map sumR length]; [cbn; lra|]. rewrite IH, S_INR. lra. }
      refine (eq_trans (G _) _). refine (eq_trans (f_equal2 Rplus _ (f_equal (fun n => INR n * eps) LD)) eq_refl).
      rewrite E. refine (eq_trans (diffs_sum mx r 0) _). rewrite La. lra.
    + intros He x Hx. apply in_map_iff in Hx. destruct Hx as (d & <- & Hd).
      assert (0 <= d) by (eapply (diffs_nonneg mx); [exact S|exact Hd]). cbn. lra.
Qed.

Lemma dirichlet_ok : forall mx (g : list R) (eps : R), g <> [] -> (forall x, In x g -> 0 < x) -> 0 <= eps ->
  let w := dirichlet_column (N := RNum mx) g eps in
  length w = length g /\ sumR w = 1 /\ (forall x, In x w -> 0 < x).
Proof.
  intros mx g eps NE HP He w.
  set (v := map (fun a => a + eps) g).
  assert (VP : forall x, In x v -> 0 < x).
  { intros x Hx. apply in_map_iff in Hx. destruct Hx as (a & <- & Ha). specialize (HP a Ha). lra. }
  assert (AV : map Rabs v = v).
  { rewrite <- (map_id v) at 2. apply map_ext_in. intros x Hx. apply Rabs_pos_eq. specialize (VP x Hx). lra. }
  assert (SP : 0 < sumR v).
  { unfold v. destruct g as [|a g]; [congruence|]. cbn [map sumR].
    assert (0 <= sumR (map (fun b => b + eps) g)).
    { apply sumR_nonneg. intros x Hx. apply Rlt_le, VP. right. exact Hx. }
    specialize (HP a (or_introl eq_refl)). lra. }
  assert (NS : vsum (N := RNum mx) (map Rabs v) = sumR v) by (rewrite AV; apply vsum_sumR).
  assert (EW : w = map (fun a => a / sumR v) v).
  { change w with (if Reqb (vsum (N := RNum mx) (map Rabs v)) 0 then v
                   else map (fun a => a / vsum (N := RNum mx) (map Rabs v)) v).
    destruct (Reqb (vsum (N := RNum mx) (map Rabs v)) 0) eqn:Q.
    - exfalso. destruct (Reqb_spec (vsum (N := RNum mx) (map Rabs v)) 0) as [Q'|]; [|discriminate Q]. assert (X := eq_trans (eq_sym NS) Q'). lra.
    - apply map_ext. intros a. f_equal. exact NS. }
  rewrite EW. split; [unfold v; rewrite !map_length; reflexivity|]. split.
  - assert (G : forall k s, s <> 0 -> sumR (map (fun a => a / s) k) = sumR k / s).
    { induction k as [|a k IH]; intros s Hs; cbn [map sumR]; [field; exact Hs|]. rewrite IH by exact Hs. field. exact Hs. }
    rewrite G by lra. field. lra.
  - intros x Hx. apply in_map_iff in Hx. destruct Hx as (a & <- & Ha). apply Rdiv_lt_0_compat; [apply VP; exact Ha|exact SP].
Qed.

Theorem generate_real : forall mx m n p (nan eps : R), (2 <= m)%nat -> (1 <= p)%nat -> n = choose (m + p - 1) p ->
  (Z.of_nat ((m + n) * (m + n)) < 2 ^ 64)%Z ->
  exists ws fuel0, (forall fuel, (fuel0 <= fuel)%nat -> generate (N := RNum mx) fuel m n nan eps = GRet ws) /\
    length ws = n /\ NoDup ws /\
    (forall w, In w ws <-> exists c, lattice m p c /\ w = map (fun i => INR i / INR p + eps) c) /\
    forall w, In w ws -> length w = m /\ sumR w = 1 + INR m * eps /\ (0 <= eps -> forall a, In a w -> 0 <= a).
Proof.
  intros mx m n p nan eps Hm Hp Hn HB.
  destruct (generate_ok (RNum mx) m n p nan eps Hm Hp Hn HB) as (cs & fuel0 & ND & IN & L & G).
  assert (E : forall c, map (fun i => INR i / INR p + eps) c = map (weight p eps) c).
  { intros c. apply map_ext. intros i. unfold weight. assert (0 < INR p) by (apply lt_0_INR; lia). field. lra. }
  exists (map (map (weight p eps)) cs), fuel0. repeat apply conj.
  - intros fuel HF. rewrite (G fuel HF). f_equal. apply map_ext. intros c. apply map_ext. intros i. apply weight_code.
  - rewrite map_length. exact L.
  - apply map_nodup; [|exact ND]. intros c c' _ _ H. exact (weights_inj p eps c c' Hp H).
  - intros w. rewrite in_map_iff. split.
    + intros (c & <- & Hc). exists c. split; [apply IN; exact Hc|symmetry; apply E].
    + intros (c & Hc & ->). exists c. split; [symmetry; apply E|apply IN; exact Hc].
  - intros w Hw. apply in_map_iff in Hw. destruct Hw as (c & <- & Hc). apply IN in Hc.
    destruct (weights_sum m p eps c Hp Hc) as [A B]. split; [rewrite map_length; apply Hc|]. split; [exact A|exact B].
Qed.

(** a sort to run the examples with *)
Fixpoint insR (a : R) (l : list R) : list R :=
  match l with
  | [] => [a]
  | b :: r => if Rle_dec a b then a :: l else b :: insR a r
  end.
Definition sortR (l : list R) : list R := fold_right insR [] l.

Lemma insR_perm : forall a l, Permutation (insR a l) (a :: l).
Proof.
  intros a l; induction l as [|b l IH]; cbn; [reflexivity|]. destruct (Rle_dec a b); [reflexivity|].
  rewrite IH. apply perm_swap.
Qed.

Lemma insR_sorted : forall a l, StronglySorted Rle l -> StronglySorted Rle (insR a l).
Proof.
  intros a l S; induction S as [|b l S IH F]; cbn; [repeat constructor|]. destruct (Rle_dec a b) as [H|H].
  - constructor; [constructor; assumption|]. constructor; [exact H|]. eapply Forall_impl; [|exact F]. cbn. intros c Hc. lra.
  - constructor; [exact IH|]. rewrite Forall_forall in *. intros c Hc. apply (Permutation_in _ (insR_perm a l)) in Hc.
    destruct Hc as [<-|Hc]; [lra|apply F; exact Hc].
Qed.

Lemma sortR_ok : sorts_up sortR.
Proof.
  intros l; induction l as [|a l [P S]]; [split; constructor|]. split.
  - cbn. rewrite insR_perm. constructor. exact P.
  - cbn. apply insR_sorted, S.
Qed.
