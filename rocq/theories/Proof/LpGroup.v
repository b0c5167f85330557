From Coq Require Import List Arith Bool ZArith Reals Lra Lia.
From Verif.Base Require Import Num Instances Vec.
From Verif.Model Require Import Common SA LpBall.
From Verif.Spec Require Import Gradient LpSpec FWSpec.
From Verif.Proof Require Import GradientProof SAProof LpProof LpMore.
Import ListNotations.
Local Open Scope R_scope.

Notation ones v := (map (fun _ => 1) v).
Lemma div_ones {A} : forall (s : list R) (v : list A), length s = length v -> map2 Rdiv s (ones v) = s.
Proof. induction s as [|x s IH]; intros [|y v] L; try discriminate; cbn [map map2]; [reflexivity|]. rewrite IH by (cbn in L; lia). f_equal. lra. Qed.
Lemma inf_norm mx : forall v : list R, sumR (map2 (fun x a => Rabs x / a) v (ones v)) = vsum (N := RNum mx) (map Rabs v).
Proof. intros v. rewrite vsum_sumR. induction v as [|x v IH]; cbn [map map2 sumR]; [reflexivity|]. rewrite IH. lra. Qed.

(** the largest absolute value *)
Definition maxabs mx (y : list R) (m0 : R) : R :=
  fold_left (fun m x : R => if nlt (n := RNum mx) m (Rabs x) then Rabs x else m) y m0.
Lemma maxabs_spec mx : forall y m0, m0 <= maxabs mx y m0 /\ (forall x, In x y -> Rabs x <= maxabs mx y m0) /\
  (maxabs mx y m0 = m0 \/ exists x, In x y /\ maxabs mx y m0 = Rabs x).
Proof.
  unfold maxabs. cbn [nlt RNum]. induction y as [|x y IH]; intros m0; cbn [fold_left].
  - split; [lra|]. split; [intros x []|left; reflexivity].
  - destruct (Rltb_spec m0 (Rabs x)) as [K|K]; [destruct (IH (Rabs x)) as (A & B & C)|destruct (IH m0) as (A & B & C)].
    + split; [lra|]. split; [intros z [<-|I]; auto|]. right. destruct C as [C|(z & I & C)]; [exists x|exists z]; cbn; auto.
    + split; [lra|]. split; [intros z [<-|I]; [lra|auto]|]. destruct C as [C|(z & I & C)]; [left|right; exists z]; cbn; auto.
Qed.

Lemma unit_dot : forall (v : list R) k x (b : R), nth_error v k = Some x -> dotR v (set_nth k b (zeros v)) = x * b.
Proof.
  intros v k x b E. assert (L : length v = length (ones v)) by (rewrite map_length; reflexivity).
  pose proof (dot_set v (ones v) k x 1 b L E) as H. rewrite div_ones in H by (rewrite set_nth_length; unfold zeros; rewrite map_length; reflexivity).
  rewrite H by (rewrite nth_error_map, E; reflexivity). lra.
Qed.
Lemma unit_ball mx : forall (v : list R) k x (b : R), nth_error v k = Some x -> Rabs b <= 1 ->
  in_ball (mx := mx) (PNum (N := RNum mx) 1) (ones v) (set_nth k b (zeros v)).
Proof.
  intros v k x b E B. assert (L : length v = length (ones v)) by (rewrite map_length; reflexivity).
  split; [rewrite set_nth_length; unfold zeros; rewrite map_length; exact L|].
  assert (P : pos (ones v)) by (apply Forall_forall; intros y I; apply in_map_iff in I; destruct I as (? & <- & _); lra).
  pose proof (sum_set v (ones v) k 1 b P L) as H. rewrite div_ones in H by (rewrite set_nth_length; unfold zeros; rewrite map_length; reflexivity).
  refine (Rle_trans _ _ _ (Req_le _ _ (H _)) B). rewrite nth_error_map, E. reflexivity.
Qed.

Definition exps_ok {mx} (p : lp (RNum mx)) (pn qn : R) : Prop :=
  match p with PInf => True | PNum p => 1 <= p /\ (1 < p -> pn = p /\ qn = 1 / (1 - 1 / p)) end.

Lemma lpball_value mx (p : lp (RNum mx)) (pn qn : R) v s0 : v <> [] -> exps_ok p pn qn ->
  exists s, lpball (N := RNum mx) (npowR mx) p pn None v s0 = Ret s /\
    in_ball p (ones v) s /\ (forall y, in_ball p (ones v) y -> dotR v s <= dotR v y) /\
    dotR v s = - dual_norm (N := RNum mx) (npowR mx) p qn v.
Proof.
  intros NV HE. destruct (lpball_ok mx p pn None v s0) as (s & E & B & M); [exact I|exact NV| |].
  { destruct p as [|p]; [exact I|]. destruct HE as [A C]. split; [exact A|]. intros P. apply C, P. }
  exists s. split; [exact E|]. split; [exact B|]. split; [exact M|].
  assert (L : length v = length (ones v)) by (rewrite map_length; reflexivity).
  assert (PO : pos (ones v)) by (apply Forall_forall; intros y J; apply in_map_iff in J; destruct J as (? & <- & _); lra).
  destruct p as [|p].
  - cbn [lpball] in E. injection E as <-. cbn [by_lambda dual_norm].
    pose proof (inf_value mx (ones v) v PO L) as V. rewrite div_ones in V by apply map_length.
    rewrite (inf_norm mx) in V. exact V.
  - destruct HE as [P1 HE]. cbn [dual_norm nlt neq n1 RNum]. destruct (Rltb_spec 1 p) as [P|P].
    + destruct (HE P) as [-> ->]. cbn [lpball nlt n1 RNum] in E. destruct (Rltb_spec 1 p); [|contradiction]. injection E as <-.
      pose proof (mid_value mx p P v (ones v) PO L) as V. cbn zeta in V.
      rewrite <- (t_norm mx p P v (ones v) PO L), <- (vsum_sumR mx) in V.
      rewrite div_ones in V.
      2: { rewrite map_length, !map2_length, map_length. clear. cbn [T RNum]. lia. }
      rewrite div_ones in V by reflexivity.
      refine (eq_trans V _). unfold pnorm. rewrite !(vsum_sumR mx).
      pose proof (t_norm mx p P v (ones v) PO L) as TN. rewrite div_ones in TN by reflexivity.
      set (q := 1 / (1 - 1 / p)) in *.
      assert (W : wsum p v (ones v) = sumR (map (fun x => powR (Rabs x) q) v)).
      { unfold wsum. fold q. clear. induction v as [|x u IH]; cbn [map map2 sumR]; [reflexivity|].
        rewrite IH. unfold Rdiv. rewrite Rinv_1, Rmult_1_r. reflexivity. }
      rewrite TN, W. reflexivity.
    + assert (p = 1) by lra. subst p. destruct (Reqb_spec 1 1) as [_|]; [|lra].
      change (fold_left _ v n0) with (maxabs mx v 0).
      destruct (maxabs_spec mx v 0) as (G & U & A). apply Rle_antisym.
      * destruct A as [A|(x & J & A)]; rewrite A.
        -- destruct v as [|x v]; [congruence|]. specialize (U x (or_introl eq_refl)). rewrite A in U.
           specialize (M _ (unit_ball mx (x :: v) 0 x 0 eq_refl ltac:(rewrite Rabs_R0; lra))).
           rewrite (unit_dot (x :: v) 0 x 0 eq_refl) in M. lra.
        -- destruct (In_nth_error _ _ J) as [k K].
           specialize (M _ (unit_ball mx v k x (- nsign (N := RNum mx) x) K ltac:(rewrite Rabs_Ropp; apply abs_sign_le))).
           rewrite (unit_dot v k x _ K) in M. rewrite <- (sign_abs mx x). lra.
      * destruct B as [LB BB].
        pose proof (one_lower (maxabs mx v 0) (ones v) v s PO L LB G) as O.
        assert (O' : forall j x a, nth_error v j = Some x -> nth_error (ones v) j = Some a -> Rabs (x / a) <= maxabs mx v 0).
        { intros j x a X Y. rewrite nth_error_map, X in Y. injection Y as <-. unfold Rdiv. rewrite Rinv_1, Rmult_1_r.
          apply U. eapply nth_error_In; exact X. }
        specialize (O O').
        assert (- maxabs mx v 0 * 1 <= - maxabs mx v 0 * sumR (map2 (fun a b => powR (Rabs (a * b)) 1) (ones v) s)).
        { apply Rmult_le_compat_neg_l; [lra|exact BB]. }
        lra.
Qed.

(** ** Restriction to a group *)
Lemma nth_set {A} : forall i j (a d : A) l, nth j (set_nth i a l) d = if Nat.eq_dec i j then (if i <? length l then a else d) else nth j l d.
Proof.
  intros i j a d l. destruct (Nat.eq_dec i j) as [<-|NE].
  - destruct (Nat.ltb_spec i (length l)) as [L|L].
    + apply nth_error_nth. apply set_nth_same, L.
    + apply nth_overflow. rewrite set_nth_length. exact L.
  - revert i j NE. induction l as [|b l IH]; intros [|i] [|j] NE; cbn; try reflexivity; try lia. apply IH. lia.
Qed.
Lemma dot_remove : forall (v a : list R) i, (i < length a)%nat -> length v = length a ->
  dotR v a = nth i v 0 * nth i a 0 + dotR v (set_nth i 0 a).
Proof.
  induction v as [|x v IH]; intros [|b a] [|i] LT L; cbn in LT; try lia; try discriminate; cbn [set_nth nth dotR]; [lra|].
  rewrite (IH a i) by (cbn in L; lia). lra.
Qed.
Lemma dot_allzero : forall v a : list R, (forall i, nth i a 0 = 0) -> dotR v a = 0.
Proof.
  induction v as [|x v IH]; intros [|b a] H; cbn [dotR]; try reflexivity.
  rewrite IH by (intros i; exact (H (S i))). pose proof (H O) as H0. cbn in H0. rewrite H0. lra.
Qed.
Lemma dot_group : forall ind (v a : list R), NoDup ind -> (forall i, In i ind -> (i < length a)%nat) -> length v = length a ->
  (forall i, ~ In i ind -> nth i a 0 = 0) ->
  dotR v a = dotR (map (fun i => nth i v 0) ind) (map (fun i => nth i a 0) ind).
Proof.
  induction ind as [|i ind IH]; intros v a ND IB L Z; cbn [map dotR].
  - apply dot_allzero. intros i. apply Z. intros [].
  - apply NoDup_cons_iff in ND. destruct ND as [NI ND]. rewrite (dot_remove v a i) by (auto; apply IB; left; reflexivity).
    f_equal. rewrite (IH v (set_nth i 0 a)).
    + f_equal. apply map_ext_in. intros j J. rewrite nth_set. destruct (Nat.eq_dec i j) as [->|]; [contradiction|reflexivity].
    + exact ND.
    + intros j J. rewrite set_nth_length. apply IB. right. exact J.
    + rewrite set_nth_length. exact L.
    + intros j J. rewrite nth_set. destruct (Nat.eq_dec i j) as [->|NE]; [destruct (j <? length a)%nat; reflexivity|].
      apply Z. intros [E|K]; [congruence|contradiction].
Qed.
Lemma project_spec mx : forall ind (v : list R), (forall i, In i ind -> (i < length v)%nat) ->
  project (N := RNum mx) v ind = Some (map (fun i => nth i v 0) ind).
Proof.
  induction ind as [|i ind IH]; intros v H; cbn [project map]; [reflexivity|].
  rewrite (nth_error_nth' v 0) by (apply H; left; reflexivity). rewrite IH by (intros j J; apply H; right; exact J). reflexivity.
Qed.
Lemma scatter_length mx : forall ind (s y : list R), length (scatter (N := RNum mx) s ind y) = length s.
Proof. induction ind as [|i ind IH]; intros s [|a y]; cbn [scatter]; try reflexivity. rewrite IH. apply set_nth_length. Qed.
Lemma scatter_out mx : forall ind (s y : list R) j, ~ In j ind -> nth j (scatter (N := RNum mx) s ind y) 0 = nth j s 0.
Proof.
  induction ind as [|i ind IH]; intros s [|a y] j H; cbn [scatter]; try reflexivity.
  rewrite IH by (intros K; apply H; right; exact K). rewrite nth_set. destruct (Nat.eq_dec i j) as [->|]; [|reflexivity].
  destruct H. left. reflexivity.
Qed.
Lemma scatter_in mx : forall ind (s y : list R), NoDup ind -> length y = length ind -> (forall i, In i ind -> (i < length s)%nat) ->
  map (fun i => nth i (scatter (N := RNum mx) s ind y) 0) ind = y.
Proof.
  induction ind as [|i ind IH]; intros s [|a y] ND L H; try discriminate; [reflexivity|]. cbn [scatter map].
  apply NoDup_cons_iff in ND. destruct ND as [NI ND]. f_equal.
  - rewrite scatter_out by exact NI. rewrite nth_set. destruct (Nat.eq_dec i i); [|congruence].
    destruct (Nat.ltb_spec i (length s)); [reflexivity|]. specialize (H i (or_introl eq_refl)). lia.
  - apply IH; [exact ND|cbn in L; lia|]. intros j J. rewrite set_nth_length. apply H. right. exact J.
Qed.

Lemma best_group_spec mx (dual : nat -> R) : forall k i best (bn : R), (1 <= i)%nat -> (1 <= best)%nat -> (best < i + k)%nat ->
  bn <= dual best -> (forall j, (1 <= j < i)%nat -> dual j <= bn) ->
  let b := best_group (N := RNum mx) dual k i best bn in
  (1 <= b < i + k)%nat /\ forall j, (1 <= j < i + k)%nat -> dual j <= dual b.
Proof.
  induction k as [|k IH]; intros i best bn I1 B1 B2 D H; cbn [best_group].
  - split; [lia|]. intros j J. assert (dual j <= bn) by (apply H; lia). lra.
  - cbn [nlt RNum]. replace (i + S k)%nat with (S i + k)%nat by lia. destruct (Rltb_spec bn (dual i)) as [K|K]; cbn zeta.
    + apply IH; [lia|lia|lia|lra|]. intros j J. destruct (Nat.eq_dec j i) as [->|]; [lra|]. assert (dual j <= bn) by (apply H; lia). lra.
    + apply IH; [lia|lia|lia|exact D|]. intros j J. destruct (Nat.eq_dec j i) as [->|]; [lra|]. apply H. lia.
Qed.

Definition groups_ok (groups : list (list nat)) (dim : nat) : Prop :=
  groups <> [] /\ forall ind, In ind groups -> ind <> [] /\ NoDup ind /\ forall i, In i ind -> (i < dim)%nat.

Lemma dual_nonneg mx (p : lp (RNum mx)) qn y : 0 <= dual_norm (N := RNum mx) (npowR mx) p qn y.
Proof.
  destruct p as [|p]; cbn [dual_norm].
  - rewrite vsum_sumR. induction y as [|x y IH]; cbn [map sumR]; [lra|]. pose proof (Rabs_pos x). cbn in *. lra.
  - cbn [nlt neq n1 RNum]. destruct (Rltb_spec 1 p); [apply powR_nonneg|]. destruct (Reqb_spec p 1); [|cbn; lra].
    apply (maxabs_spec mx y 0).
Qed.

Lemma struct_group_ok mx (p : lp (RNum mx)) (pn qn : R) groups v s0 :
  exps_ok p pn qn -> groups_ok groups (length v) ->
  exists s, struct_group (N := RNum mx) (npowR mx) p pn qn groups (length v) v s0 = Ret s /\
    (exists ind, In ind groups /\ group_atom p ind (length v) s) /\
    forall ind a, In ind groups -> group_atom p ind (length v) a -> dotR v s <= dotR v a.
Proof.
  intros HE [NG HG]. unfold struct_group.
  set (dual := fun i => match project v (nth (i - 1) groups []) with Some y => dual_norm (npowR mx) p qn y | None => n0 end).
  assert (FA : forallb (fun ind => match project (N := RNum mx) v ind with Some _ => true | None => false end) groups = true).
  { apply forallb_forall. intros ind J. rewrite (project_spec mx) by apply (HG ind J). reflexivity. }
  rewrite FA. assert (LG : (1 <= length groups)%nat) by (destruct groups; [congruence|cbn; lia]).
  assert (DN : forall j, 0 <= dual j).
  { intros j. unfold dual. destruct (project v _); [apply dual_nonneg|cbn; lra]. }
  destruct (best_group_spec mx dual (length groups) 1 1 0 ltac:(lia) ltac:(lia) ltac:(lia) (DN 1%nat) ltac:(intros; lia)) as [BR BM].
  change (best_group dual (length groups) 1 1 n0) with (best_group (N := RNum mx) dual (length groups) 1 1 0).
  set (b := best_group dual (length groups) 1 1 0) in *.
  rewrite (nth_error_nth' groups []) by lia. set (ind := nth (b - 1) groups []).
  assert (IG : In ind groups) by (apply nth_In; lia).
  destruct (HG ind IG) as (NE & ND & IB). rewrite (project_spec mx ind v IB).
  set (y := map (fun i => nth i v 0) ind).
  assert (NY : y <> []) by (unfold y; destruct ind; [congruence|discriminate]).
  destruct (lpball_value mx p pn qn y (repeat (n0 (n := RNum mx)) (@length (T (RNum mx)) y)) NY HE) as (sp & ES & BS & MS & VS).
  match goal with |- context [lpball ?a ?b ?c ?d ?e ?f] => replace (lpball a b c d e f) with (Ret sp) by (symmetry; exact ES) end.
  assert (FI : forallb (fun i => (i <? length v)%nat) ind = true).
  { apply forallb_forall. intros i J. apply Nat.ltb_lt. apply IB, J. }
  rewrite FI. pose (r := scatter (N := RNum mx) (repeat n0 (length v)) ind sp : list R). exists r. split; [reflexivity|].
  assert (LS : length sp = length ind) by (destruct BS as [A _]; unfold y in A; rewrite !map_length in A; exact A).
  assert (LR : length (r) = length v) by (refine (eq_trans (scatter_length mx ind _ _) _); apply repeat_length).
  assert (ZO : forall i, ~ In i ind -> nth i (r) 0 = 0).
  { intros i NI. refine (eq_trans (scatter_out mx ind _ _ i NI) _). apply nth_repeat. }
  assert (SI : map (fun i => nth i (r) 0) ind = sp).
  { apply (scatter_in mx); [exact ND|exact LS|]. intros i J. rewrite repeat_length. apply IB, J. }
  clearbody r. split.
  - exists ind. split; [exact IG|]. split; [exact LR|]. split; [exact ZO|]. rewrite SI.
    replace (ones ind) with (ones y) by (unfold y; rewrite map_map; reflexivity). exact BS.
  - intros ind' a IG' (LA & ZA & BA). destruct (HG ind' IG') as (NE' & ND' & IB').
    rewrite (dot_group ind v _ ND) by (auto; rewrite ?LR; auto). rewrite SI. change (map (fun i : nat => nth i v 0) ind) with y.
    rewrite (dot_group ind' v a ND') by (auto; rewrite ?LA; auto). set (y' := map (fun i => nth i v 0) ind').
    assert (NY' : y' <> []) by (unfold y'; destruct ind'; [congruence|discriminate]).
    destruct (lpball_value mx p pn qn y' (repeat n0 (length y')) NY' HE) as (sp' & _ & _ & MS' & VS').
    assert (K : dotR y' sp' <= dotR y' (map (fun i => nth i a 0) ind')).
    { apply MS'. replace (ones y') with (ones ind') by (unfold y'; rewrite map_map; reflexivity). exact BA. }
    destruct (In_nth groups ind' [] IG') as (j & JL & JE).
    specialize (BM (S j) ltac:(lia)). unfold dual in BM. rewrite Nat.sub_succ, Nat.sub_0_r, JE in BM. fold ind in BM.
    rewrite (project_spec mx ind v IB), (project_spec mx ind' v IB') in BM. 
    change (dual_norm (N := RNum mx) (npowR mx) p qn y' <= dual_norm (N := RNum mx) (npowR mx) p qn y) in BM.
    apply Rle_trans with (dotR y' sp'); [|exact K]. rewrite VS'. apply Rle_trans with (2 := Ropp_le_contravar _ _ BM).
    right. exact VS.
Qed.
