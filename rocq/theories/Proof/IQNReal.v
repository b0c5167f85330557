(** IQN (Model/IQN.v) over the real numbers: the aggregates. *)
From Coq Require Import List Arith Bool Lia Reals Lra ZArith QArith.
From Verif.Base Require Import Num Vec Size Loop Instances QInst.
From Verif.Model Require Import Common VarRed LRSDP IQN.
From Verif.Spec Require Import SgdSpec VarRedSpec LpSpec SvecSpec IQNSpec.
From Verif.Proof Require Import VarRedProof SVRGProof SVRGReal LRSDPProof IQNProof.
Import ListNotations.
Local Open Scope nat_scope.

Section Hess.
  Local Open Scope R_scope.
  Variable p : nat.
  Notation hess := (hess p).
  Lemma hess_sym : forall h i j, hess h i j = hess h j i.
  Proof.
    assert (G : forall h e i j, hess (e :: h) i j = hess (e :: h) j i).
    { induction h as [|[t y] h IH]; intros [x g] i j.
      - cbn. rewrite Nat.eqb_sym. reflexivity.
      - change (hess ((x, g) :: (t, y) :: h)) with
          (let Q := hess ((t, y) :: h) in let s := diff x t in let d := diff g y in let Qs := fun i => sum_n p (fun j => Q i j * s j) in
           fun i j => Q i j + d i * d j / dotv_ p d s - Qs i * Qs j / dotv_ p s Qs).
        cbv zeta beta. rewrite (IH (t, y) i j). unfold Rdiv. ring. }
    intros [|e h] i j; [cbn; rewrite Nat.eqb_sym; reflexivity|apply G].
  Qed.
  Notation mul A s := (fun i0 => sum_n p (fun j0 => A i0 j0 * s j0)).
  Lemma hess_step x g t y h i j : hess ((x, g) :: (t, y) :: h) i j =
    hess ((t, y) :: h) i j + diff g y i * diff g y j / dotv_ p (diff g y) (diff x t) -
    mul (hess ((t, y) :: h)) (diff x t) i * mul (hess ((t, y) :: h)) (diff x t) j / dotv_ p (diff x t) (mul (hess ((t, y) :: h)) (diff x t)).
  Proof. reflexivity. Qed.
  (** the product of the updated matrix with a vector *)
  Lemma mul_step (A : nat -> nat -> R) (d q v : nat -> R) a c i :
    sum_n p (fun j => (A i j + d i * d j / a - q i * q j / c) * v j) = mul A v i + d i * (dotv_ p d v / a) - q i * (dotv_ p q v / c).
  Proof.
    rewrite (sum_n_ext p _ (fun j => A i j * v j + ((d i / a) * (d j * v j) + (- (q i / c)) * (q j * v j)))) by (intros; unfold Rdiv; ring).
    rewrite !sum_n_plus, !sum_n_scal. unfold dotv_, Rdiv. ring.
  Qed.
  Lemma dot_comm u v : dotv_ p u v = dotv_ p v u.
  Proof. apply sum_n_ext. intros. ring. Qed.
  Lemma dot_sym h u v : dotv_ p u (mul (hess h) v) = dotv_ p (mul (hess h) u) v.
  Proof.
    unfold dotv_. rewrite (sum_n_ext p _ (fun i => sum_n p (fun j => u i * (hess h i j * v j)))) by (intros; rewrite sum_n_scal; reflexivity).
    rewrite sum_n_swap. apply sum_n_ext. intros i Hi. rewrite <- sum_n_scal_r. apply sum_n_ext. intros j Hj. rewrite (hess_sym h i j). ring.
  Qed.
  Lemma secant x g t y h i : dotv_ p (diff g y) (diff x t) <> 0 -> dotv_ p (diff x t) (mul (hess ((t, y) :: h)) (diff x t)) <> 0 ->
    mul (hess ((x, g) :: (t, y) :: h)) (diff x t) i = diff g y i.
  Proof.
    intros H1 H2. cbv beta. rewrite (sum_n_ext p _ (fun j => (hess ((t, y) :: h) i j + diff g y i * diff g y j / dotv_ p (diff g y) (diff x t) -
      mul (hess ((t, y) :: h)) (diff x t) i * mul (hess ((t, y) :: h)) (diff x t) j / dotv_ p (diff x t) (mul (hess ((t, y) :: h)) (diff x t))) * diff x t j))
      by (intros; rewrite hess_step; reflexivity).
    rewrite (mul_step (hess ((t, y) :: h)) (diff g y) (mul (hess ((t, y) :: h)) (diff x t)) (diff x t)).
    rewrite (dot_comm (mul _ _)). field. auto.
  Qed.
  Lemma posdef_ext A B : (forall i j, (i < p)%nat -> (j < p)%nat -> A i j = B i j) -> posdef p A -> posdef p B.
  Proof.
    intros E P v Hv. erewrite sum_n_ext; [apply (P v Hv)|]. intros i Hi. cbn beta. f_equal. apply sum_n_ext. intros j Hj. rewrite E by assumption. reflexivity.
  Qed.
  Lemma dot_pos_ne u v : 0 < dotv_ p u v -> exists i, (i < p)%nat /\ v i <> 0.
  Proof.
    intros H. destruct (Classical_Prop.classic (exists i, (i < p)%nat /\ v i <> 0)) as [E|E]; [exact E|]. exfalso.
    assert (dotv_ p u v = 0); [|lra]. unfold dotv_. rewrite <- (sum_n_zero p). apply sum_n_ext. intros i Hi.
    destruct (Req_dec (v i) 0) as [->|F]; [ring|]. exfalso. eauto.
  Qed.
  Lemma posdef_hess : forall h, curved p h -> posdef p (hess h).
  Proof.
    assert (Id : posdef p (fun i j => if (i =? j)%nat then 1 else 0)).
    { intros v (k & Hk & Vk).
      rewrite (sum_n_ext p _ (fun i => v i * v i)).
      2:{ intros i Hi. f_equal. clear - Hi. revert Hi. generalize p as m. induction m as [|m IH]; intros Hi; [lia|]. rewrite sum_n_S.
          destruct (Nat.eq_dec i m) as [->|Ne].
          - rewrite Nat.eqb_refl, (sum_n_ext m _ (fun _ => 0)); [rewrite sum_n_zero; ring|]. intros j Hj. destruct (Nat.eqb_spec m j); [lia|ring].
          - rewrite IH by lia. destruct (Nat.eqb_spec i m); [contradiction|ring]. }
      clear - Hk Vk. revert Hk. generalize p as m. induction m as [|m IH]; intros Hk; [lia|]. rewrite sum_n_S.
      assert (Nn : forall m, 0 <= sum_n m (fun i => v i * v i)).
      { clear. induction m as [|m IH]; [cbn; lra|]. rewrite sum_n_S. pose proof (Rle_0_sqr (v m)) as Q. unfold Rsqr in Q. lra. }
      destruct (Nat.eq_dec k m) as [->|Ne].
      - pose proof (Nn m). pose proof (Rsqr_pos_lt _ Vk) as Q. unfold Rsqr in Q. lra.
      - specialize (IH ltac:(lia)). pose proof (Rle_0_sqr (v m)) as Q. unfold Rsqr in Q. lra. }
    assert (G : forall h e, curved p (e :: h) -> posdef p (hess (e :: h))).
    { induction h as [|[t y] h IH]; intros [x g] C; [exact Id|].
      destruct C as (C1 & C2). specialize (IH (t, y) C2). set (Q := hess ((t, y) :: h)) in *.
      set (s := diff x t) in *. set (d := diff g y) in *. set (qs := mul Q s).
      pose proof (dot_pos_ne _ _ C1) as Ns. pose proof (IH s Ns) as Ps. change (0 < dotv_ p s qs) in Ps.
      intros v (k & Hk & Vk).
      rewrite (sum_n_ext p _ (fun i => v i * (mul Q v i + d i * (dotv_ p d v / dotv_ p d s) - qs i * (dotv_ p qs v / dotv_ p s qs)))).
      2:{ intros i Hi. f_equal. exact (mul_step Q d qs v _ _ i). }
      rewrite (sum_n_ext p _ (fun i => v i * mul Q v i + ((dotv_ p d v / dotv_ p d s) * (v i * d i) + (- (dotv_ p qs v / dotv_ p s qs)) * (v i * qs i)))) by (intros; ring).
      rewrite !sum_n_plus, !sum_n_scal.
      match goal with |- 0 < ?g => replace g with (dotv_ p v (mul Q v) + (dotv_ p d v / dotv_ p d s * dotv_ p v d + - (dotv_ p qs v / dotv_ p s qs) * dotv_ p v qs)) by reflexivity end.
      rewrite (dot_comm v d), (dot_comm qs v).
      set (a := dotv_ p d v) in *. set (c := dotv_ p v qs) in *. set (e := dotv_ p s qs) in *. set (ds := dotv_ p d s) in *.
      set (lam := c / e). set (w := fun i => v i - lam * s i).
      (* the part of v not along s *)
      assert (Ew : dotv_ p w (mul Q w) = dotv_ p v (mul Q v) - c / e * c).
      { assert (M : forall i, mul Q w i = mul Q v i - lam * qs i).
        { intros i. unfold w, qs. rewrite <- sum_n_scal. rewrite (sum_n_ext p _ (fun j => Q i j * v j + (-1) * (lam * (Q i j * s j)))) by (intros; ring).
          rewrite sum_n_plus, sum_n_scal. ring. }
        unfold dotv_ at 1. rewrite (sum_n_ext p _ (fun i => v i * mul Q v i + ((- lam) * (v i * qs i) + ((- lam) * (s i * mul Q v i) + (lam * lam) * (s i * qs i))))).
        2:{ intros i Hi. rewrite M. unfold w. ring. }
        rewrite !sum_n_plus, !sum_n_scal.
        transitivity (dotv_ p v (mul Q v) + (- lam * c + (- lam * dotv_ p s (mul Q v) + lam * lam * e))); [reflexivity|].
        replace (dotv_ p s (mul Q v)) with c by (unfold c; rewrite (dot_comm v qs); symmetry; exact (dot_sym ((t, y) :: h) s v)). unfold lam. field. lra. }
      assert (Pa : 0 <= a / ds * a).
      { replace (a / ds * a) with (a * a * / ds) by (unfold Rdiv; ring). apply Rmult_le_pos; [apply Rle_0_sqr|]. left. apply Rinv_0_lt_compat. exact C1. }
      match goal with |- 0 < ?g => replace g with (dotv_ p w (mul Q w) + a / ds * a) by (rewrite Ew; unfold lam; ring) end.
      destruct (Classical_Prop.classic (exists i, (i < p)%nat /\ w i <> 0)) as [E|E].
      - pose proof (IH w E) as Pw. change (0 < dotv_ p w (mul Q w)) in Pw. apply Rplus_lt_le_0_compat; assumption.
      - assert (Ev : forall i, (i < p)%nat -> v i = lam * s i).
        { intros i Hi. destruct (Req_dec (w i) 0) as [Z|Z]; [unfold w in Z; lra|]. exfalso. eauto. }
        assert (Ea : a = lam * ds).
        { unfold a, ds, dotv_. rewrite <- sum_n_scal. apply sum_n_ext. intros i Hi. rewrite Ev by assumption. ring. }
        assert (Zw : dotv_ p w (mul Q w) = 0).
        { unfold dotv_. rewrite <- (sum_n_zero p). apply sum_n_ext. intros i Hi. unfold w. rewrite (Ev i Hi). ring. }
        assert (Nl : lam <> 0) by (intros Z; apply Vk; rewrite (Ev k Hk), Z; ring).
        rewrite Zw, Rplus_0_l.
        rewrite Ea. replace (lam * ds / ds * (lam * ds)) with (lam * lam * ds) by (field; lra).
        apply Rmult_lt_0_compat; [|exact C1]. apply (Rsqr_pos_lt _ Nl). }
    intros [|e h] C; [exact Id|apply G, C].
  Qed.
End Hess.

Lemma nth_error_map_inv {A B} (g : A -> B) l k e : nth_error (map g l) k = Some e -> exists q, nth_error l k = Some q /\ e = g q.
Proof. rewrite nth_error_map. destruct (nth_error l k) as [q|]; [|discriminate]. intros [= <-]. eauto. Qed.

Section Agg.
  Variable mx : R.
  Notation RN := (RNum mx).
  Notation vec := (list R).
  Variable solve : nat -> (nat -> nat -> R) -> vec -> option vec.
  Variable norm : vec -> R.
  Variable f : VFun RN.
  Variables (eta : R) (b : nat).
  Hypothesis Hn : 0 < vf_num f.
  Hypothesis Hb : 0 < b.
  Variable p : nat.
  (** B.i() * v solves the system *)
  Hypothesis solves : forall A v z, length v = p -> solve p A v = Some z ->
    length z = p /\ forall i, i < p -> sum_n p (fun j => (A i j * comp z j)%R) = comp v i.
  Notation n := (vf_num f).
  Notation nb := (num_batches (N := RN) f b).
  Notation move := (move (N := RN) solve f eta b 1).
  Notation ist := (@ist RN).
  Notation ivisit := (ivisit RN).
  Variables (first : list (@geval RN)) (init : vec).
  Hypothesis Hinit : length init = p.
  Hypothesis Hfirst : Forall (fun q => length (snd (snd q)) = p) first.
  Hypothesis Hfst : map fst first = all_batches n b.
  Notation kn l k := (known (N := RN) first init l k).

  Lemma len_first : length first = nb.
  Proof. apply (f_equal (@length _)) in Hfst. rewrite map_length in Hfst. unfold all_batches in Hfst. rewrite map_length, seq_length in Hfst.
    rewrite (nb_batches f b Hn Hb). exact Hfst. Qed.

  (** ---- sums with one changed term ---- *)
  Lemma sum_n_upd m it (F G : nat -> R) : it < m -> (forall k, k < m -> k <> it -> F k = G k) ->
    sum_n m F = (sum_n m G + (F it - G it))%R.
  Proof. clear.
    intros L H. induction m as [|m IH]; [lia|]. rewrite !sum_n_S. destruct (Nat.eq_dec it m) as [->|Ne].
    - rewrite (sum_n_ext m F G) by (intros; apply H; lia). lra.
    - rewrite IH by (try lia; intros; apply H; lia). rewrite (H m) by lia. lra.
  Qed.

  Definition sees (v : ivisit) (k : nat) : list (vec * vec) :=
    if y_k v =? k then match y_move v with Some (_, g', _) => [(y_x v, g')] | None => [] end else [].
  Lemma known_snoc l v k : kn (l ++ [v]) k = sees v k ++ kn l k.
  Proof. clear. unfold known, sees. rewrite flat_map_app, rev_app_distr. cbn [flat_map]. rewrite app_nil_r, <- app_assoc. f_equal.
    destruct (y_k v =? k); [|reflexivity]. destruct (y_move v) as [[[? ?] ?]|]; reflexivity. Qed.

  Definition HA (l : list ivisit) (k : nat) : nat -> nat -> R := hess p (kn l k).
  Definition TA l k : vec := fst (newest (kn l k)).
  Definition YA l k : vec := snd (newest (kn l k)).
  Definition AG (l : list ivisit) (s : ist) : Prop :=
    length (i_tab s) = nb /\
    (forall k e, nth_error (i_tab s) k = Some e ->
       (en_t e : vec) = TA l k /\ (en_y e : vec) = YA l k /\ (forall i j, i < p -> j < p -> en_Q e i j = HA l k i j :> R)) /\
    (forall k, k < nb -> kn l k <> [] /\ length (TA l k) = p /\ length (YA l k) = p) /\
    (forall i j, i < p -> j < p -> (i_B s i j : R) = (/ INR nb * sum_n nb (fun k => HA l k i j))%R) /\
    length (i_u s) = p /\ (forall i, i < p -> comp (i_u s) i = (/ INR nb * sum_n nb (fun k => mvR p (HA l k) (TA l k) i))%R) /\
    length (i_g s) = p /\ (forall i, i < p -> comp (i_g s) i = (/ INR nb * sum_n nb (fun k => comp (YA l k) i) + gap n b first i)%R).

  Lemma nbR : (0 < INR nb)%R.
  Proof. apply lt_0_INR. apply (nb_bounds f b Hn Hb). Qed.
  Lemma sum_const m (c : R) : sum_n m (fun _ => c) = (INR m * c)%R.
  Proof. clear. induction m as [|m IH]; [cbn; lra|]. rewrite sum_n_S, IH, S_INR. lra. Qed.

  Lemma sum_n_list {A} (w : A -> R) (l : list A) (d : A) : sumR (map w l) = sum_n (length l) (fun k => w (nth k l d)).
  Proof. clear. induction l as [|a l IH]; [reflexivity|]. cbn [length map sumR]. rewrite sum_n_first, IH. reflexivity. Qed.
  Lemma first_nth k : k < nb -> exists q, nth_error first k = Some q /\ nth k first ((0, 0)%nat, ([], [])) = q /\ fst q = (k * b, bsize n b k) /\ length (snd (snd q)) = p.
  Proof.
    intros Hk. destruct (nth_error first k) as [q|] eqn:E.
    2:{ apply nth_error_None in E. rewrite len_first in E. lia. }
    exists q. split; [reflexivity|]. split; [apply nth_error_nth; exact E|]. split.
    - assert (Q : nth_error (map fst first) k = Some (fst q)) by (apply map_nth_error; exact E).
      rewrite Hfst in Q. unfold all_batches in Q. rewrite nth_error_map in Q. rewrite (nth_error_nth' _ 0) in Q.
      2:{ rewrite seq_length, <- (nb_batches f b Hn Hb). exact Hk. }
      rewrite seq_nth in Q by (rewrite <- (nb_batches f b Hn Hb); exact Hk). cbn [option_map Nat.add] in Q. injection Q as Q. symmetry. exact Q.
    - rewrite Forall_forall in Hfirst. apply Hfirst. eapply nth_error_In; exact E.
  Qed.
  Lemma known_nil k q : nth_error first k = Some q -> kn [] k = [(init, over_n (N := RN) (snd (fst q)) (snd (snd q)))].
  Proof.
    intros E. change (match nth_error first k with Some q0 => [(init, over_n (N := RN) (snd (fst q0)) (snd (snd q0)))] | None => [] end = [(init, over_n (N := RN) (snd (fst q)) (snd (snd q)))]).
    rewrite E. reflexivity.
  Qed.
  Lemma len_fold (l : list (list RN)) : forall a : list RN, Forall (fun g => length g = p) l -> length a = p -> length (fold_left vadd l a) = p.
  Proof. clear. induction l as [|g l IH]; intros a Hl La; cbn [fold_left]; [exact La|]. inversion Hl; subst. apply IH; [assumption|]. unfold vadd. rewrite map2_length. lia. Qed.
  Lemma gap_nb i : gap n b first i =
    (sum_n nb (fun k => comp (snd (snd (nth k first ((0, 0)%nat, ([], []))))) i) / INR n -
     sum_n nb (fun k => comp (snd (snd (nth k first ((0, 0)%nat, ([], []))))) i / INR (bsize n b k)) / INR nb)%R.
  Proof. pose proof len_first as L. unfold gap. unfold geval in L. cbn [T RNum] in *. rewrite L. reflexivity. Qed.
  Lemma start_AG : AG [] (istart (N := RN) f p init first).
  Proof.
    pose proof nbR as Pn.
    assert (K : forall k, k < nb -> exists q, kn [] k = [(init, over_n (N := RN) (bsize n b k) (snd (snd q)))] /\
                nth k first ((0, 0)%nat, ([], [])) = q /\ length (snd (snd q)) = p).
    { intros k Hk. destruct (first_nth k Hk) as (q & E & E2 & E3 & E4). exists q. rewrite (known_nil k q E), E3. auto. }
    unfold AG, istart. cbn [i_tab i_B i_u i_g]. sp.
    - rewrite map_length. apply len_first.
    - intros k e E. apply nth_error_map_inv in E. destruct E as (q & Eq & ->).
      cbn [en_t en_y en_Q]. unfold TA, YA, HA. rewrite (known_nil k q Eq). cbn [newest fst snd hess]. sp; try reflexivity.
    - intros k Hk. destruct (K k Hk) as (q & E & _ & L). unfold TA, YA. rewrite E. cbn [newest fst snd]. sp; [discriminate|exact Hinit|].
      unfold over_n. rewrite map_length. exact L.
    - intros i j Hi Hj. rewrite (sum_n_ext nb _ (fun _ => if i =? j then 1 else 0)%R).
      2:{ intros k Hk. destruct (K k Hk) as (q & E & _). unfold HA. rewrite E. reflexivity. }
      rewrite sum_const. unfold ieye. cbn [T RNum n1 n0]. destruct (i =? j); field; lra.
    - exact Hinit.
    - intros i Hi. rewrite (sum_n_ext nb _ (fun _ => comp init i)).
      2:{ intros k Hk. destruct (K k Hk) as (q & E & _). unfold HA, TA. rewrite E. cbn [newest fst]. unfold mvR. cbn [hess].
          clear - Hi. revert Hi. generalize p as m. induction m as [|m IH]; intros Hi; [lia|]. rewrite sum_n_S.
          destruct (Nat.eq_dec i m) as [->|Ne].
          - rewrite Nat.eqb_refl, (sum_n_ext m _ (fun _ => 0%R)); [rewrite sum_n_zero; ring|]. intros j Hj. destruct (Nat.eqb_spec m j); [lia|ring].
          - rewrite IH by lia. destruct (Nat.eqb_spec i m); [contradiction|ring]. }
      rewrite sum_const. field. lra.
    - unfold over_n. rewrite map_length.
      assert (Fl : Forall (fun g => length g = p) (map (fun q : @geval RN => snd (snd q)) first)).
      { apply Forall_map. exact Hfirst. }
      exact (len_fold _ _ Fl (repeat_length _ _)).
    - intros i Hi.
      assert (Fl : Forall (fun g => length g = p) (map (fun q : @geval RN => snd (snd q)) first)) by (apply Forall_map; exact Hfirst).
      destruct (nth_total mx p i (map (fun q : @geval RN => snd (snd q)) first) (repeat (@n0 RN) p) (repeat_length _ _) Fl Hi) as (L1 & E1).
      unfold comp at 1. refine (eq_trans (nth_over mx p i n _ L1 Hi) _).
      match goal with |- (?a / _)%R = _ => replace a with (sum_n nb (fun k => comp (snd (snd (nth k first ((0, 0)%nat, ([], []))))) i)) end.
      2:{ symmetry. refine (eq_trans E1 _). rewrite nth_repeat, map_map. cbn [T RNum n0]. rewrite Rplus_0_l.
          refine (eq_trans (sum_n_list (fun q : @geval RN => nth i (snd (snd q)) 0%R) first ((0, 0)%nat, ([], []))) _). rewrite len_first. reflexivity. }
      rewrite gap_nb.
      rewrite (sum_n_ext nb (fun k => comp (YA [] k) i) (fun k => comp (snd (snd (nth k first ((0, 0)%nat, ([], []))))) i / INR (bsize n b k))%R).
      2:{ intros k Hk. destruct (K k Hk) as (q & E & E2 & L). unfold YA. rewrite E, E2. cbn [newest snd]. unfold comp.
          exact (nth_over mx p i (bsize n b k) _ L Hi). }
      match goal with |- (?a / ?q)%R = (?i * ?x + (?a' / ?q' - ?y / ?m))%R => change a' with a; change y with x; generalize a; generalize x end.
      intros c d. match goal with |- @eq _ ?l ?r => change (@eq R l r) end. field. split; [lra|]. apply not_0_INR. lia.
  Qed.

  Lemma comp_imv (Q : nat -> nat -> R) (v : vec) i : length v = p -> i < p -> comp (imv (N := RN) Q v) i = mvR p Q v i.
  Proof.
    intros L Hi. unfold imv, comp. rewrite (nth_map' _ _ i 0%nat) by (rewrite seq_length; cbn [T RNum] in *; lia). rewrite seq_nth by (cbn [T RNum] in *; lia).
    cbn [Nat.add]. rewrite msum_R. unfold mvR. cbn [T RNum] in *. rewrite L. reflexivity.
  Qed.
  Lemma len_imv (Q : nat -> nat -> R) (v : vec) : length (imv (N := RN) Q v) = length v.
  Proof. unfold imv. rewrite map_length, seq_length. reflexivity. Qed.
  Lemma comp_ivm (Q : nat -> nat -> R) (v : vec) j : length v = p -> j < p -> comp (ivm (N := RN) v Q) j = sum_n p (fun k => comp v k * Q k j)%R.
  Proof.
    intros L Hi. unfold ivm, comp at 1. rewrite (nth_map' _ _ j 0%nat) by (rewrite seq_length; cbn [T RNum] in *; lia). rewrite seq_nth by (cbn [T RNum] in *; lia).
    cbn [Nat.add]. rewrite msum_R. cbn [T RNum] in *. rewrite L. reflexivity.
  Qed.
  Lemma idot_R (a c : vec) : length a = p -> idot (N := RN) a c = dotv_ p (comp a) (comp c).
  Proof. intros L. unfold idot. rewrite msum_R. cbn [T RNum] in *. rewrite L. reflexivity. Qed.
  Lemma comp_vsub (a c : vec) i : length a = p -> length c = p -> i < p -> comp (vsub (N := RN) a c) i = diff a c i.
  Proof. intros. exact (nth_vsub mx p i a c ltac:(assumption) ltac:(assumption) ltac:(assumption)). Qed.
  Lemma len_vsubR (a c : vec) : length a = p -> length c = p -> length (vsub (N := RN) a c) = p.
  Proof. intros. exact (len_vsub mx p a c ltac:(assumption) ltac:(assumption)). Qed.

  Lemma bfgs_R (Q : nat -> nat -> R) (x g t y : vec) h i j :
    length x = p -> length g = p -> length t = p -> length y = p -> i < p -> j < p ->
    (forall i j, i < p -> j < p -> Q i j = hess p ((t, y) :: h) i j) ->
    bfgs (N := RN) Q (vsub (N := RN) x t) (vsub (N := RN) g y) i j = hess p ((x, g) :: (t, y) :: h) i j.
  Proof.
    intros Lx Lg Lt Ly Hi Hj HQ. rewrite hess_step. unfold bfgs. cbn [T RNum nsub nadd ndiv nmul]. unfold at_.
    change (@n0 RN) with 0%R.
    set (s := vsub (N := RN) x t). set (d := vsub (N := RN) g y).
    assert (Ls : length s = p) by (apply len_vsubR; assumption). assert (Ld : length d = p) by (apply len_vsubR; assumption).
    assert (Es : forall k, k < p -> comp s k = diff x t k) by (intros; apply comp_vsub; assumption).
    assert (Ed : forall k, k < p -> comp d k = diff g y k) by (intros; apply comp_vsub; assumption).
    assert (M : forall i, i < p -> comp (imv (N := RN) Q s) i = sum_n p (fun j => hess p ((t, y) :: h) i j * diff x t j)%R).
    { intros k Hk. rewrite comp_imv by assumption. apply sum_n_ext. intros l Hl. rewrite HQ, Es by assumption. reflexivity. }
    assert (V : forall j, j < p -> comp (ivm (N := RN) s Q) j = sum_n p (fun k => hess p ((t, y) :: h) j k * diff x t k)%R).
    { intros k Hk. rewrite comp_ivm by assumption. apply sum_n_ext. intros l Hl. rewrite HQ, Es by assumption. rewrite (hess_sym p _ l k). ring. }
    change (nth i (imv (N := RN) Q s) 0%R) with (comp (imv (N := RN) Q s) i). change (nth j (ivm (N := RN) s Q) 0%R) with (comp (ivm (N := RN) s Q) j).
    change (nth i d 0%R) with (comp d i). change (nth j d 0%R) with (comp d j).
    rewrite !idot_R by assumption. rewrite HQ, M, V, !Ed by assumption.
    replace (dotv_ p (comp d) (comp s)) with (dotv_ p (diff g y) (diff x t)).
    2:{ apply sum_n_ext. intros k Hk. rewrite Ed, Es by assumption. reflexivity. }
    match goal with |- context [dotv_ p (comp s) ?q] => replace (dotv_ p (comp s) q) with
      (dotv_ p (diff x t) (fun i => sum_n p (fun j => hess p ((t, y) :: h) i j * diff x t j)%R)) end; [reflexivity|].
    apply sum_n_ext. intros k Hk. rewrite Es by assumption. f_equal. symmetry. apply M. exact Hk.
  Qed.

  Lemma nth_set_ent k (e : @ient RN) : forall (l : list ient) m, nth_error (set_ent k e l) m = if (m =? k) && (m <? length l) then Some e else nth_error l m.
  Proof. clear.
    induction k as [|k IH]; intros [|a l] [|m]; cbn; try reflexivity.
    - rewrite andb_false_r. reflexivity.
    - rewrite IH. change (S m <? S (length l)) with (m <? length l). reflexivity.
  Qed.
  Lemma len_set_ent k (e : @ient RN) : forall l : list ient, length (set_ent k e l) = length l.
  Proof. clear. induction k as [|k IH]; intros [|a l]; cbn; auto. Qed.

  Lemma move_AG l (s : ist) it (x g g0 to : vec) s1 (v : ivisit) :
    AG l s -> length x = p -> length g = p -> y_k v = it -> y_x v = x -> y_move v = Some (g0, g, to) ->
    move it x g s = Some (to, s1) ->
    AG (l ++ [v]) s1 /\ length to = p /\
    exists z : vec, length z = p /\ (forall i, i < p -> comp to i = (eta * comp z i + (1 - eta) * comp x i)%R) /\
      forall i, i < p -> sum_n nb (fun k => model_gradient p (kn (l ++ [v]) k) z i) = (- (INR nb * gap n b first i))%R.
  Proof.
    intros (A1 & A2 & A3 & A4 & A5 & A6 & A7 & A8) Lx Lg Vk Vx Vm M. pose proof nbR as Pn.
    unfold IQN.move in M. destruct (nth_error (i_tab s) it) as [e|] eqn:Ee; [|discriminate].
    assert (Hit : it < nb) by (rewrite <- A1; apply nth_error_Some; congruence).
    destruct (A2 it e Ee) as (Et & Ey & EQ). destruct (A3 it Hit) as (Kn & Lt & Ly). rewrite <- Et in Lt. rewrite <- Ey in Ly.
    cbn [Nat.eqb negb] in M. cbn [T RNum nadd nsub nmul ndiv n1] in M.
    set (w := (1 / nofnat (N := RN) nb)%R) in M.
    assert (Ew : w = (/ INR nb)%R) by (unfold w; rewrite nofnat_INR; unfold Rdiv; ring).
    set (Q' := bfgs (N := RN) (en_Q e) (vsub (N := RN) x (en_t e)) (vsub (N := RN) g (en_y e))) in M.
    (* the histories *)
    assert (Kh : exists h, kn l it = (en_t e, en_y e) :: h).
    { unfold TA in Et. unfold YA in Ey. destruct (kn l it) as [|[a c] h]; [congruence|]. cbn in Et, Ey. subst a c. exists h. reflexivity. }
    destruct Kh as (h & Kh).
    assert (Kit : kn (l ++ [v]) it = (x, g) :: (en_t e, en_y e) :: h).
    { rewrite known_snoc. unfold sees. rewrite Vk, Nat.eqb_refl, Vm, Vx, Kh. reflexivity. }
    assert (Kne : forall k, k <> it -> kn (l ++ [v]) k = kn l k).
    { intros k Hk. rewrite known_snoc. unfold sees. destruct (Nat.eqb_spec (y_k v) k); [congruence|reflexivity]. }
    assert (EQ' : forall i j, i < p -> j < p -> Q' i j = HA (l ++ [v]) it i j).
    { intros i j Hi Hj. unfold Q', HA. rewrite Kit. apply bfgs_R; auto. intros a c Ha Hc. rewrite EQ by assumption. unfold HA. rewrite Kh. reflexivity. }
    set (B' := fun i j => (i_B s i j + w * (Q' i j - en_Q e i j))%R) in M.
    set (u' := vadd (N := RN) (i_u s) (vscale (N := RN) w (vsub (N := RN) (imv (N := RN) Q' x) (imv (N := RN) (en_Q e) (en_t e))))) in M.
    set (g' := vadd (N := RN) (i_g s) (vscale (N := RN) w (vsub (N := RN) g (en_y e)))) in M.
    assert (EB : forall i j, i < p -> j < p -> B' i j = (/ INR nb * sum_n nb (fun k => HA (l ++ [v]) k i j))%R).
    { intros i j Hi Hj. unfold B'. rewrite A4, EQ', EQ, Ew by assumption.
      rewrite (sum_n_upd nb it (fun k => HA (l ++ [v]) k i j) (fun k => HA l k i j)); [cbn beta; lra|exact Hit|].
      intros k Hk Nk. unfold HA. rewrite Kne by assumption. reflexivity. }
    assert (Tit : TA (l ++ [v]) it = x) by (unfold TA; rewrite Kit; reflexivity).
    assert (Yit : YA (l ++ [v]) it = g) by (unfold YA; rewrite Kit; reflexivity).
    assert (LQ1 : length (imv (N := RN) Q' x) = p) by (rewrite len_imv; exact Lx).
    assert (LQ2 : length (imv (N := RN) (en_Q e) (en_t e)) = p) by (rewrite len_imv; exact Lt).
    assert (Ls1 : length (vscale (N := RN) w (vsub (N := RN) (imv (N := RN) Q' x) (imv (N := RN) (en_Q e) (en_t e)))) = p).
    { unfold vscale. rewrite map_length. apply len_vsubR; assumption. }
    assert (Lu : length u' = p) by exact (len_vadd mx p _ _ A5 Ls1).
    assert (Eu : forall i, i < p -> comp u' i = (/ INR nb * sum_n nb (fun k => mvR p (HA (l ++ [v]) k) (TA (l ++ [v]) k) i))%R).
    { intros i Hi. unfold u', comp at 1. refine (eq_trans (nth_vadd mx p i _ _ A5 Ls1 Hi) _).
      change (nth i (i_u s) 0%R) with (comp (i_u s) i). rewrite A6 by exact Hi.
      match goal with |- (_ + ?a)%R = _ => replace a with (w * (comp (imv (N := RN) Q' x) i - comp (imv (N := RN) (en_Q e) (en_t e)) i))%R end.
      2:{ symmetry. refine (eq_trans (nth_vscale mx p i w _ (len_vsubR _ _ LQ1 LQ2) Hi) _). f_equal. exact (nth_vsub mx p i _ _ LQ1 LQ2 Hi). }
      rewrite !comp_imv by assumption.
      assert (M1 : mvR p Q' x i = mvR p (HA (l ++ [v]) it) (TA (l ++ [v]) it) i).
      { rewrite Tit. apply sum_n_ext. intros j Hj. rewrite EQ' by assumption. reflexivity. }
      assert (M2 : mvR p (en_Q e) (en_t e) i = mvR p (HA l it) (TA l it) i).
      { rewrite <- Et. apply sum_n_ext. intros j Hj. rewrite EQ by assumption. reflexivity. }
      rewrite M1, M2, Ew.
      rewrite (sum_n_upd nb it (fun k => mvR p (HA (l ++ [v]) k) (TA (l ++ [v]) k) i) (fun k => mvR p (HA l k) (TA l k) i)); [cbn beta; lra|exact Hit|].
      intros k Hk Nk. unfold HA, TA. rewrite Kne by assumption. reflexivity. }
    assert (Ls2 : length (vscale (N := RN) w (vsub (N := RN) g (en_y e))) = p).
    { unfold vscale. rewrite map_length. apply len_vsubR; assumption. }
    assert (Lg' : length g' = p) by exact (len_vadd mx p _ _ A7 Ls2).
    assert (Eg : forall i, i < p -> comp g' i = (/ INR nb * sum_n nb (fun k => comp (YA (l ++ [v]) k) i) + gap n b first i)%R).
    { intros i Hi. unfold g', comp at 1. refine (eq_trans (nth_vadd mx p i _ _ A7 Ls2 Hi) _).
      change (nth i (i_g s) 0%R) with (comp (i_g s) i). rewrite A8 by exact Hi.
      match goal with |- (_ + ?a)%R = _ => replace a with (w * (comp g i - comp (en_y e) i))%R end.
      2:{ symmetry. refine (eq_trans (nth_vscale mx p i w _ (len_vsubR _ _ Lg Ly) Hi) _). f_equal. exact (nth_vsub mx p i _ _ Lg Ly Hi). }
      rewrite Ey, Ew.
      rewrite (sum_n_upd nb it (fun k => comp (YA (l ++ [v]) k) i) (fun k => comp (YA l k) i)); [cbn beta; rewrite Yit; lra|exact Hit|].
      intros k Hk Nk. unfold YA. rewrite Kne by assumption. reflexivity. }
    destruct (solve (length x) B' (vsub (N := RN) u' g')) as [z|] eqn:Sv; [|discriminate]. injection M as Eto Es1.
    rewrite Lx in Sv. apply solves in Sv; [|apply len_vsubR; assumption]. destruct Sv as (Lz & Sv).
    assert (Lsz : forall c (a : vec), length a = p -> length (vscale (N := RN) c a) = p) by (intros; unfold vscale; rewrite map_length; assumption).
    sp.
    - unfold AG. rewrite <- Es1. cbn [i_tab i_B i_u i_g]. sp; auto.
      + rewrite len_set_ent. exact A1.
      + intros k e' E. rewrite nth_set_ent in E. destruct (Nat.eqb_spec k it) as [->|Nk]; cbn [andb] in E.
        * destruct (Nat.ltb_spec it (length (i_tab s))); [|lia]. injection E as <-. cbn [en_t en_y en_Q]. sp; auto.
        * destruct (A2 k e' E) as (B1 & B2 & B3). unfold TA, YA, HA in *. rewrite Kne by assumption. auto.
      + intros k Hk. destruct (Nat.eq_dec k it) as [->|Nk].
        * rewrite Tit, Yit, Kit. sp; auto. discriminate.
        * unfold TA, YA. rewrite Kne by assumption. apply A3; exact Hk.
    - rewrite <- Eto. exact (len_vadd mx p _ _ (Lsz _ _ Lz) (Lsz _ _ Lx)).
    - exists z. sp; [exact Lz| |].
      + intros i Hi. rewrite <- Eto. unfold comp at 1. refine (eq_trans (nth_vadd mx p i _ _ (Lsz _ _ Lz) (Lsz _ _ Lx) Hi) _).
        f_equal; [exact (nth_vscale mx p i _ _ Lz Hi)|exact (nth_vscale mx p i _ _ Lx Hi)].
      + intros i Hi. specialize (Sv i Hi). rewrite comp_vsub in Sv by assumption. unfold diff in Sv. rewrite Eu, Eg in Sv by assumption.
        rewrite (sum_n_ext p _ (fun j => / INR nb * (sum_n nb (fun k => HA (l ++ [v]) k i j * comp z j)))%R) in Sv.
        2:{ intros j Hj. rewrite EB by assumption. rewrite sum_n_scal_r. ring. }
        rewrite sum_n_scal, sum_n_swap in Sv.
        rewrite (sum_n_ext nb _ (fun k => sum_n p (fun j => HA (l ++ [v]) k i j * comp z j) + ((-1) * mvR p (HA (l ++ [v]) k) (TA (l ++ [v]) k) i + comp (YA (l ++ [v]) k) i))%R).
        2:{ intros k Hk. unfold model_gradient. change (hess p (kn (l ++ [v]) k)) with (HA (l ++ [v]) k). change (fst (newest (kn (l ++ [v]) k))) with (TA (l ++ [v]) k).
            change (snd (newest (kn (l ++ [v]) k))) with (YA (l ++ [v]) k). unfold mvR.
            rewrite (sum_n_ext p _ (fun j => HA (l ++ [v]) k i j * comp z j + (-1) * (HA (l ++ [v]) k i j * comp (TA (l ++ [v]) k) j))%R) by (intros; ring).
            rewrite sum_n_plus, sum_n_scal. ring. }
        rewrite !sum_n_plus, sum_n_scal.
        apply (Rmult_eq_compat_l (INR nb)) in Sv. rewrite !Rmult_minus_distr_l, Rmult_plus_distr_l, <- !Rmult_assoc, Rinv_r, !Rmult_1_l in Sv by lra. lra.
  Qed.

  (** any sequence of visits *)
  Notation still := (still (N := RN) norm).
  Lemma visits_AG l : forall l0 x s x' s', AG l0 s -> length x = p -> visits move still x s l x' s' ->
    AG (l0 ++ l) s' /\ length x' = p /\
    forall a v r g g' (to : vec), l = a ++ v :: r -> y_move v = Some (g, g', to) ->
      exists z : vec, length z = p /\ (forall i, i < p -> comp to i = (eta * comp z i + (1 - eta) * comp (y_x v) i)%R) /\
        forall i, i < p -> sum_n nb (fun k => model_gradient p (kn (l0 ++ a ++ [v]) k) z i) = (- (INR nb * gap n b first i))%R.
  Proof.
    induction l as [|v l IH]; intros l0 x s x' s' A Lx H; cbn [visits] in H.
    - destruct H as (-> & ->). rewrite app_nil_r. sp; auto. intros [|? ?]; discriminate.
    - destruct H as (Ex & H). destruct (y_move v) as [[[g g'] to]|] eqn:Em.
      + destruct H as (_ & Lg & s1 & M & H). assert (Lg' : length g' = p) by (cbn [T RNum] in *; congruence).
        destruct (move_AG l0 s (y_k v) x g' g to s1 v A Lx Lg' eq_refl Ex Em M) as (A1 & Lt & Z).
        destruct (IH (l0 ++ [v]) to s1 x' s' A1 Lt H) as (A2 & L2 & P2). rewrite <- app_assoc in A2. cbn [app] in A2. sp; auto.
        intros [|c a] w r h h' t E Hw; cbn [app] in E; injection E as E1 E2.
        * subst w r. rewrite Em in Hw. injection Hw as <- <- <-. rewrite Ex. cbn [app]. exact Z.
        * subst c l. destruct (P2 a w r h h' t eq_refl Hw) as (z & Z1 & Z2 & Z3). exists z. rewrite <- app_assoc in Z3. auto.
      + destruct H as (_ & H).
        assert (A1 : AG (l0 ++ [v]) s).
        { assert (K : forall k, kn (l0 ++ [v]) k = kn l0 k).
          { intros k. rewrite known_snoc. unfold sees. rewrite Em. destruct (y_k v =? k); reflexivity. }
          unfold AG, HA, TA, YA in *. destruct A as (A1 & A2 & A3 & A4 & A5 & A6 & A7 & A8). sp; auto.
          - intros k e E. rewrite K. apply A2. exact E.
          - intros k Hk. rewrite K. apply A3. exact Hk.
          - intros i j Hi Hj. rewrite A4 by assumption. f_equal. apply sum_n_ext. intros k Hk. rewrite K. reflexivity.
          - intros i Hi. rewrite A6 by assumption. f_equal. apply sum_n_ext. intros k Hk. rewrite K. reflexivity.
          - intros i Hi. rewrite A8 by assumption. f_equal. f_equal. apply sum_n_ext. intros k Hk. rewrite K. reflexivity. }
        destruct (IH (l0 ++ [v]) x s x' s' A1 Lx H) as (A2 & L2 & P2). rewrite <- app_assoc in A2. cbn [app] in A2. sp; auto.
        intros [|c a] w r h h' t E Hw; cbn [app] in E; injection E as E1 E2; [subst w; congruence|].
        subst c l. destruct (P2 a w r h h' t eq_refl Hw) as (z & Z1 & Z2 & Z3). exists z. rewrite <- app_assoc in Z3. auto.
  Qed.
  Lemma visits_app l1 : forall l2 x s x1 s1 x' s', visits move still x s l1 x1 s1 -> visits move still x1 s1 l2 x' s' ->
    visits move still x s (l1 ++ l2) x' s'.
  Proof. clear.
    induction l1 as [|v l1 IH]; intros l2 x s x1 s1 x' s' H1 H2; cbn [visits app] in *; [destruct H1 as (-> & ->); exact H2|].
    destruct H1 as (E & H1). split; [exact E|]. destruct (y_move v) as [[[g g'] to]|].
    - destruct H1 as (A & B & m & C & D). sp; auto. exists m. split; [exact C|]. eapply IH; eassumption.
    - destruct H1 as (A & B). split; [exact A|]. eapply IH; eassumption.
  Qed.
  Lemma passes_visits ps : forall x s x' s', passes move still n b x s ps x' s' -> visits move still x s (flat_map a_visits ps) x' s'.
  Proof. clear.
    induction ps as [|q ps IH]; intros x s x' s' H; cbn [passes flat_map] in *; [exact H|].
    destruct H as (_ & s1 & V & P). eapply visits_app; [exact V|]. apply IH, P.
  Qed.
  Lemma newton ps x xf s' : length x = p -> passes move still n b x (istart (N := RN) f p init first) ps xf s' ->
    forall a v r g g' (to : vec), flat_map a_visits ps = a ++ v :: r -> y_move v = Some (g, g', to) ->
      exists z : vec, length z = p /\ (forall i, i < p -> comp to i = (eta * comp z i + (1 - eta) * comp (y_x v) i)%R) /\
        forall i, i < p -> sum_n nb (fun k => model_gradient p (kn (a ++ [v]) k) z i) = (- (INR nb * gap n b first i))%R.
  Proof. intros Lx H. apply passes_visits in H. apply (visits_AG _ [] _ _ _ _ start_AG Lx) in H. apply H. Qed.
  (** the averages agree when the batches have the same size *)
  Lemma gap_zero : n mod b = 0 -> forall i, gap n b first i = 0%R.
  Proof.
    intros E i. pose proof nbR as Pn. assert (En : n = nb * b).
    { unfold num_batches. rewrite E. cbn [Nat.eqb]. pose proof (Nat.div_mod n b). lia. }
    rewrite gap_nb.
    rewrite (sum_n_ext nb (fun k => _ / INR (bsize n b k))%R (fun k => / INR b * comp (snd (snd (nth k first ((0, 0)%nat, ([], []))))) i)%R).
    2:{ intros k Hk. replace (bsize n b k) with b; [unfold Rdiv; ring|]. unfold bsize. assert ((k + 1) * b <= nb * b) by (apply Nat.mul_le_mono_r; lia). lia. }
    rewrite sum_n_scal. replace (INR n) with (INR nb * INR b)%R by (rewrite <- mult_INR, <- En; reflexivity).
    assert (0 < INR b)%R by (apply lt_0_INR; exact Hb). field. lra.
  Qed.
End Agg.
