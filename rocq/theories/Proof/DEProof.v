From Coq Require Import List Arith Bool Lia ZArith.
From Verif.Base Require Import Num Vec Instances.
From Verif.Model Require Import Common SA DE.
From Verif.Spec Require Import CommonSpec DESpec.
From Verif.Proof Require Import SAProof.
Import ListNotations.

Section Ord.
  Context {N : Num} (O : OrdLaws N).
  Lemma lt_not_nan_l : forall x y : N, nlt x y = true -> nisnan x = false.
  Proof. intros x y H. destruct (nisnan x) eqn:E; [|reflexivity]. rewrite (ol_nan_lt_l _ O) in H; [discriminate|exact E]. Qed.
  Lemma lt_not_nan_r : forall x y : N, nlt x y = true -> nisnan y = false.
  Proof. intros x y H. destruct (nisnan y) eqn:E; [|reflexivity]. rewrite (ol_nan_lt_r _ O) in H; [discriminate|exact E]. Qed.
  Lemma le_refl' : forall x : N, nisnan x = false -> nle x x = true.
  Proof. intros x H. apply (ol_total _ O); auto. apply (ol_irrefl _ O). Qed.
  Lemma eq_refl' : forall x : N, nisnan x = false -> neq x x = true.
  Proof. intros x H. apply (ol_eq _ O). split; apply le_refl'; exact H. Qed.
  Lemma eq_lt_l : forall x y z : N, neq x y = true -> nlt x z = nlt y z.
  Proof.
    intros x y z H. apply (ol_eq _ O) in H as [A B].
    destruct (nlt x z) eqn:E.
    - symmetry. eapply (ol_le_lt _ O); eauto.
    - destruct (nlt y z) eqn:E'; [|reflexivity]. rewrite (ol_le_lt _ O _ _ _ A E') in E. discriminate.
  Qed.
  Lemma eq_lt_r : forall x y z : N, neq x y = true -> nlt z x = nlt z y.
  Proof.
    intros x y z H. apply (ol_eq _ O) in H as [A B].
    destruct (nlt z x) eqn:E.
    - symmetry. eapply (ol_lt_le_trans _ O); eauto.
    - destruct (nlt z y) eqn:E'; [|reflexivity]. rewrite (ol_lt_le_trans _ O _ _ _ E' B) in E. discriminate.
  Qed.
  Lemma eq_sym' : forall x y : N, neq x y = true -> neq y x = true.
  Proof. intros x y H. apply (ol_eq _ O) in H as [A B]. apply (ol_eq _ O). auto. Qed.

  Lemma vmin_ok : forall (l : list N) (i : N),
    (vmin i l = i \/ (In (vmin i l) l /\ nlt (vmin i l) i = true)) /\
    forall v, In v l -> nlt v (vmin i l) = false.
  Proof.
    induction l as [|a l IH]; intros i.
    - split; [left; reflexivity|intros v []].
    - change (vmin i (a :: l)) with (vmin (if nlt a i then a else i) l).
      destruct (nlt a i) eqn:E.
      + destruct (IH a) as [[H|[H1 H2]] H'].
        * split; [right; rewrite H; split; [left; reflexivity|exact E]|].
          intros v [<-|V]; [rewrite H; apply (ol_irrefl _ O)|auto].
        * split; [right; split; [right; exact H1|eapply (ol_trans _ O); eauto]|].
          intros v [<-|V]; [|auto]. destruct (nlt a (vmin a l)) eqn:Q; [|reflexivity].
          pose proof (ol_trans _ O _ _ _ H2 Q) as QQ. rewrite (ol_irrefl _ O) in QQ. discriminate.
      + destruct (IH i) as [[H|[H1 H2]] H'].
        * split; [left; exact H|]. intros v [<-|V]; [rewrite H; exact E|auto].
        * split; [right; split; [right; exact H1|exact H2]|]. intros v [<-|V]; [|auto].
          destruct (nlt a (vmin i l)) eqn:Q; [|reflexivity]. rewrite (ol_trans _ O _ _ _ Q H2) in E. discriminate.
  Qed.
End Ord.

Lemma draw_until_ok : forall draws rej fuel pos v p, draw_until draws rej fuel pos = Some (v, p) -> rej v = false /\ exists q, v = draws q.
Proof.
  intros draws rej. induction fuel as [|k IH]; intros pos v p H; simpl in H; [discriminate|].
  destruct (rej (draws pos)) eqn:E; [eauto|]. injection H as <- <-. eauto.
Qed.

Lemma Forall2_set_nth {A B} (P : A -> B -> Prop) i a b l l' : Forall2 P l l' -> P a b -> Forall2 P (set_nth i a l) (set_nth i b l').
Proof. intros H. revert i. induction H; intros [|i] Q; simpl; constructor; auto. Qed.

Section DE.
  Context {N : Num}.
  Notation vec := (list N).
  Notation ev := (ev N vec vec).
  Variables (P maxGenerations : nat) (CR w tolerance inf : N).
  Variable f : vec -> N.
  Variable noise : nat -> vec.
  Variable draws : nat -> nat.
  Variable unif : nat -> vec.
  Variable cb : CB N vec vec.
  Variable fuel : nat.
  Variable x0 : vec.
  Variable O : OrdLaws N.
  Variable HP : 3 <= P.
  Variable HI : nlt nmax inf = true.
  Variable HN : forall i, length (noise i) = length x0.
  Notation init := (de_init f noise cb x0).
  Notation mems := (de_members P CR w f draws unif cb fuel).
  Notation gens := (de_generations P CR w tolerance inf f draws unif cb fuel).

  Definition pops (k : nat) : list vec := map (fun i => vadd (noise i) x0) (seq 0 k).
  Definition vals (p : list vec) : list ev := map (fun y => Ev y (f y)) p.

  Lemma de_init_ok : forall k s t j, d_pop s = pops j -> d_fit s = map f (pops j) -> d_tr s = rev (vals (pops j)) ->
    (d_best s = None /\ d_last s = nmax /\ (forall y, In y (d_pop s) -> nlt (f y) nmax = false) \/
     exists b, d_best s = Some b /\ d_last s = f b /\ In b (d_pop s) /\ nlt (f b) nmax = true /\
       forall y, In y (d_pop s) -> nlt (f y) (f b) = false) ->
    forall s' t', init k s t = (s', t') ->
    d_pop s' = pops (j + k) /\ d_fit s' = map f (pops (j + k)) /\ d_tr s' = rev (vals (pops (j + k))) /\
    (d_best s' = None /\ d_last s' = nmax /\ (forall y, In y (d_pop s') -> nlt (f y) nmax = false) \/
     exists b, d_best s' = Some b /\ d_last s' = f b /\ In b (d_pop s') /\ nlt (f b) nmax = true /\
       forall y, In y (d_pop s') -> nlt (f y) (f b) = false) /\
    ((t = true -> asked cb (rev (d_tr s))) -> t' = true -> asked cb (rev (d_tr s'))).
  Proof.
    induction k as [|k IH]; intros s t j Hp Hf Ht Hb s' t' E; cbn [de_init] in E.
    - injection E as <- <-. rewrite Nat.add_0_r. auto.
    - assert (LJ : length (d_pop s) = j) by (rewrite Hp; unfold pops; rewrite map_length, seq_length; reflexivity).
      rewrite LJ in E. set (y := vadd (noise j) x0) in *.
      assert (PS : pops (S j) = pops j ++ [y]).
      { unfold pops. rewrite seq_S, map_app. reflexivity. }
      replace (j + S k) with (S j + k) by lia.
      eapply (IH _ _ (S j)) in E; cbn [d_pop d_fit d_tr d_best d_last] in *.
      + destruct E as (A & B & C & D & F). repeat (split; [assumption|]). intros HT Q. apply F; [|exact Q].
        intros Q2. apply orb_true_iff in Q2 as [Q2|Q2].
        * apply (asked_ext cb (d_tr s) [_]). auto.
        * apply asked_now; auto.
      + rewrite Hp, PS. reflexivity.
      + rewrite Hf, PS, map_app. reflexivity.
      + rewrite Ht, PS. unfold vals. rewrite map_app, rev_app_distr. reflexivity.
      + destruct Hb as [(A & B & C)|(b & A & B & C & D & F)].
        * destruct (nlt (f y) (d_last s)) eqn:Q.
          -- right. exists y. split; [reflexivity|]. split; [reflexivity|]. split; [apply in_or_app; right; left; reflexivity|].
             rewrite B in Q. split; [exact Q|]. intros z Z. apply in_app_iff in Z as [Z|[<-|[]]]; [|apply (ol_irrefl _ O)].
             destruct (nlt (f z) (f y)) eqn:Q2; [|reflexivity].
             pose proof (ol_trans _ O _ _ _ Q2 Q) as K. rewrite (C z Z) in K. discriminate.
          -- left. split; [exact A|]. split; [exact B|]. intros z Z. apply in_app_iff in Z as [Z|[<-|[]]]; [auto|]. congruence.
        * rewrite B. destruct (nlt (f y) (f b)) eqn:Q.
          -- right. exists y. split; [reflexivity|]. split; [reflexivity|]. split; [apply in_or_app; right; left; reflexivity|].
             split; [eapply (ol_trans _ O); eauto|]. intros z Z. apply in_app_iff in Z as [Z|[<-|[]]]; [|apply (ol_irrefl _ O)].
             destruct (nlt (f z) (f y)) eqn:Q2; [|reflexivity].
             pose proof (ol_trans _ O _ _ _ Q2 Q) as K. rewrite (F z Z) in K. discriminate.
          -- right. exists b. split; [exact A|]. split; [reflexivity|]. split; [apply in_or_app; left; exact C|]. split; [exact D|].
             intros z Z. apply in_app_iff in Z as [Z|[<-|[]]]; auto.
  Qed.

  Lemma crossover_nth : forall cr mu x k a d, nth_error mu k = Some a -> nth_error x k = Some d ->
    nth_error (crossover CR cr mu x) k = Some (match nth_error cr k with Some u => if nle CR u then d else a | None => a end).
  Proof.
    induction cr as [|c cr IH]; intros mu x k a d A D.
    - cbn [crossover]. rewrite A. destruct k; reflexivity.
    - destruct mu as [|m mu]; [destruct k; discriminate|]. destruct x as [|z x]; [destruct k; discriminate|].
      destruct k as [|k]; simpl in *; [|eauto]. injection A as ->. injection D as ->. reflexivity.
  Qed.
  Lemma crossover_length : forall cr mu x, length mu = length x -> length (crossover CR cr mu x) = length x.
  Proof.
    induction cr as [|c cr IH]; intros [|m mu] [|z x] E; simpl in *; try discriminate; auto.
  Qed.

  Definition dim (p : list vec) := Forall (fun y : vec => length y = length x0) p.
  Lemma dim_nth : forall p i y, dim p -> nth_error p i = Some y -> length y = length x0.
  Proof. intros p i y D E. unfold dim in D. rewrite Forall_forall in D. apply D. eapply nth_error_In; eauto. Qed.
  Lemma dim_set : forall p i y, dim p -> length y = length x0 -> dim (set_nth i y p).
  Proof. unfold dim. intros p i y D. revert i. induction D; intros [|i] L; simpl; constructor; auto. Qed.
  Lemma set_nth_map : forall {A B} (g : A -> B) i a l, map g (set_nth i a l) = set_nth i (g a) (map g l).
  Proof. intros A B g i a l. revert i. induction l; intros [|i]; simpl; congruence. Qed.

  (** members other than i are untouched, so values never rise *)
  Definition below (p p' : list vec) : Prop := Forall2 (fun y y' => y' = y \/ nlt (f y') (f y) = true) p p'.
  Lemma below_refl : forall p, below p p.
  Proof. induction p; constructor; auto. Qed.
  Lemma below_trans : forall p q r, below p q -> below q r -> below p r.
  Proof.
    intros p q r A. revert r. induction A as [|y y' p q Y A IH]; intros r B; inversion B as [|? z ? r' Z B']; subst; constructor; [|apply IH; auto].
    destruct Y as [->|Y]; [exact Z|]. destruct Z as [->|Z]; [auto|]. right. eapply (ol_trans _ O); eauto.
  Qed.

  Lemma de_members_ok : forall k i s t s' t' b,
    mems k i s t = Ret (s', t') -> i + k = length (d_pop s) -> length (d_pop s) = P ->
    dim (d_pop s) -> d_best s = Some b -> length b = length x0 -> d_fit s = map f (d_pop s) ->
    (t = true -> asked cb (rev (d_tr s))) ->
    exists es full, d_tr s' = rev es ++ d_tr s /\ members CR w f b i (d_pop s) es (d_pop s') full /\
      d_fit s' = map f (d_pop s') /\ d_last s' = d_last s /\ d_best s' = d_best s /\ dim (d_pop s') /\
      length (d_pop s') = P /\ below (d_pop s) (d_pop s') /\
      (t' = true -> asked cb (rev (d_tr s'))) /\ (full = false -> t' = true) /\
      (forall y, In (St y) es -> exists z, In z (d_pop s') /\ (z = y \/ nlt (f z) (f y) = true)).
  Proof.
    induction k as [|k IH]; intros i s t s' t' b E LI LP D B LB F AK; cbn [de_members] in E.
    - injection E as <- <-. exists [], true. split; [reflexivity|]. split; [replace i with (length (d_pop s)) by lia; constructor|].
      repeat (split; [assumption || reflexivity|]). split; [apply below_refl|]. split; [exact AK|]. split; [discriminate|intros y []].
    - destruct (nth_error (d_pop s) i) as [x|] eqn:EX; [|discriminate].
      destruct (draw_until _ _ _ _) as [[l p1]|] eqn:E1; [|discriminate].
      destruct (draw_until _ _ _ p1) as [[m p2]|] eqn:E2; [|discriminate].
      rewrite B in E. destruct (nth_error (d_pop s) l) as [xl|] eqn:EL; [|discriminate].
      destruct (nth_error (d_pop s) m) as [xm|] eqn:EM; [|discriminate].
      apply draw_until_ok in E1 as [RL _]. apply Nat.eqb_neq in RL.
      set (mu := vadd b (vscale w (vsub xl xm))) in *. set (y := crossover CR (unif (d_k s)) mu x) in *.
      pose proof (dim_nth _ _ _ D EX) as LX. pose proof (dim_nth _ _ _ D EL) as LL. pose proof (dim_nth _ _ _ D EM) as LM.
      assert (LMU : length mu = length x0).
      { unfold mu, vadd, vscale, vsub. rewrite map2_length, map_length, map2_length. lia. }
      assert (LY : length y = length x0) by (unfold y; rewrite crossover_length; congruence).
      assert (CA : candidate CR w b (d_pop s) i x y).
      { exists l, m, xl, xm, (unif (d_k s)). repeat (split; [assumption || congruence|]).
        intros q b1 a1 c1 d1 HB HA HC HD. unfold y.
        rewrite (crossover_nth _ mu x q (nadd b1 (nmul w (nsub a1 c1))) d1); [reflexivity| |exact HD].
        unfold mu, vadd, vscale, vsub. rewrite nth_error_map2, HB, nth_error_map, nth_error_map2, HA, HC. reflexivity. }
      set (tr1 := Ev x (f x) :: d_tr s) in *. set (tr2 := Ev y (f y) :: tr1) in *.
      assert (A2 : t || cs_stop cb tr1 || cs_stop cb tr2 = true -> asked cb (rev tr2)).
      { intros Q. apply orb_true_iff in Q as [Q|Q]; [|apply asked_now; auto].
        apply (asked_ext cb tr1 [_]). apply orb_true_iff in Q as [Q|Q]; [|apply asked_now; auto].
        apply (asked_ext cb (d_tr s) [_]). auto. }
      destruct (t || cs_stop cb tr1 || cs_stop cb tr2) eqn:T2.
      { injection E as <- <-. exists [Ev x (f x); Ev y (f y)], false. cbn [d_tr d_pop d_fit d_last d_best].
        split; [reflexivity|]. split; [apply ms_stop; auto|]. repeat (split; [assumption || reflexivity || congruence|]).
        split; [apply below_refl|]. split; [auto|]. split; [auto|]. intros z [Z|[Z|[]]]; discriminate. }
      assert (LSET : forall z, length (set_nth i z (d_pop s)) = length (d_pop s)) by (intros; apply set_nth_length).
      destruct (nlt (f y) (f x)) eqn:Q.
      + apply (IH (S i) _ _ _ _ b) in E; cbn [d_tr d_pop d_fit d_last d_best] in *;
          [|rewrite LSET; lia|rewrite LSET; exact LP|apply dim_set; auto|reflexivity|exact LB|rewrite set_nth_map, F; reflexivity|].
        2:{ intros QQ. apply asked_now; auto. }
        destruct E as (es & full & H1 & H2 & H3 & H4 & H5 & H6 & H7 & H8 & H9 & H10 & H11).
        exists (Ev x (f x) :: Ev y (f y) :: St y :: es), full.
        split. { rewrite H1. cbn [rev]. rewrite <- !app_assoc. reflexivity. }
        split. { eapply ms_take; eauto. split; [|split].
          - apply set_nth_same. apply nth_error_Some. congruence.
          - apply LSET.
          - intros j J. apply set_nth_other; auto. }
        repeat (split; [assumption || congruence|]).
        assert (BL : below (d_pop s) (set_nth i y (d_pop s))).
        { clear - EX Q O. revert i EX. induction (d_pop s) as [|a p IHp]; intros [|i] EX; simpl in *; try discriminate.
          - injection EX as ->. constructor; [auto|apply below_refl].
          - constructor; [auto|]. apply IHp. exact EX. }
        split; [eapply below_trans; eauto|]. split; [exact H9|]. split; [exact H10|].
        intros z [Z|[Z|[Z|Z]]]; try discriminate; [|auto]. injection Z as <-.
        assert (IN : In y (set_nth i y (d_pop s))).
        { eapply nth_error_In. apply set_nth_same. apply nth_error_Some. congruence. }
        clear - IN H8. unfold below in H8. induction H8 as [|a a' p p' A H IHp]; [destruct IN|].
        destruct IN as [->|IN]; [exists a'; split; [left; reflexivity|destruct A; auto]|].
        destruct (IHp IN) as (z & Z1 & Z2). exists z. split; [right; exact Z1|exact Z2].
      + assert (SI : set_nth i x (d_pop s) = d_pop s) by (apply set_nth_id; exact EX).
        apply (IH (S i) _ _ _ _ b) in E; cbn [d_tr d_pop d_fit d_last d_best] in *; rewrite ?SI in *;
          [|lia|exact LP|exact D|reflexivity|exact LB| |discriminate].
        2:{ rewrite F, <- set_nth_map, SI. reflexivity. }
        destruct E as (es & full & H1 & H2 & H3 & H4 & H5 & H6 & H7 & H8 & H9 & H10 & H11).
        exists (Ev x (f x) :: Ev y (f y) :: es), full.
        split. { rewrite H1. cbn [rev]. rewrite <- !app_assoc. reflexivity. }
        split. { eapply ms_keep; eauto. }
        repeat (split; [assumption || congruence|]).
        intros z [Z|[Z|Z]]; try discriminate. auto.
  Qed.

  Lemma de_members_total : forall k i s t, i + k <= length (d_pop s) -> length (d_pop s) = P -> d_best s <> None ->
    mems k i s t <> Bad.
  Proof.
    induction k as [|k IH]; intros i s t LI LP B; cbn [de_members]; [discriminate|].
    assert (NE : forall j, j < P -> nth_error (d_pop s) j <> None) by (intros j J; apply nth_error_Some; lia).
    destruct (nth_error (d_pop s) i) as [x|] eqn:EX; [|exfalso; apply (NE i); [lia|exact EX]].
    destruct (draw_until _ _ _ _) as [[l p1]|] eqn:E1; [|discriminate].
    destruct (draw_until _ _ _ p1) as [[m p2]|] eqn:E2; [|discriminate].
    apply draw_until_ok in E1 as [_ [q1 ->]]. apply draw_until_ok in E2 as [_ [q2 ->]].
    destruct (d_best s) as [b|] eqn:EB; [|congruence].
    destruct (nth_error (d_pop s) (draws q1 mod P)) eqn:EL; [|exfalso; apply (NE (draws q1 mod P)); [apply Nat.mod_upper_bound; lia|exact EL]].
    destruct (nth_error (d_pop s) (draws q2 mod P)) eqn:EM; [|exfalso; apply (NE (draws q2 mod P)); [apply Nat.mod_upper_bound; lia|exact EM]].
    match goal with |- (if ?c then _ else _) <> _ => destruct c end; [discriminate|].
    apply IH; cbn [d_pop d_best]; rewrite ?set_nth_length; try lia. congruence.
  Qed.

  Lemma first_eq_ok : forall m p old, In m (map f p) -> nisnan m = false ->
    exists b, first_eq m (map f p) p old = Some b /\ In b p /\ neq (f b) m = true.
  Proof.
    intros m p old IN NM. induction p as [|y p IH]; [destruct IN|]. cbn [map first_eq].
    destruct (neq (f y) m) eqn:Q; [exists y; split; [reflexivity|]; split; [left; reflexivity|exact Q]|].
    destruct IN as [<-|IN]; [rewrite (eq_refl' O) in Q by exact NM; discriminate|].
    destruct (IH IN) as (b & A & B & C). exists b. split; [exact A|]. split; [right; exact B|exact C].
  Qed.

  Record GInv (s : dst) (b : vec) : Prop := {
    g_fit : d_fit s = map f (d_pop s);
    g_len : length (d_pop s) = P;
    g_dim : dim (d_pop s);
    g_best : d_best s = Some b;
    g_is : is_best f (d_pop s) b;
    g_val : neq (d_last s) (f b) = true;
    g_fin : nlt (f b) nmax = true
  }.

  Lemma below_not : forall p q v, below p q -> (forall y, In y q -> nlt (f y) v = false) -> forall y, In y p -> nlt (f y) v = false.
  Proof.
    intros p q v B. induction B as [|y y' p q Y B IH]; intros H z Z; [destruct Z|].
    destruct Z as [<-|Z]; [|apply IH; auto; intros u U; apply H; right; exact U].
    destruct Y as [<-|Y]; [apply H; left; reflexivity|].
    destruct (nlt (f y) v) eqn:Q; [|reflexivity]. pose proof (ol_trans _ O _ _ _ Y Q) as K. rewrite (H y') in K; [discriminate|left; reflexivity].
  Qed.

  Lemma best_dim : forall s b, GInv s b -> length b = length x0.
  Proof. intros s b [F L D B [I _] V M]. unfold dim in D. rewrite Forall_forall in D. auto. Qed.

  Lemma attained : forall p q b, is_best f p b -> nlt (f b) nmax = true -> below p q ->
    let m := vmin inf (map f q) in
    In m (map f q) /\ nlt m nmax = true /\ forall y, In y q -> nlt (f y) m = false.
  Proof.
    intros p q b IB M H8 m.
    destruct (vmin_ok O (map f q) inf) as [C1 C2]. fold m in C1, C2.
    assert (EX : exists z, In z q /\ nlt (f z) nmax = true).
    { clear - IB M H8 O. destruct IB as [IB _]. unfold below in H8. induction H8 as [|a a' p p' A H IHp]; [destruct IB|].
      destruct IB as [->|IB].
      - exists a'. split; [left; reflexivity|]. destruct A as [->|A]; [exact M|]. eapply (ol_trans _ O); eauto.
      - destruct (IHp IB) as (z & Z1 & Z2). exists z. split; [right; exact Z1|exact Z2]. }
    destruct EX as (z & Z1 & Z2).
    assert (C3 : forall y, In y q -> nlt (f y) m = false) by (intros y Y; apply C2; apply in_map; exact Y).
    destruct C1 as [C1|[C1 C1']].
    - exfalso. specialize (C3 z Z1). rewrite C1 in C3. rewrite (ol_trans _ O _ _ _ Z2 HI) in C3. discriminate.
    - split; [exact C1|]. split; [|exact C3].
      specialize (C3 z Z1). assert (nle m (f z) = true) as LE.
      { apply (ol_total _ O); [exact (lt_not_nan_l O _ _ Z2)|exact (lt_not_nan_l O _ _ C1')|exact C3]. }
      eapply (ol_le_lt _ O); eauto.
  Qed.

  Lemma next_inv : forall s s1 b, GInv s b -> d_fit s1 = map f (d_pop s1) -> dim (d_pop s1) -> length (d_pop s1) = P ->
    below (d_pop s) (d_pop s1) ->
    exists b1, GInv {| d_pop := d_pop s1; d_fit := d_fit s1; d_last := vmin inf (d_fit s1);
      d_best := first_eq (vmin inf (d_fit s1)) (d_fit s1) (d_pop s1) (d_best s1); d_pos := d_pos s1; d_k := d_k s1; d_tr := d_tr s1 |} b1.
  Proof.
    intros s s1 b G H3 H6 H7 H8.
    destruct (attained _ _ b (g_is _ _ G) (g_fin _ _ G) H8) as (AT1 & AT2 & AT3).
    pose proof (lt_not_nan_l O _ _ AT2) as NM.
    destruct (first_eq_ok _ (d_pop s1) (d_best s1) AT1 NM) as (b1 & B1 & B2 & B3).
    exists b1. rewrite H3. split; cbn [d_fit d_pop d_best d_last]; auto.
    - split; [exact B2|]. intros y Y. rewrite (eq_lt_r O _ _ _ B3). auto.
    - apply (eq_sym' O). exact B3.
    - rewrite (eq_lt_l O _ _ _ B3). exact AT2.
  Qed.

  Lemma de_generations_ok : forall k s t s' b, gens k s t = Ret s' -> GInv s b -> (t = true -> asked cb (rev (d_tr s))) ->
    exists n es b' , n <= k /\ (t = true -> n = 0) /\ d_tr s' = rev es ++ d_tr s /\ generations CR w f n (d_pop s) es (d_pop s') /\
      d_best s' = Some b' /\ neq (d_last s') (f b') = true /\
      below (d_pop s) (d_pop s') /\ (forall y, In y (d_pop s) -> nlt (f y) (d_last s') = false) /\
      ((n = k \/ asked cb (rev (d_tr s'))) /\ is_best f (d_pop s') b' /\
       (forall y, In (St y) es -> nlt (f y) (d_last s') = false) \/
       exists m, In m (d_pop s') /\ nlt (nabs (nsub (d_last s') (f m))) tolerance = true /\
        (forall y, In y (d_pop s') -> nlt (f y) (f m) = false) /\ (forall y, In (St y) es -> nlt (f y) (f m) = false)).
  Proof.
    induction k as [|k IH]; intros s t s' b E G AK; cbn [de_generations] in E.
    - assert (s = s') by (destruct t; injection E as <-; reflexivity). subst s'.
      exists 0, [], b. split; [lia|]. split; [reflexivity|]. split; [reflexivity|]. split; [constructor|]. destruct G as [F L D B IB V M].
      split; [exact B|]. split; [exact V|]. split; [apply below_refl|].
      split; [intros y Y; rewrite (eq_lt_r O _ _ _ V); apply IB; exact Y|].
      left. split; [left; reflexivity|]. split; [exact IB|intros y []].
    - destruct t.
      { injection E as <-. exists 0, [], b. split; [lia|]. split; [reflexivity|]. split; [reflexivity|]. split; [constructor|]. destruct G as [F L D B IB V M].
        split; [exact B|]. split; [exact V|]. split; [apply below_refl|].
        split; [intros y Y; rewrite (eq_lt_r O _ _ _ V); apply IB; exact Y|].
        left. split; [right; auto|]. split; [exact IB|intros y []]. }
      destruct (mems P 0 s false) as [[s1 t1]| |] eqn:EM; [|discriminate|discriminate].
      pose proof (best_dim _ _ G) as LB. destruct G as [F L D B IB V M].
      apply (de_members_ok P 0 s false s1 t1 b) in EM; [|simpl; congruence|exact L|exact D|exact B|exact LB|exact F|discriminate].
      destruct EM as (es & full & H1 & H2 & H3 & H4 & H5 & H6 & H7 & H8 & H9 & H10 & H11).
      rewrite H3 in E. set (m := vmin inf (map f (d_pop s1))) in *.
      pose proof (attained _ _ b IB M H8) as ATT. cbn zeta in ATT. fold m in ATT.
      destruct ATT as (AT1 & AT2 & AT3).
      pose proof (lt_not_nan_l O _ _ AT2) as NM.
      assert (ST1 : forall y, In (St y) es -> nlt (f y) m = false).
      { intros y Y. destruct (H11 y Y) as (z & Z1 & [->|Z2]); [auto|].
        destruct (nlt (f y) m) eqn:Q; [|reflexivity]. pose proof (ol_trans _ O _ _ _ Z2 Q) as K. rewrite (AT3 z Z1) in K. discriminate. }
      destruct (nlt (nabs (nsub (d_last s1) m)) tolerance) eqn:QT.
      + injection E as <-. exists 1, es, b. split; [lia|]. split; [discriminate|]. split; [exact H1|].
        split. { rewrite <- (app_nil_r es). eapply gs_more; [exact IB|exact H2|reflexivity|constructor]. }
        rewrite H5. split; [exact B|]. rewrite H4 in *. split; [exact V|]. split; [exact H8|].
        split; [intros y Y; rewrite (eq_lt_r O _ _ _ V); apply IB; exact Y|].
        right. apply in_map_iff in AT1 as (mm & E1 & E2). exists mm. rewrite E1. auto.
      + destruct (first_eq_ok m (d_pop s1) (d_best s1) AT1 NM) as (b1 & B1 & B2 & B3).
        apply (IH _ _ _ b1) in E.
        * destruct E as (n & es' & b' & K1 & K0 & K2 & K3 & K4 & K5 & K6 & K7 & K8). cbn [d_pop d_tr] in *.
          assert (NV : forall y, In (St y) es -> nlt (f y) (d_last s') = false).
          { intros y Y. destruct (H11 y Y) as (z & Z1 & Z2). pose proof (K7 z Z1) as K. destruct Z2 as [->|Z2]; [exact K|].
            destruct (nlt (f y) (d_last s')) eqn:Q; [|reflexivity]. pose proof (ol_trans _ O _ _ _ Z2 Q) as KK. congruence. }
          exists (S n), (es ++ es'), b'. split; [lia|]. split; [discriminate|].
          split. { rewrite K2, H1, rev_app_distr, app_assoc. reflexivity. }
          split. { eapply gs_more; [exact IB|exact H2|auto|exact K3]. }
          split; [exact K4|]. split; [exact K5|]. split; [eapply below_trans; eauto|].
          split; [eapply below_not; eauto|].
          destruct K8 as [(K8 & K9 & K10)|(mm & K8 & K9 & K10 & K11)].
          -- left. split; [destruct K8; [left; lia|right; assumption]|]. split; [exact K9|].
             intros y Y. apply in_app_iff in Y as [Y|Y]; auto.
          -- right. exists mm. split; [exact K8|]. split; [exact K9|]. split; [exact K10|].
             intros y Y. apply in_app_iff in Y as [Y|Y]; [|auto].
             destruct (H11 y Y) as (z & Z1 & Z2). pose proof (below_not _ _ _ K6 K10 z Z1) as K. destruct Z2 as [->|Z2]; [exact K|].
             destruct (nlt (f y) (f mm)) eqn:Q; [|reflexivity]. pose proof (ol_trans _ O _ _ _ Z2 Q) as KK. congruence.
        * split; cbn [d_fit d_pop d_best d_last].
          -- reflexivity.
          -- exact H7.
          -- exact H6.
          -- exact B1.
          -- split; [exact B2|]. intros y Y. rewrite (eq_lt_r O _ _ _ B3). auto.
          -- apply (eq_sym' O). exact B3.
          -- rewrite (eq_lt_l O _ _ _ B3). exact AT2.
        * exact H9.
  Qed.

  Lemma de_generations_total : forall k s t b, GInv s b -> gens k s t <> Bad.
  Proof.
    induction k as [|k IH]; intros s t b G; cbn [de_generations]; [destruct t; discriminate|]. destruct t; [discriminate|].
    destruct (mems P 0 s false) as [[s1 t1]| |] eqn:EM; [| |discriminate].
    2:{ exfalso. revert EM. apply de_members_total; [rewrite (g_len _ _ G); lia|apply G|rewrite (g_best _ _ G); discriminate]. }
    pose proof (best_dim _ _ G) as LB.
    pose proof EM as EM'.
    apply (de_members_ok P 0 s false s1 t1 b) in EM; [|simpl; symmetry; apply G|apply G|apply G|apply G|exact LB|apply G|discriminate].
    destruct EM as (es & full & H1 & H2 & H3 & H4 & H5 & H6 & H7 & H8 & H9 & H10 & H11).
    destruct (nlt _ tolerance) eqn:QT; [discriminate|].
    (* use the one-generation result to re-establish the invariant *)
    assert (G1 : exists b1, GInv {| d_pop := d_pop s1; d_fit := d_fit s1; d_last := vmin inf (d_fit s1);
      d_best := first_eq (vmin inf (d_fit s1)) (d_fit s1) (d_pop s1) (d_best s1); d_pos := d_pos s1; d_k := d_k s1; d_tr := d_tr s1 |} b1).
    { apply (next_inv s s1 b); auto. }
    destruct G1 as (b1 & G1). eapply IH. exact G1.
  Qed.

  Theorem de_ok : (exists i, i < P /\ nlt (f (vadd (noise i) x0)) nmax = true) ->
    exists o, de_optimize P maxGenerations CR w tolerance inf f noise draws unif cb fuel x0 = Some o /\ o <> Bad /\
    forall r, o = Ret r ->
    let p := pops P in
    exists n es p', n <= maxGenerations /\
      o_tr r = vals p ++ Begin x0 :: es ++ [End (o_x r)] /\ generations CR w f n p es p' /\
      neq (o_val r) (f (o_x r)) = true /\
      (forall y, In y p -> nlt (f y) (o_val r) = false) /\
      ((n = maxGenerations \/ asked cb (o_tr r)) /\ is_best f p' (o_x r) /\
       (forall y, In (St y) es -> nlt (f y) (o_val r) = false) \/
       exists m, is_best f p' m /\ nlt (nabs (nsub (o_val r) (f m))) tolerance = true /\
        (forall y, In (St y) es -> nlt (f y) (f m) = false)).
  Proof.
    intros (i & HiP & Hi). unfold de_optimize. destruct (Nat.ltb_spec P 3); [lia|].
    destruct (init P _ false) as [s t] eqn:E.
    apply (de_init_ok P _ false 0) in E; try reflexivity.
    2:{ left. split; [reflexivity|]. split; [reflexivity|]. intros y []. }
    destruct E as (E1 & E2 & E3 & E4 & E5). cbn [Nat.add] in *.
    destruct E4 as [(_ & _ & E4)|(b & B1 & B2 & B3 & B4 & B5)].
    { exfalso. rewrite E1 in E4. rewrite (E4 (vadd (noise i) x0)) in Hi; [discriminate|].
      unfold pops. apply in_map_iff. exists i. split; [reflexivity|]. apply in_seq. lia. }
    set (s1 := Build_dst _ _ _ _ _ _ _).
    assert (G : GInv s1 b).
    { split; cbn [s1 d_fit d_pop d_best d_last].
      - rewrite E2, E1. reflexivity.
      - rewrite E1. unfold pops. rewrite map_length, seq_length. reflexivity.
      - rewrite E1. unfold dim, pops. apply Forall_forall. intros y Y. apply in_map_iff in Y as (j & <- & _).
        unfold vadd. rewrite map2_length, HN. lia.
      - exact B1.
      - split; auto.
      - rewrite B2. apply (eq_refl' O). exact (lt_not_nan_l O _ _ B4).
      - exact B4. }
    eexists. split; [reflexivity|].
    split. { pose proof (de_generations_total maxGenerations s1 t b G). destruct (gens maxGenerations s1 t); congruence. }
    intros r R. destruct (gens maxGenerations s1 t) as [s2| |] eqn:EG; try discriminate. injection R as <-.
    assert (AK : t = true -> asked cb (rev (d_tr s1))).
    { intros Q. apply (asked_ext cb (d_tr s) [Begin x0]). apply E5; [discriminate|exact Q]. }
    destruct (de_generations_ok _ _ _ _ _ EG G AK) as (n & es & b' & K1 & K0 & K2 & K3 & K4 & K5 & K6 & K7 & K8).
    cbn [o_tr o_x o_val]. rewrite K4. cbn [s1 d_pop] in *. rewrite E1 in *.
    exists n, es, (d_pop s2). split; [exact K1|].
    split. { cbn [rev]. rewrite K2. cbn [s1 d_tr]. rewrite rev_app_distr, rev_involutive. cbn [rev].
      rewrite E3, rev_involutive, <- !app_assoc. reflexivity. }
    split; [exact K3|]. split; [exact K5|]. split; [exact K7|].
    destruct K8 as [([K8|K8] & K9 & K10)|(m & M1 & M2 & M3 & M4)].
    - left. auto.
    - left. split; [right|auto]. apply (asked_ext cb _ [End b'] K8).
    - right. exists m. split; [split; assumption|]. auto.
  Qed.
End DE.
