(** MOEA/D: the pieces of a generation. *)
From Coq Require Import List Arith Bool ZArith Lia Permutation.
From Verif.Base Require Import Num Vec SortIdx.
From Verif.Model Require Import SA Pareto NSGA2 MOEAD.
From Verif.Spec Require Import NSGA2Spec MOEADSpec.
From Verif.Proof Require Import SAProof ParetoProof NSGA2Proof.
Import ListNotations.

Lemma filter_rev' : forall {A} (f : A -> bool) l, filter f (rev l) = rev (filter f l).
Proof.
  intros A f l; induction l as [|a l IH]; [reflexivity|]. cbn [rev filter]. rewrite filter_app, IH. cbn [filter].
  destruct (f a); cbn [rev]; [reflexivity|apply app_nil_r].
Qed.
Lemma set_fold_length : forall {A} (f : list A -> nat -> A) l c,
  length (fold_left (fun c i => set_nth i (f c i) c) l c) = length c.
Proof. intros A f l; induction l as [|i l IH]; intros c; [reflexivity|]. cbn [fold_left]. rewrite IH. apply set_nth_length. Qed.
Lemma all_some_map : forall {A B} (f : A -> option B) (g : A -> B) l,
  (forall a, In a l -> f a = Some (g a)) -> all_some (map f l) = Some (map g l).
Proof.
  intros A B f g l; induction l as [|a l IH]; intros H; [reflexivity|]. cbn [map all_some].
  rewrite (H a) by (left; reflexivity). rewrite IH by (intros; apply H; right; assumption). reflexivity.
Qed.
Lemma map_set_nth : forall {A B} (f : A -> B) i a l, map f (set_nth i a l) = set_nth i (f a) (map f l).
Proof. intros A B f i; induction i as [|i IH]; intros a [|b l]; try reflexivity. cbn. f_equal. apply IH. Qed.

Section P.
  Context {N : Num}.
  Variable OL : OrdLaws N.
  Notation vec := (list N).

  Lemma least_ext : forall m (z : vec) a b, (forall o, In o a <-> In o b) -> least_of m z a -> least_of m z b.
  Proof.
    intros m z a b E (L & H). split; [exact L|]. intros i zi Z. destruct (H i zi Z) as (H1 & H2 & H3).
    split; [exact H1|]. split; [intros o v I; apply H2, E, I|].
    destruct H3 as [H3|(o & I & V)]; [left; exact H3|right; exists o; split; [apply E, I|exact V]].
  Qed.
  Lemma vmin_least : forall m (z o : vec) objs, least_of m z objs -> length o = m -> least_of m (vmin z o) (o :: objs).
  Proof.
    intros m z o objs (L & H) LO. split; [unfold vmin; rewrite map2_length; lia|].
    intros i zi Z. unfold vmin in Z. rewrite nth_error_map2 in Z.
    destruct (nth_error z i) as [a|] eqn:EA; [|discriminate]. destruct (nth_error o i) as [b|] eqn:EB; [|discriminate].
    injection Z as <-. destruct (H i a EA) as (H1 & H2 & H3). destruct (nlt b a) eqn:E.
    - split; [|split].
      + destruct (nlt nmax b) eqn:X; [|reflexivity]. rewrite (ol_trans _ OL _ _ _ X E) in H1. discriminate.
      + intros o' v [<-|I] V; [rewrite EB in V; injection V as <-; apply (ol_irrefl _ OL)|].
        destruct (nlt v b) eqn:X; [|reflexivity]. pose proof (H2 o' v I V) as Y. rewrite (ol_trans _ OL _ _ _ X E) in Y. discriminate.
      + right. exists o. split; [left; reflexivity|exact EB].
    - split; [exact H1|]. split.
      + intros o' v [<-|I] V; [rewrite EB in V; injection V as <-; exact E|eapply H2; eauto].
      + destruct H3 as [H3|(o' & I & V)]; [left; exact H3|right; exists o'; split; [right; exact I|exact V]].
  Qed.
  Lemma ideal_least : forall m (l : list vec) z objs, least_of m z objs -> (forall o, In o l -> length o = m) ->
    least_of m (fold_left vmin l z) (l ++ objs).
  Proof.
    intros m l; induction l as [|o l IH]; intros z objs H HL; [exact H|]. cbn [fold_left].
    apply (least_ext _ _ (l ++ o :: objs)).
    { intros o'. rewrite in_app_iff. cbn. rewrite in_app_iff. tauto. }
    apply IH; [|intros; apply HL; right; assumption]. apply vmin_least; [exact H|apply HL; left; reflexivity].
  Qed.
  Lemma least_start : forall m, least_of m (repeat (@nmax N) m) [].
  Proof.
    intros m. split; [apply repeat_length|]. intros i zi Z. apply nth_error_In, repeat_spec in Z. subst.
    split; [apply (ol_irrefl _ OL)|]. split; [intros o v []|left; reflexivity].
  Qed.

  Lemma evaluated_eq : forall (fs : list (vec -> N)) pop, evaluated fs pop = map (objv fs) pop.
  Proof.
    intros fs pop. unfold evaluated. rewrite evaluate_table by lia. rewrite firstn_all, Nat.sub_diag. apply app_nil_r.
  Qed.

  (** ** Neighbours *)
  Section Nb.
    Variables (weights : list vec) (ssort : list N -> list nat) (n ns : nat).
    Hypothesis LW : length weights = n.
    Hypothesis NS : ns <= n - 1.
    Hypothesis Hn : 3 <= n.
    Hypothesis NN : forall u v, In u weights -> In v weights -> nisnan (dist u v) = false.
    Hypothesis SO : forall l, no_nan l -> sorted_index l (ssort l).
    Definition ds (i : nat) : list N := map (dist (nth i weights [])) weights.
    Definition nbr (i : nat) : list nat := firstn ns (skipn 1 (ssort (ds i))).
    Definition self (i : nat) : nat := hd 0 (ssort (ds i)).

    Lemma ds_no_nan : forall i, i < n -> no_nan (ds i).
    Proof.
      intros i Hi v I. unfold ds in I. apply in_map_iff in I as (w & <- & I). apply NN; [|exact I]. apply nth_In. lia.
    Qed.
    Lemma neighbours_eq : forall i, i < n -> neighbours ns weights ssort i = Some (nbr i).
    Proof.
      intros i Hi. unfold neighbours. fold (ds i). destruct (existsb nisnan (ds i)) eqn:E; [|reflexivity].
      apply existsb_exists in E as (v & I & V). rewrite (ds_no_nan i Hi v I) in V. discriminate.
    Qed.
    Lemma nbr_nearest : forall i, i < n -> nearest weights ns i (self i) (nbr i).
    Proof.
      intros i Hi. destruct (SO (ds i) (ds_no_nan i Hi)) as [P S]. unfold ds in P at 2. rewrite map_length, LW in P.
      assert (ND : NoDup (ssort (ds i))) by (eapply Permutation_NoDup; [symmetry; exact P|apply seq_NoDup]).
      assert (LT : forall j, In j (ssort (ds i)) -> j < n).
      { intros j J. apply (Permutation_in _ P), in_seq in J. lia. }
      assert (LL : length (ssort (ds i)) = n) by (rewrite (Permutation_length P), seq_length; reflexivity).
      assert (V : forall j, j < n -> nth_error (ds i) j = Some (dist (nth i weights []) (nth j weights []))).
      { intros j J. unfold ds. rewrite nth_error_map, (nth_error_nth' weights []) by lia. reflexivity. }
      unfold nbr, self in *. destruct (ssort (ds i)) as [|s r] eqn:ES; [cbn in LL; lia|]. cbn [skipn hd length] in *.
      inversion ND as [|? ? N1 N2]; subst.
      assert (SPLIT : r = firstn ns r ++ skipn ns r) by (symmetry; apply firstn_skipn).
      assert (INF : forall j, In j (firstn ns r) -> In j r) by (intros j J; rewrite SPLIT, in_app_iff; left; exact J).
      unfold nearest. split; [rewrite firstn_length; lia|]. split; [rewrite SPLIT in N2; exact (nodup_app_l _ _ N2)|].
      split; [intros K; apply N1, INF, K|]. split; [apply LT; left; reflexivity|].
      split; [intros j J; apply LT; right; apply INF, J|]. cbv zeta. split.
      - intros j J. destruct (Nat.eq_dec j s) as [->|NE]; [apply (ol_irrefl _ OL)|].
        assert (In j (s :: r)) as [->|K] by (apply (Permutation_in _ (Permutation_sym P)), in_seq; lia); [congruence|].
        apply In_nth_error in K as [b B]. apply (S 0 (Datatypes.S b) s j); [lia|reflexivity|exact B| |]; apply V; auto.
        apply LT. left. reflexivity.
      - intros j o J O NE NI. assert (In o (s :: r)) as [->|K] by (apply (Permutation_in _ (Permutation_sym P)), in_seq; lia); [congruence|].
        assert (K2 : In o (skipn ns r)) by (rewrite SPLIT, in_app_iff in K; tauto).
        apply In_nth_error in J as [a A]. apply In_nth_error in K2 as [b B].
        assert (a < ns). { assert (a < length (firstn ns r)) by (apply nth_error_Some; congruence).
          rewrite firstn_length in *. lia. }
        apply (S (Datatypes.S a) (Datatypes.S (ns + b)) j o); [lia| | | |].
        + cbn. rewrite SPLIT, nth_error_app1 by (apply nth_error_Some; congruence). exact A.
        + cbn. rewrite SPLIT, nth_error_app2 by (rewrite firstn_length; lia).
          rewrite firstn_length, Nat.min_l by lia. replace (ns + b - ns) with b by lia. exact B.
        + apply V. apply LT. right. apply INF. eapply nth_error_In; eauto.
        + apply V. exact O.
    Qed.
  End Nb.

  Lemma mating_ok : forall n col (nb : bool) ra rb, 3 <= n -> (forall k, In k col -> k < n) ->
    ra < (if nb then length col else n) -> rb < (if nb then length col else n) ->
    exists a b, mating n col nb ra rb = Some (a, b) /\ a <> b /\ a < n /\ b < n.
  Proof.
    intros n col nb ra rb Hn HC HA HB. unfold mating.
    assert (G : forall r, r < (if nb then length col else n) -> exists k, (if nb then nth_error col r else Some r) = Some k /\ k < n).
    { intros r Hr. destruct nb; [|eauto]. destruct (nth_error col r) as [k|] eqn:E.
      - exists k. split; [reflexivity|]. apply HC. eapply nth_error_In; eauto.
      - apply nth_error_None in E. lia. }
    destruct (G ra HA) as (a & EA & LA). destruct (G rb HB) as (b & EB & LB). rewrite EA, EB.
    destruct (Nat.eqb_spec a b) as [->|NE]; [|eauto 10].
    destruct (Nat.eqb_spec b (n - 1)); (do 2 eexists; split; [reflexivity|lia]).
  Qed.

  (** ** The comparisons for one child *)
  Section Tr.
    Variables (n maxReplace : nat) (apply : vec -> vec -> vec -> N) (weights : list vec) (fs : list (vec -> N)).
    Hypothesis LW : length weights = n.
    Variables (ideal x : vec) (old : list vec).
    Definition wins (t : trial N) : bool := nlt (t_child t) (t_parent t).
    Definition won (log : list (trial N)) : list nat := map t_pick (filter wins log).
    Definition judged (t : trial N) : Prop := exists w p,
       nth_error weights (t_pick t) = Some w /\ nth_error old (t_pick t) = Some p /\
       t_child t = apply w ideal (objv fs x) /\ t_parent t = apply w ideal (objv fs p).
    Definition TI (count : nat) (pop fits : list vec) (log : list (trial N)) : Prop :=
      length pop = n /\ fits = map (objv fs) pop /\ NoDup (map t_pick log) /\ (forall t, In t log -> judged t) /\
      length (won log) = count /\ count <= maxReplace /\
      (forall k, In k (won log) -> nth_error pop k = Some x) /\
      (forall k, ~ In k (won log) -> nth_error pop k = nth_error old k).

    Lemma won_in : forall log k, In k (won log) -> In k (map t_pick log).
    Proof.
      intros log k I. unfold won in I. apply in_map_iff in I as (t & <- & I). apply filter_In in I as [I _]. apply in_map. exact I.
    Qed.

    Lemma trials_ok : forall (nb : bool) col idxs ks count pop fits log,
      TI count pop fits log -> map (fun i => if nb then nth_error col i else Some i) idxs = map Some ks ->
      NoDup ks -> (forall k, In k ks -> k < n /\ ~ In k (map t_pick log)) ->
      exists count' pop' fits' log',
        trials maxReplace apply weights nb col idxs ideal x (objv fs x) count pop fits log = Some (pop', fits', rev log') /\
        TI count' pop' fits' log' /\
        (forall k, In k (map t_pick log') -> In k ks \/ In k (map t_pick log)) /\
        (count' < maxReplace -> forall k, In k ks \/ In k (map t_pick log) -> In k (map t_pick log')).
    Proof.
      intros nb col idxs; induction idxs as [|i idxs IH]; intros [|k ks] count pop fits log HT HM ND HK; try discriminate.
      - exists count, pop, fits, log. split; [reflexivity|]. split; [exact HT|]. split; [auto|]. intros _ k [[]|H]; exact H.
      - cbn [trials]. destruct (Nat.leb_spec maxReplace count) as [HL|HL].
        + exists count, pop, fits, log. split; [reflexivity|]. split; [exact HT|]. split; [auto|lia].
        + cbn [map] in HM. injection HM as HG HM. rewrite HG. destruct (HK k) as [LK NK]; [left; reflexivity|].
          destruct HT as (T1 & T2 & T3 & T4 & T5 & T6 & T7 & T8).
          destruct (nth_error weights k) as [w|] eqn:EW; [|apply nth_error_None in EW; lia].
          destruct (nth_error pop k) as [p|] eqn:EP; [|apply nth_error_None in EP; lia].
          assert (EF : nth_error fits k = Some (objv fs p)) by (rewrite T2, nth_error_map, EP; reflexivity). rewrite EF.
          assert (NW : ~ In k (won log)) by (intros C; apply NK, won_in, C).
          assert (EO : nth_error old k = Some p) by (rewrite <- (T8 k NW); exact EP).
          set (t := {| t_pick := k; t_child := apply w ideal (objv fs x); t_parent := apply w ideal (objv fs p) |}).
          assert (JT : forall t', In t' (t :: log) -> judged t').
          { intros t' [<-|I]; [|apply T4; exact I]. exists w, p. repeat split; assumption. }
          assert (NDT : NoDup (map t_pick (t :: log))) by (cbn; constructor; assumption).
          apply NoDup_cons_iff in ND as [ND1 ND2].
          assert (HK' : forall k', In k' ks -> k' < n /\ ~ In k' (map t_pick (t :: log))).
          { intros k' I. destruct (HK k') as [A B]; [right; exact I|]. split; [exact A|]. cbn. intros [C|C]; [subst; contradiction|contradiction]. }
          assert (FIN : forall count' pop' fits' log' e,
            e = Some (pop', fits', rev log') /\ TI count' pop' fits' log' /\
            (forall k0, In k0 (map t_pick log') -> In k0 ks \/ In k0 (map t_pick (t :: log))) /\
            (count' < maxReplace -> forall k0, In k0 ks \/ In k0 (map t_pick (t :: log)) -> In k0 (map t_pick log')) ->
            e = Some (pop', fits', rev log') /\ TI count' pop' fits' log' /\
            (forall k0, In k0 (map t_pick log') -> In k0 (k :: ks) \/ In k0 (map t_pick log)) /\
            (count' < maxReplace -> forall k0, In k0 (k :: ks) \/ In k0 (map t_pick log) -> In k0 (map t_pick log'))).
          { intros count' pop' fits' log' e (A & B & C & D). split; [exact A|]. split; [exact B|]. split.
            - intros k0 I. destruct (C k0 I) as [J|[J|J]]; cbn; auto.
            - intros H k0 I. apply (D H). cbn in *. tauto. }
          destruct (nlt (t_child t) (t_parent t)) eqn:EL; cbn [t_child t_parent t] in EL; rewrite EL.
          * destruct (IH ks (count + 1) (set_nth k x pop) (set_nth k (objv fs x) fits) (t :: log)) as (c' & p' & f' & l' & R);
              [|exact HM|exact ND2|exact HK'|].
            { assert (WE : won (t :: log) = k :: won log) by (unfold won, wins; cbn [filter]; cbn [t_child t_parent t]; rewrite EL; reflexivity).
              split; [rewrite set_nth_length; exact T1|]. split; [rewrite map_set_nth, T2; reflexivity|]. split; [exact NDT|].
              split; [exact JT|]. rewrite WE. split; [cbn; lia|]. split; [lia|]. split.
              - intros k' [<-|I]; [apply set_nth_same; lia|]. rewrite set_nth_other; [apply T7; exact I|]. intros ->. contradiction.
              - intros k' I. cbn in I. rewrite set_nth_other by (intros ->; tauto). apply T8. tauto. }
            exists c', p', f', l'. apply FIN. exact R.
          * destruct (IH ks count pop fits (t :: log)) as (c' & p' & f' & l' & R); [|exact HM|exact ND2|exact HK'|].
            { assert (WE : won (t :: log) = won log) by (unfold won, wins; cbn [filter]; cbn [t_child t_parent t]; rewrite EL; reflexivity).
              split; [exact T1|]. split; [exact T2|]. split; [exact NDT|]. split; [exact JT|]. rewrite WE. repeat split; assumption. }
            exists c', p', f', l'. apply FIN. exact R.
    Qed.
  End Tr.
End P.
