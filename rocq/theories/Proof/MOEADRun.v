(** MOEA/D: a whole call. *)
From Coq Require Import List Arith Bool ZArith Lia Permutation.
From Verif.Base Require Import Num Vec SortIdx.
From Verif.Model Require Import SA Pareto NSGA2 MOEAD.
From Verif.Spec Require Import NSGA2Spec MOEADSpec.
From Verif.Proof Require Import SAProof ParetoProof NSGA2Proof MOEADProof.
Import ListNotations.

Lemma app_tail : forall (A : Type) (a b c' d' : list A), a ++ b = c' ++ d' -> length b = length d' -> b = d'.
Proof.
  intros A a; induction a as [|y a IHa]; intros b [|z c'] d' E L; cbn in E.
  - exact E.
  - subst. cbn in L. rewrite app_length in L. lia.
  - subst. cbn in L. rewrite app_length in L. lia.
  - injection E as -> E. eapply IHa; eauto.
Qed.
Lemma flat_chunk : forall {A} (f : nat -> list A) n, (forall g, length (f g) = n) ->
  forall k b g, g < k -> firstn n (skipn (g * n) (flat_map f (seq b k))) = f (b + g).
Proof.
  intros A f n H k; induction k as [|k IH]; intros b g L; [lia|]. cbn [seq flat_map].
  destruct g as [|g].
  - cbn [Nat.mul skipn]. rewrite firstn_app, H, Nat.sub_diag. cbn [firstn]. rewrite app_nil_r, Nat.add_0_r.
    rewrite <- (H b) at 1. apply firstn_all.
  - rewrite skipn_app, H. replace (S g * n - n) with (g * n) by (cbn; lia).
    rewrite skipn_all2 by (rewrite H; cbn; lia). cbn [app]. rewrite IH by lia. f_equal. lia.
Qed.
Lemma flat_len : forall {A} (f : nat -> list A) n, (forall g, length (f g) = n) -> forall k b, length (flat_map f (seq b k)) = k * n.
Proof. intros A f n H k; induction k as [|k IH]; intros b; [reflexivity|]. cbn [seq flat_map]. rewrite app_length, H, IH. cbn. lia. Qed.

Section R.
  Context {N : Num}.
  Variable OL : OrdLaws N.
  Notation vec := (list N).
  Variables (n maxGen : nat) (cp np : N) (ns : nat) (di dw : N) (maxReplace : nat) (lb ub : vec)
    (apply : vec -> vec -> vec -> N) (weights : list vec) (fs : list (vec -> N)) (stop : list (nev N) -> bool)
    (npow : N -> N -> N) (ssort : list N -> list nat) (init : nat -> vec) (shuf shuf_front : nat -> list nat)
    (rnd : nat -> nat -> @mdraws N) (rows : nat) (x : vec).
  Hypothesis G : moead_good n ns np lb ub weights fs ssort init shuf shuf_front rnd x.
  Let lo := spread (length x) lb.
  Let hi := spread (length x) ub.
  Let nb_ := nbr weights ssort ns.
  Let nbrs := map nb_ (seq 0 n).
  Variable P0 : list vec.
  Notation run := (run_ok n maxReplace lo hi apply weights fs nb_).

  Lemma nb_near : forall i, i < n -> nearest weights ns i (self weights ssort i) (nb_ i).
  Proof. apply (nbr_nearest OL); apply G. Qed.
  Lemma nbrs_at : forall i, i < n -> nth_error nbrs i = Some (nb_ i).
  Proof.
    intros i Hi. unfold nbrs. rewrite nth_error_map. rewrite (nth_error_nth' _ 0) by (rewrite seq_length; lia).
    rewrite seq_nth by lia. reflexivity.
  Qed.

  Lemma reproduce_within : forall w p1 p2 p3, length (w_blank w) = length x ->
    within lo hi (reproduce cp di dw npow w rows lo hi p1 p2 p3).
  Proof.
    intros w p1 p2 p3 L. destruct (mg_bounds _ _ _ _ _ _ _ _ _ _ _ _ _ G) as (B1 & B2 & B3). fold lo in B1, B3. fold hi in B2, B3.
    unfold reproduce, polynomial. apply (clip_within OL); [lia| |exact B3].
    rewrite (set_fold_length (fun c' i => mutated_gene di npow w rows lo hi c' i)). unfold crossed.
    rewrite (set_fold_length (fun c i => de_gene cp dw w lo hi p1 p2 p3 i)). lia.
  Qed.

  Definition inv (s : @mst N) : Prop :=
    run P0 P0 (rev (m_log s)) (m_pop s) /\ m_fits s = map (objv fs) (m_pop s) /\ length (m_pop s) = n /\
    (forall p, In p (m_pop s) -> within lo hi p) /\
    least_of (length fs) (m_ideal s) (map (objv fs) (map c_x (m_log s) ++ P0)).

  Lemma run_snoc : forall log pop seen mid c, run pop seen log mid -> c_old c = mid ->
    child_ok n maxReplace lo hi apply weights fs nb_ (rev (map c_x log) ++ seen) c ->
    run pop seen (log ++ [c]) (c_new c).
  Proof.
    intros log; induction log as [|a log IH]; intros pop seen mid c H E C; cbn [run_ok app] in *.
    - split; [congruence|]. split; [exact C|reflexivity].
    - destruct H as (H1 & H2 & H3). split; [exact H1|]. split; [exact H2|]. eapply IH; [exact H3|exact E|].
      cbn [map rev] in C. rewrite <- app_assoc in C. exact C.
  Qed.

  Lemma child_step : forall w sub s, good_mdraws n ns (length x) np w -> sub < n -> inv s ->
    exists s' c, one_child n cp np ns di dw maxReplace apply weights fs npow rows lo hi nbrs w sub s = Some s' /\
      inv s' /\ m_log s' = c :: m_log s /\ c_sub c = sub /\ m_tr s' = m_tr s.
  Proof.
    intros w sub s (W1 & W2 & W3) HS (I1 & I2 & I3 & I4 & I5). unfold one_child. set (nb := nlt (w_nb w) np) in *. cbv zeta in W3.
    rewrite nbrs_at by exact HS. destruct (nb_near sub HS) as (K1 & K2 & K3 & K4 & K5 & _).
    assert (LW : length weights = n) by apply G. rewrite LW in K5.
    destruct (mating_ok n (nb_ sub) nb (w_a w) (w_b w)) as (a & b & EM & NE & LA & LB); [apply G|exact K5| | |].
    { destruct nb; [rewrite K1|]; tauto. } { destruct nb; [rewrite K1|]; tauto. }
    rewrite EM.
    destruct (nth_error (m_pop s) sub) as [p1|] eqn:E1; [|apply nth_error_None in E1; lia].
    destruct (nth_error (m_pop s) a) as [p2|] eqn:E2; [|apply nth_error_None in E2; lia].
    destruct (nth_error (m_pop s) b) as [p3|] eqn:E3; [|apply nth_error_None in E3; lia].
    pose proof (reproduce_within w p1 p2 p3 W2) as WI. set (y := reproduce _ _ _ _ _ _ _ _ _ _ _) in *.
    cbv zeta. rewrite evaluated_eq. cbn [map nth].
    set (ideal := vmin (m_ideal s) (objv fs y)).
    set (idxs := w_shuf w (if nb then ns else n)).
    set (pool := if nb then nb_ sub else seq 0 n).
    set (ks := map (fun i => nth i pool 0) idxs).
    assert (LP : length pool = if nb then ns else n) by (unfold pool; destruct nb; [exact K1|apply seq_length]).
    assert (NDP : NoDup pool) by (unfold pool; destruct nb; [exact K2|apply seq_NoDup]).
    assert (LTP : forall k, In k pool -> k < n).
    { intros k I. unfold pool in I. destruct nb; [apply K5; exact I|apply in_seq in I; lia]. }
    assert (PI : Permutation idxs (seq 0 (length pool))) by (unfold idxs; rewrite LP; apply W1).
    assert (PP : Permutation ks pool).
    { unfold ks. rewrite (Permutation_map (fun i => nth i pool 0) PI).
      assert (Q : forall l : list nat, map (fun i => nth i l 0) (seq 0 (length l)) = l).
      { intros l. apply nth_ext with (d := 0) (d' := 0); [rewrite map_length, seq_length; reflexivity|].
        intros i. rewrite map_length, seq_length. intros Hi.
        rewrite (nth_indep _ 0 (nth 0 l 0)) by (rewrite map_length, seq_length; lia).
        rewrite (map_nth (fun i => nth i l 0)), seq_nth by lia. reflexivity. }
      rewrite Q. reflexivity. }
    assert (HM : map (fun i => if nb then nth_error (nb_ sub) i else Some i) idxs = map Some ks).
    { unfold ks. rewrite map_map. apply map_ext_in. intros i I. apply (Permutation_in _ PI), in_seq in I.
      unfold pool in *. destruct nb.
      - apply nth_error_nth'. lia.
      - rewrite seq_length in I. rewrite seq_nth by lia. reflexivity. }
    destruct (trials_ok n maxReplace apply weights fs LW ideal y (m_pop s) nb (nb_ sub) idxs ks 0 (m_pop s) (m_fits s) [])
      as (c' & p' & f' & l' & ET & TT & T1 & T2).
    { split; [exact I3|]. split; [exact I2|]. split; [constructor|]. split; [intros t []|]. split; [reflexivity|].
      split; [lia|]. split; [intros k []|reflexivity]. }
    { exact HM. } { eapply Permutation_NoDup; [symmetry; exact PP|exact NDP]. }
    { intros k I. split; [apply LTP, (Permutation_in _ PP), I|intros []]. }
    rewrite ET. destruct TT as (A1 & A2 & A3 & A4 & A5 & A6 & A7 & A8).
    do 2 eexists. split; [reflexivity|]. cbn [m_log m_tr]. split; [|split; [reflexivity|split; [reflexivity|reflexivity]]].
    assert (IL : least_of (length fs) ideal (map (objv fs) (y :: map c_x (m_log s) ++ P0))).
    { cbn [map]. apply (vmin_least OL); [exact I5|]. unfold objv. apply map_length. }
    assert (WR : forall l, map t_pick (filter (fun t : trial N => nlt (t_child t) (t_parent t)) (rev l)) = rev (won l)).
    { intros l. rewrite filter_rev', map_rev. reflexivity. }
    split; [|split; [exact A2|split; [exact A1|split]]].
    - cbn [m_log m_pop rev]. eapply run_snoc; [exact I1|reflexivity|]. cbn [c_new c_old c_x].
      rewrite map_rev, rev_involutive. unfold child_ok. cbn [c_nb c_sub c_trials c_x c_a c_b c_ideal c_old c_new].
      fold pool. rewrite !WR, !map_rev. split; [exact WI|]. split; [exact NE|]. split; [exact LA|]. split; [exact LB|].
      split; [exact HS|]. split; [exact IL|]. split; [apply NoDup_rev; exact A3|].
      split. { intros k I. apply in_rev in I. destruct (T1 k I) as [J|[]]. apply (Permutation_in _ PP), J. }
      split. { intros t I. apply in_rev in I. apply A4. exact I. }
      rewrite rev_length. split; [lia|].
      split. { intros L k I. apply -> in_rev. apply T2; [lia|]. left. apply (Permutation_in _ (Permutation_sym PP)), I. }
      split; [exact A1|]. split; intros k I.
      + apply in_rev in I. apply A7, I.
      + apply A8. intros J. apply I. apply -> in_rev. exact J.
    - cbn [m_pop]. intros p I. apply In_nth_error in I as [k K].
      destruct (in_dec Nat.eq_dec k (won l')) as [J|J].
      + rewrite (A7 k J) in K. injection K as <-. exact WI.
      + rewrite (A8 k J) in K. apply I4. eapply nth_error_In; eauto.
    - cbn [m_ideal m_log map c_x]. exact IL.
  Qed.

  Lemma pass_ok : forall gen subs j s, (forall k, In k subs -> k < n) -> inv s ->
    exists s', pass n cp np ns di dw maxReplace apply weights fs npow rnd rows lo hi nbrs gen j subs s = Some s' /\
      inv s' /\ map c_sub (rev (m_log s')) = map c_sub (rev (m_log s)) ++ subs /\ m_tr s' = m_tr s.
  Proof.
    intros gen subs; induction subs as [|k subs IH]; intros j s HS I.
    - exists s. cbn [pass]. split; [reflexivity|]. split; [exact I|]. split; [rewrite app_nil_r|]; reflexivity.
    - cbn [pass]. destruct (child_step (rnd gen j) k s) as (s1 & c & E1 & I1 & L1 & C1 & T1);
        [apply G|apply HS; left; reflexivity|exact I|]. rewrite E1.
      destruct (IH (j + 1) s1) as (s2 & E2 & I2 & L2 & T2); [intros; apply HS; right; assumption|exact I1|].
      exists s2. split; [exact E2|]. split; [exact I2|]. split; [|congruence].
      rewrite L2, L1. cbn [rev]. rewrite map_app, <- app_assoc. cbn [map app]. rewrite C1. reflexivity.
  Qed.

  Lemma gens_ok : forall k gen s, inv s ->
    exists s' gs, mgenerations n cp np ns di dw maxReplace apply weights fs stop npow shuf shuf_front rnd k gen rows lo hi nbrs x false s = Some s' /\
      inv s' /\ m_tr s' = gs ++ m_tr s /\ (forall e, In e gs -> gen_event n lo hi fs x e) /\ length gs <= k /\
      map c_sub (rev (m_log s')) = map c_sub (rev (m_log s)) ++ flat_map shuf (seq gen (length gs)) /\
      (forall e newer older, m_tr s' = newer ++ e :: older -> newer <> [] -> length older >= length (m_tr s) -> stop (e :: older) = false) /\
      (length gs < k -> stop (m_tr s') = true).
  Proof.
    intros k; induction k as [|k IH]; intros gen s I.
    - exists s, []. cbn [mgenerations]. split; [reflexivity|]. split; [exact I|]. split; [reflexivity|]. split; [intros e []|].
      split; [cbn; lia|]. split; [cbn [length seq flat_map]; rewrite app_nil_r; reflexivity|]. split; [|cbn; lia].
      intros e newer older E NE LE. exfalso. rewrite E in LE. destruct newer; [congruence|]. cbn in LE. rewrite app_length in LE. cbn in LE. lia.
    - cbn [mgenerations]. destruct (pass_ok gen (shuf gen) 0 s) as (s1 & E1 & I1 & L1 & T1); [|exact I|].
      { intros i J. apply (Permutation_in _ (mg_shuf _ _ _ _ _ _ _ _ _ _ _ _ _ G gen)), in_seq in J. lia. }
      rewrite E1. cbv zeta. set (e1 := NGen x (m_fits s1) [shuf_front gen]). rewrite T1.
      set (s2 := {| m_pop := m_pop s1; m_fits := m_fits s1; m_ideal := m_ideal s1; m_log := m_log s1; m_tr := e1 :: m_tr s |}).
      assert (GE : gen_event n lo hi fs x e1).
      { exists (m_pop s1), (shuf_front gen). destruct I1 as (_ & J2 & J3 & J4 & _). unfold e1. rewrite J2.
        split; [reflexivity|]. split; [exact J3|]. split; [exact J4|]. apply G. }
      destruct (stop (e1 :: m_tr s)) eqn:ST.
      + exists s2, [e1]. assert (E2 : mgenerations n cp np ns di dw maxReplace apply weights fs stop npow shuf shuf_front rnd k (gen + 1) rows lo hi nbrs x true s2 = Some s2)
          by (destruct k; reflexivity). rewrite E2. split; [reflexivity|]. split; [exact I1|]. split; [reflexivity|].
        split; [intros e [<-|[]]; exact GE|]. split; [cbn; lia|].
        split; [cbn [length seq flat_map m_log s2]; rewrite app_nil_r; exact L1|]. split; [|intros _; exact ST].
        intros e newer older E NE LE. exfalso. cbn [m_tr s2] in E. destruct newer as [|a newer]; [congruence|].
        cbn in E. injection E as _ E. rewrite E in LE. rewrite app_length in LE. cbn in LE. lia.
      + destruct (IH (gen + 1) s2 I1) as (s3 & gs & E3 & I3 & T3 & G3 & N3 & L3 & S3 & F3).
        exists s3, (gs ++ [e1]). split; [exact E3|]. split; [exact I3|].
        split; [rewrite T3; cbn [m_tr s2]; rewrite <- app_assoc; reflexivity|].
        split; [intros e J; apply in_app_or in J as [J|[<-|[]]]; [apply G3; exact J|exact GE]|].
        rewrite app_length. cbn [length]. split; [lia|].
        split. { rewrite L3. cbn [m_log s2]. rewrite L1, <- app_assoc, !Nat.add_1_r. reflexivity. }
        split.
        * intros e newer older E NE LE. destruct (Nat.lt_ge_cases (length older) (length (m_tr s2))) as [LO|LO].
          -- assert (X : e :: older = m_tr s2).
             { rewrite T3 in E. symmetry. eapply app_tail; [exact E|]. cbn [m_tr s2 length] in *. lia. }
             rewrite X. exact ST.
          -- eapply S3; eauto.
        * intros H. apply F3. lia.
  Qed.
End R.

Lemma performance_eq : forall {N : Num} (fs : list (list N -> N)) (fits : list (list N)), length fs <= length fits ->
  mperformance fs fits = Some (fold_left (fun best o => if nlt (vsum o) best then vsum o else best) (firstn (length fs) fits) nmax).
Proof.
  intros N fs fits. unfold mperformance. generalize (length fs) as m. intros m.
  assert (X : forall m (l : list (list N)) off b, off + m <= length l ->
    fold_left (fun best i => match best, nth_error l i with
                             | Some best, Some f => Some (if nlt (vsum f) best then vsum f else best) | _, _ => None end)
      (seq off m) (Some b) = Some (fold_left (fun best o => if nlt (vsum o) best then vsum o else best) (firstn m (skipn off l)) b)).
  { clear. intros m l; induction m as [|m IH]; intros off b H; [reflexivity|]. cbn [seq fold_left].
    destruct (nth_error l off) as [f|] eqn:E; [|apply nth_error_None in E; lia].
    rewrite IH by lia. f_equal.
    assert (Y : skipn off l = f :: skipn (S off) l).
    { clear - E. revert l E. induction off as [|off IH]; intros [|a l] E; cbn in E; try discriminate; [injection E as <-; reflexivity|].
      cbn [skipn]. apply IH. exact E. }
    rewrite Y. reflexivity. }
  intros H. apply (X m fits 0 nmax). exact H.
Qed.

Lemma moead_ok : forall (N : Num), OrdLaws N ->
  forall n maxGen (cp np : N) ns (di dw : N) maxReplace (lb ub : list N) apply weights fs stop npow ssort init shuf shuf_front rnd rows x,
  moead_good n ns np lb ub weights fs ssort init shuf shuf_front rnd x ->
  exists r, moead n maxGen cp np ns di dw maxReplace lb ub apply weights fs stop npow ssort init shuf shuf_front rnd rows x = NRet r /\
    moead_reported n ns maxGen maxReplace lb ub apply weights fs stop x r.
Proof.
  intros N OL n maxGen cp np ns di dw maxReplace lb ub apply weights fs stop npow ssort init shuf shuf_front rnd rows x G.
  pose proof G as [G1 G2 G3 G4 G5 G6 G7 G8 G9 G10 G11 G12].
  unfold moead. destruct (Nat.ltb_spec n 3); [lia|]. destruct (Nat.ltb_spec ns 2); [lia|]. destruct (Nat.ltb_spec (n - 1) ns); [lia|].
  rewrite (all_some_map _ (nbr weights ssort ns)).
  2:{ intros i I. apply in_seq in I. eapply neighbours_eq; eauto; lia. }
  cbv zeta. set (lo := spread (length x) lb) in *. set (hi := spread (length x) ub) in *.
  set (pop := map (fun i => clip _ _ _) (seq 0 n)).
  assert (LP : length pop = n) by (unfold pop; rewrite map_length, seq_length; reflexivity).
  assert (WP : forall p, In p pop -> within lo hi p).
  { intros p I. unfold pop in I. apply in_map_iff in I as (i & <- & _). destruct G5 as (B1 & B2 & B3).
    apply (clip_within OL); [lia| |exact B3]. unfold vadd. rewrite map2_length, map_length, G9. lia. }
  rewrite evaluated_eq.
  set (s0 := {| m_pop := pop; m_fits := map (objv fs) pop; m_ideal := _; m_log := []; m_tr := [NBegin x] |}).
  assert (I0 : inv n ns maxReplace lb ub apply weights fs ssort x pop s0).
  { split; [reflexivity|]. split; [reflexivity|]. split; [exact LP|]. split; [exact WP|]. cbn [m_ideal m_log s0 map app].
    rewrite <- (app_nil_r (map (objv fs) pop)) at 2. apply (ideal_least OL); [apply (least_start OL)|].
    intros o I. apply in_map_iff in I as (p & <- & _). unfold objv. apply map_length. }
  destruct (gens_ok OL n cp np ns di dw maxReplace lb ub apply weights fs stop npow ssort init shuf shuf_front rnd rows x G pop maxGen 1 s0 I0)
    as (s & gs & E & (J1 & J2 & J3 & J4 & _) & T & GE & LG & LS & S & F).
  fold lo hi in E. rewrite E. rewrite performance_eq by (rewrite J2, map_length, J3; lia).
  destruct (m_pop s) as [|first rest] eqn:EP; [cbn in J3; lia|].
  eexists. split; [reflexivity|]. unfold moead_reported. cbn [q_init q_set q_x q_log q_front q_val q_tr].
  fold lo hi. split; [exact LP|]. split; [exact J3|].
  split. { intros p [<-|I]; [apply J4; left; reflexivity|]. apply in_app_or in I as [I|I]; [apply J4; exact I|apply WP; exact I]. }
  split. { exists (nbr weights ssort ns), (self weights ssort). split; [|exact J1]. apply (nbr_nearest OL); assumption. }
  split; [exact J2|]. split; [reflexivity|].
  destruct (performance_ok OL (firstn (length fs) (m_fits s)) nmax) as [V1 V2]. cbv zeta in V1, V2.
  assert (FM : firstn (length fs) (m_fits s) = map (objv fs) (firstn (length fs) (first :: rest))) by (rewrite J2, firstn_map; reflexivity).
  split. { intros p I. apply V1. rewrite FM. apply in_map. exact I. }
  split. { destruct V2 as [V2|[_ (o & I & V2)]]; [left; exact V2|right]. rewrite FM in I. apply in_map_iff in I as (p & <- & I). eauto. }
  exists gs. split. { rewrite T. cbn [m_tr s0 rev]. rewrite rev_app_distr. reflexivity. }
  split; [exact GE|]. split; [exact LG|]. cbn [m_log s0 rev map app] in LS.
  assert (LSH : forall g, length (shuf g) = n) by (intros g; rewrite (Permutation_length (G10 g)), seq_length; reflexivity).
  split. { rewrite <- (map_length c_sub), LS. apply flat_len. exact LSH. }
  split. { intros g Hg. rewrite LS, (flat_chunk shuf n LSH) by exact Hg. apply G10. }
  split.
  - intros e newer older E2 NE. apply (S e newer (older ++ [NBegin x])); [|exact NE|rewrite app_length; cbn; lia].
    rewrite T, E2. cbn [m_tr s0]. rewrite <- app_assoc. reflexivity.
  - intros H2. rewrite <- (F H2), T. reflexivity.
Qed.
