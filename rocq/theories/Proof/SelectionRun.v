(** Who survives a generation of NSGA-II. *)
From Coq Require Import List Arith Bool Reals Lra Lia Permutation Sorted.
From Verif.Base Require Import Num Vec Instances.
From Verif.Model Require Import SA Pareto NSGA2.
From Verif.Spec Require Import ParetoSpec NSGA2Spec AGEMOEASpec SelectionSpec.
From Verif.Proof Require Import SAProof ParetoProof ParetoMore NSGA2Proof AGEMOEARun SelectionProof.
Import ListNotations.

(** ** counting *)
Lemma filter_all : forall {A} (f : A -> bool) l, (forall a, In a l -> f a = true) -> length (filter f l) = length l.
Proof.
  intros A f l H. induction l as [|a l IH]; [reflexivity|]. cbn. rewrite H by (left; reflexivity). cbn. f_equal.
  apply IH. intros b Hb. apply H; right; exact Hb.
Qed.
Lemma filter_perm : forall {A} (f : A -> bool) l l', Permutation l l' -> length (filter f l) = length (filter f l').
Proof.
  intros A f l l' P. induction P as [|a l l' P IH|a b l|l l' l'' P1 IH1 P2 IH2]; cbn; [reflexivity| | |congruence].
  - destruct (f a); cbn; congruence.
  - destruct (f a), (f b); reflexivity.
Qed.
Lemma filter_some : forall {A} (f : A -> bool) l a, In a l -> f a = true -> 1 <= length (filter f l).
Proof.
  intros A f l a Hin Hf. assert (H : In a (filter f l)) by (apply filter_In; auto). destruct (filter f l); [destruct H|cbn; lia].
Qed.
Lemma filter_none : forall {A} (f : A -> bool) l, (forall a, In a l -> f a = false) -> length (filter f l) = 0.
Proof.
  intros A f l H. induction l as [|a l IH]; [reflexivity|]. cbn. rewrite H by (left; reflexivity).
  apply IH. intros b Hb. apply H; right; exact Hb.
Qed.

Lemma filter_length_le : forall {A} (f : A -> bool) l, length (filter f l) <= length l.
Proof. intros A f l. induction l as [|a l IH]; cbn; [lia|]. destruct (f a); cbn; lia. Qed.

(** ** keeping n of a sorted list, given two classes *)
Lemma keep_class : forall {A} (lt : A -> A -> bool) (good : A -> bool) n (kept dropped parents children : list A),
  Permutation (kept ++ dropped) (parents ++ children) -> length kept = n -> length parents = n -> n <= length children ->
  (forall a b, In a kept -> In b dropped -> lt b a = false) ->
  forall p, In p (parents ++ children) ->
  (* everything p does not come before is a parent *)
  (good p = true -> (forall a, In a kept -> good a = false -> lt p a = true) -> (forall c, In c children -> good c = false) -> In p kept) .
Proof.
  intros A lt good n kept dropped parents children P LK LP LC S p Hp Gp Better GC.
  apply (Permutation_in _ (Permutation_sym P)) in Hp. apply in_app_or in Hp. destruct Hp as [Hp|Hp]; [exact Hp|exfalso].
  assert (AK : forall a, In a kept -> good a = true).
  { intros a Ha. destruct (good a) eqn:E; [reflexivity|]. assert (X := S a p Ha Hp). rewrite (Better a Ha E) in X. discriminate. }
  assert (C := filter_perm good _ _ P). rewrite !filter_app, !app_length in C.
  rewrite (filter_all good kept AK), (filter_none good children GC) in C.
  assert (X := filter_some good dropped p Hp Gp). assert (Y := filter_length_le good parents). lia.
Qed.
Lemma drop_class : forall {A} (lt : A -> A -> bool) (bad : A -> bool) n (kept dropped parents children : list A),
  Permutation (kept ++ dropped) (parents ++ children) -> length kept = n -> n <= length children ->
  (forall a b, In a kept -> In b dropped -> lt b a = false) ->
  forall p, bad p = true -> (forall b, In b dropped -> bad b = false -> lt b p = true) ->
  (forall c, In c children -> bad c = false) -> ~ In p kept.
Proof.
  intros A lt bad n kept dropped parents children P LK LC S p Bp Better BC Hp.
  assert (AD : forall b, In b dropped -> negb (bad b) = false).
  { intros b Hb. destruct (bad b) eqn:E; [reflexivity|]. assert (X := S p b Hp Hb). rewrite (Better b Hb E) in X. discriminate. }
  assert (C := filter_perm (fun a => negb (bad a)) _ _ P). rewrite !filter_app, !app_length in C.
  rewrite (filter_none _ dropped AD) in C.
  rewrite (filter_all (fun a => negb (bad a)) children) in C by (intros c Hc; rewrite BC by exact Hc; reflexivity).
  assert (X : length (filter (fun a => negb (bad a)) kept) < length kept).
  { clear - Hp Bp. induction kept as [|a kept IH]; [destruct Hp|]. cbn. destruct Hp as [->|Hp].
    - rewrite Bp. cbn. assert (Y := filter_length_le (fun a => negb (bad a)) kept). lia.
    - specialize (IH Hp). destruct (negb (bad a)); cbn; lia. }
  lia.
Qed.

(** the position found for an individual is the last one it stands at *)
Lemma find_last_last : forall (N : Num) (eps : N) (pop : list (list N)) i, i < length pop ->
  (forall a : N, nle (nabs (nsub a a)) eps = true) ->
  (forall p q, In p pop -> In q pop -> approx_equal eps p q = true -> p = q) ->
  i <= find_last eps pop (nth i pop []).
Proof.
  intros N eps pop i Hi HR HE.
  assert (AR : forall y : list N, approx_equal eps y y = true).
  { intros y. unfold approx_equal. apply forallb_forall. intros [a b] H.
    assert (a = b). { clear - H. induction y as [|c y IH]; cbn in H; [contradiction|]. destruct H as [[= <- <-]|H]; auto. }
    subst. apply HR. }
  unfold find_last. replace (seq 0 (length pop)) with (seq 0 i ++ seq i (length pop - i)).
  2:{ rewrite <- seq_app. f_equal. lia. }
  rewrite fold_left_app. destruct (length pop - i) as [|k] eqn:E; [lia|]. cbn [seq fold_left]. rewrite AR.
  assert (G : forall l k0, (forall j, In j l -> i <= j) -> i <= k0 ->
     i <= fold_left (fun k i0 => if approx_equal eps (nth i0 pop []) (nth i pop []) then i0 else k) l k0).
  { intros l; induction l as [|j l IH]; intros k0 H H0; cbn; [exact H0|]. apply IH; [intros j' Hj'; apply H; right; exact Hj'|].
    destruct approx_equal; [apply H; left; reflexivity|exact H0]. }
  apply G; [|lia]. intros j Hj. apply in_seq in Hj. lia.
Qed.

Section Gen.
  Variable mx : R.
  Notation RN := (RNum mx).
  Notation vec := (list RN).
  Variable mx_pos : (0 < mx)%R.
  Variable n : nat.
  Variables (cp mp ms eps : RN).
  Variables (lo hi : vec).
  Variable d : nat.
  Hypothesis PB : proper_bounds d lo hi.
  Variable rnd : nat -> nat -> @draws RN.
  Hypothesis GD : forall g j, good_draws n d (rnd g j).
  Variable fs : list (vec -> RN).
  Variable stop : list (nev RN) -> bool.
  Variable sortp : (vec -> vec -> bool) -> list vec -> list vec.
  Variable sorti : (nat -> nat -> bool) -> list nat -> list nat.
  Hypothesis sort_p : is_sort sortp.
  Hypothesis sort_i : is_sort sorti.
  Hypothesis eps_ok : (0 <= eps)%R.
  Hypothesis fs_ok : fs <> [].

  Definition ranks_ok (s : @nst RN) : Prop := forall i, n <= i -> nth i (n_ranks s) 0 = 0.

  Lemma crowding_swo : forall ranks (cd : vec) (idx : vec -> nat) l,
    strict_weak (fun p q => crowding_operator ranks cd (idx p) (idx q)) l.
  Proof. exact (survival_swo (R_ord mx) (fun _ => eq_refl)). Qed.

  (** what becomes of the parents of a generation *)
  Definition survivors (parents children pop dropped : list vec) : Prop :=
    n <= length children /\ (exists fuel gen, NSGA2.children n cp mp ms rnd fuel gen 0 lo hi parents [] = NRet children) /\ Permutation (pop ++ dropped) (parents ++ children) /\
    (apart eps (parents ++ children) -> tie_free (map (objv fs) parents) (length fs) (seq 0 n) ->
     forall i, i < n -> ~ In (nth i parents []) children -> (In (nth i parents []) pop <-> best_in fs parents i)).

  Lemma approx_eq : forall l : list vec, apart eps l ->
    forall p q, In p l -> In q l -> approx_equal eps p q = true -> p = q.
  Proof.
    intros l A p q Hp Hq E. destruct (list_eq_dec Req_EM_T p q) as [H|H]; [exact H|exfalso].
    destruct (A p q Hp Hq H) as (k & a & b & E1 & E2 & L). unfold approx_equal in E. rewrite forallb_forall in E.
    assert (Hin : In (a, b) (combine p q)).
    { clear - E1 E2. revert p q E1 E2. induction k as [|k IH]; intros [|x p] [|y q]; cbn; try discriminate.
      - intros [= ->] [= ->]. left; reflexivity.
      - intros H1 H2. right. apply IH; assumption. }
    specialize (E _ Hin). cbn in E. unfold Rleb in E. destruct Rle_dec as [H'|H']; [|discriminate].
    assert (L' : (eps < Rabs (a - b))%R) by exact L. lra.
  Qed.

  Lemma generation_keeps : forall fuel gen x s s', 4 <= n -> n < fuel -> good_pop n lo hi (n_pop s) -> ranks_ok s ->
    generation n cp mp ms eps fs rnd sortp sorti fuel gen lo hi x s = NRet s' ->
    ranks_ok s' /\ n_parents s' = n_pop s /\ exists children dropped, survivors (n_pop s) children (n_pop s') dropped.
  Proof.
    intros fuel gen x s s' Hn HF [GL GW] RK E. unfold generation in E.
    destruct (children_ok (R_ord mx) n cp mp ms lo hi d PB rnd GD fuel gen 0 (n_pop s) []) as (cs & EC & LC & WC).
    { exact Hn. } { exact GL. }
    { intros y Hy. destruct (GW y Hy) as [L _]. destruct PB as [P1 _]. lia. }
    { intros y []. } { apply Nat.le_trans with n; [apply Nat.eq_le_incl; exact GL|lia]. }
    rewrite EC in E. cbv zeta in E.
    set (pop := n_pop s ++ cs) in *.
    assert (LP : length pop = n + length cs) by (unfold pop; rewrite app_length; lia).
    rewrite evaluate_table in E by lia.
    assert (EF : firstn n pop = n_pop s).
    { unfold pop. rewrite firstn_app, GL, Nat.sub_diag, firstn_O, app_nil_r. apply firstn_all2. apply Nat.eq_le_incl. exact GL. }
    rewrite EF in E.
    set (tab := map (objv fs) (n_pop s)) in *.
    set (objs := tab ++ repeat (repeat n0 (length fs)) (length pop - n)) in *.
    assert (LT : length tab = n) by (unfold tab; rewrite map_length; exact GL).
    assert (TB : table (length fs) objs).
    { intros P HP. apply in_app_or in HP. destruct HP as [HP|HP].
      - apply in_map_iff in HP. destruct HP as (p & <- & _). split; [apply map_length|]. intros a _. reflexivity.
      - apply repeat_spec in HP. subst P. split; [apply repeat_length|]. intros a _. reflexivity. }
    destruct (fnds_table RN (R_ord mx) (length fs) n objs fuel (resize 0 (length pop) (n_ranks s)))
      as (fronts & ranks & EQ & PF & LR & IR & OR).
    { exact TB. } { unfold objs. rewrite app_length. lia. } { rewrite resize_length. lia. } { exact HF. }
    rewrite EQ in E. injection E as <-. cbn [n_pop n_parents n_ranks].
    assert (RO : forall i, n <= i -> nth i ranks 0 = 0).
    { intros i Hi. specialize (OR i Hi). destruct (nth_error (resize 0 (length pop) (n_ranks s)) i) as [r|] eqn:Er.
      - rewrite (nth_error_nth _ _ _ OR). apply nth_error_nth with (d := 0) in Er. rewrite <- Er. unfold resize.
        destruct (le_lt_dec (length (firstn (length pop) (n_ranks s))) i) as [H|H].
        + rewrite app_nth2 by exact H. apply nth_repeat.
        + rewrite app_nth1 by exact H. transitivity (nth i (n_ranks s) 0); [|apply RK; exact Hi].
          transitivity (nth i (firstn (length pop) (n_ranks s) ++ skipn (length pop) (n_ranks s)) 0).
          * rewrite app_nth1 by exact H. reflexivity.
          * rewrite firstn_skipn. reflexivity.
      - apply nth_error_None in OR. apply nth_overflow. exact OR. }
    split; [exact RO|]. split; [reflexivity|].
    set (cd := fold_left (crowding fs sorti objs) fronts (repeat n0 (length pop))).
    set (idx := find_last eps pop).
    match goal with |- context [sortp ?c pop] => set (lt := c) end.
    destruct sort_p as [SP SS].
    assert (LS : n <= length (sortp lt pop)) by (rewrite (Permutation_length (SP lt pop)); lia).
    exists cs, (skipn n (sortp lt pop)). rewrite resize_firstn by exact LS.
    assert (PM : Permutation (firstn n (sortp lt pop) ++ skipn n (sortp lt pop)) (n_pop s ++ cs)) by (rewrite firstn_skipn; apply SP).
    assert (LCn : n <= length cs) by lia.
    split; [exact LCn|]. split; [eauto|]. split; [exact PM|].
    intros AP TF i Hi NC. fold pop in AP.
    assert (HR : forall a : RN, nle (nabs (nsub a a)) eps = true).
    { intros a. cbn. unfold Rleb. destruct Rle_dec as [H|H]; [reflexivity|exfalso; apply H].
      rewrite Rminus_diag_eq, Rabs_R0 by reflexivity. exact eps_ok. }
    assert (HE := approx_eq pop AP).
    assert (Srt : forall a b, In a (firstn n (sortp lt pop)) -> In b (skipn n (sortp lt pop)) -> lt b a = false).
    { apply sorted_split. apply SS. unfold lt. apply (crowding_swo ranks cd idx pop). }
    assert (IX : forall p, In p pop -> idx p < length pop /\ nth (idx p) pop [] = p).
    { intros p Hp. apply find_last_ok; assumption. }
    (* a child stands at a position past the parents *)
    assert (IC : forall c, In c cs -> n <= idx c).
    { intros c Hc. apply In_nth with (d := []) in Hc. destruct Hc as (j & Hj & <-).
      assert (Hnj : n + j < length pop) by lia.
      assert (X := find_last_last RN eps pop (n + j) Hnj HR HE).
      assert (Ej : nth (n + j) pop [] = nth j cs []).
      { unfold pop. rewrite app_nth2 by lia. f_equal. lia. }
      rewrite Ej in X. unfold idx. lia. }
    (* crowding distances *)
    assert (FV : forall m j, j < n -> fval objs m j = fval tab m j).
    { intros m j Hj. unfold fval, objs. rewrite app_nth1 by lia. reflexivity. }
    assert (FL : forall k j, in_front fronts k j -> j < n) by (intros k j Hk; eapply front_lt; eauto).
    destruct (crowding_fronts mx mx_pos sorti sort_i fs objs fronts (repeat 0%R (length pop))) as (LD & OD & ID).
    { apply (pf_some _ _ _ PF). } { apply (pf_once _ _ _ PF). }
    { intros F HF' m a b Hm Ha Hb Heq.
      assert (La : a < n) by (apply (pf_all _ _ _ PF); apply in_concat; eauto).
      assert (Lb : b < n) by (apply (pf_all _ _ _ PF); apply in_concat; eauto).
      rewrite !FV in Heq by assumption. apply (TF m); auto; apply in_seq; lia. }
    { intros j Hj. apply (pf_all _ _ _ PF) in Hj. rewrite repeat_length. lia. }
    { intros j Hj. apply nth_repeat. }
    cbv zeta in LD, OD, ID. fold cd in LD, OD, ID.
    assert (CDpos : forall j, j < n -> (0 < nth j (cd : list R) 0)%R).
    { intros j Hj. destruct (front_ex _ _ _ _ PF Hj) as (k & F & EF' & HFj). apply nth_error_In in EF'.
      exact (proj2 (ID F j EF' HFj) fs_ok). }
    assert (CDchild : forall j, n <= j -> nth j (cd : list R) 0%R = 0%R).
    { intros j Hj. etransitivity; [apply OD; intros H; apply (pf_all _ _ _ PF) in H; lia|]. apply nth_repeat. }
    (* ranks *)
    assert (BB : forall j, j < n -> (best_in fs (n_pop s) j <-> in_front fronts 0 j)).
    { intros j Hj. rewrite (front_zero n (beats objs) fronts ltac:(lia) PF j). unfold best_in. fold tab. rewrite GL.
      assert (BE : forall q, q < n -> (beats objs q j <-> beats tab q j)).
      { intros q Hq. unfold beats, objs. rewrite !nth_error_app1 by lia. reflexivity. }
      split.
      - intros [H1 H2]. split; [exact H1|]. intros q Hq B. apply (H2 q). apply BE; assumption.
      - intros [H1 H2]. split; [exact H1|]. intros q B.
        assert (Hq : q < n). { destruct B as (P & Q & EP & _). rewrite <- LT. apply nth_error_Some. congruence. }
        apply (H2 q Hq). apply BE; assumption. }
    assert (RB : forall j, j < n -> (nth j ranks 0 = 0 <-> in_front fronts 0 j)).
    { intros j Hj. destruct (front_ex _ _ _ _ PF Hj) as (k & Hk). assert (X := IR k j Hk).
      rewrite (nth_error_nth _ _ _ X). split; [intros ->; exact Hk|].
      intros H0. apply IR in H0. congruence. }
    assert (NP : nth i (n_pop s) [] = nth i pop []) by (unfold pop; rewrite app_nth1 by lia; reflexivity).
    assert (Ip : In (nth i (n_pop s) []) pop) by (unfold pop; apply in_or_app; left; apply nth_In; lia).
    (* parent i stands at position i *)
    assert (IXi : idx (nth i (n_pop s) []) = i).
    { destruct (IX _ Ip) as [H1 H2]. set (j := idx (nth i (n_pop s) [])) in *.
      destruct (le_lt_dec n j) as [Hj|Hj].
      - exfalso. apply NC. rewrite <- H2. unfold pop. rewrite app_nth2 by lia. apply nth_In. lia.
      - apply (TF 0); [destruct fs; [congruence|cbn; lia]|apply in_seq; lia|apply in_seq; lia|].
        unfold fval. rewrite !(nth_indep tab [] (objv fs [])) by lia. unfold tab. rewrite !map_nth.
        rewrite <- H2. unfold pop. rewrite app_nth1 by lia. reflexivity. }
    assert (RN0 : forall a : RN, nlt a a = false) by (intros a; apply (ol_irrefl _ (R_ord mx))).
    split.
    - intros Hk. apply BB; [exact Hi|]. apply RB; [exact Hi|].
      destruct (nth i ranks 0) as [|r] eqn:ER; [reflexivity|exfalso]. revert Hk.
      apply (drop_class lt (fun p => negb (Nat.eqb (nth (idx p) ranks 0) 0)) n _ _ (n_pop s) cs PM).
      + rewrite firstn_length. lia.
      + exact LCn.
      + exact Srt.
      + rewrite IXi, ER. reflexivity.
      + intros b Hb HB. apply negb_false_iff, Nat.eqb_eq in HB. unfold lt, crowding_operator. fold idx.
        rewrite IXi, HB, ER. reflexivity.
      + intros c Hc. rewrite (RO _ (IC c Hc)). reflexivity.
    - intros HB. apply BB in HB; [|exact Hi]. apply RB in HB; [|exact Hi].
      apply (keep_class lt (fun p => Nat.ltb (idx p) n && Nat.eqb (nth (idx p) ranks 0) 0) n _ _ (n_pop s) cs PM).
      + rewrite firstn_length. lia.
      + exact GL.
      + exact LCn.
      + exact Srt.
      + exact Ip.
      + rewrite IXi, HB. cbn. apply andb_true_iff. split; [apply Nat.ltb_lt; exact Hi|reflexivity].
      + intros a Ha GA. unfold lt, crowding_operator. fold idx. rewrite IXi, HB.
        destruct (Nat.eqb (nth (idx a) ranks 0) 0) eqn:Er.
        * apply Nat.eqb_eq in Er. rewrite Er. cbn [Nat.ltb Nat.leb orb Nat.eqb andb].
          rewrite andb_true_r in GA. apply Nat.ltb_ge in GA.
          assert (X := CDchild _ GA). assert (Y := CDpos i Hi). cbn. unfold Rltb.
          destruct Rlt_dec as [_|Z]; [reflexivity|]. exfalso. apply Z.
          eapply Rle_lt_trans; [right; exact X|exact Y].
        * destruct (nth (idx a) ranks 0) as [|r]; [discriminate|]. reflexivity.
      + intros c Hc. assert (X := IC c Hc). apply Nat.ltb_ge in X. rewrite X. reflexivity.
  Qed.

  Lemma generations_last : forall k fuel gen x s s' b, 4 <= n -> n < fuel -> good_pop n lo hi (n_pop s) -> ranks_ok s ->
    generations n cp mp ms eps fs stop rnd sortp sorti k fuel gen lo hi x b s = NRet s' ->
    s' = s \/ exists children dropped, survivors (n_parents s') children (n_pop s') dropped.
  Proof.
    intros k; induction k as [|k IH]; intros fuel gen x s s' b Hn HF GP RK E; cbn [generations] in E.
    - injection E as <-. left; reflexivity.
    - destruct b; [injection E as <-; left; reflexivity|].
      destruct (generation_ok (R_ord mx) n cp mp ms eps lo hi d PB rnd GD fs (fun _ _ _ => eq_refl) sortp (proj1 sort_p) sorti
                  fuel gen x s Hn HF GP) as (s1 & E1 & G1 & _ & _).
      rewrite E1 in E. destruct (generation_keeps fuel gen x s s1 Hn HF GP RK E1) as (R1 & P1 & cs & dr & SV).
      destruct (IH _ _ _ _ _ _ Hn HF G1 R1 E) as [->|H]; [|right; exact H].
      right. exists cs, dr. rewrite P1. exact SV.
  Qed.
End Gen.

Lemma optimize_survivors : forall mx, (0 < mx)%R ->
  forall n maxGen (cp mp ms eps : RNum mx) lb ub fs stop init rnd sortp sorti fuel x r,
  nsga2_good n maxGen lb ub fs init rnd sortp fuel x -> is_sort sortp -> is_sort sorti -> (0 <= eps)%R -> fs <> [] ->
  optimize n maxGen cp mp ms eps lb ub fs stop init rnd sortp sorti fuel x = NRet r ->
  exists children dropped,
    survivors mx n cp mp ms eps (spread (length x) lb) (spread (length x) ub) rnd fs (r_parents r) children (r_pop r) dropped.
Proof.
  intros mx MP n maxGen cp mp ms eps lb ub fs stop init rnd sortp sorti fuel x r [Gn Gg Gb Gi Gd Gnan Gs Gf] SP SI EP FN E.
  unfold optimize in E. replace (Nat.ltb n 4) with false in E by (symmetry; apply Nat.ltb_ge; exact Gn). cbn [andb] in E.
  set (lo := spread (length x) lb) in *. set (hi := spread (length x) ub) in *. destruct Gb as (B1 & B2 & B3).
  match type of E with context [generations _ _ _ _ _ _ _ _ _ _ _ _ _ _ _ _ _ ?z] => set (s0 := z) in E end.
  destruct (generations n cp mp ms eps fs stop rnd sortp sorti maxGen fuel 1 lo hi x false s0) as [s| | |] eqn:EG; try discriminate E.
  destruct (generations_last mx MP n cp mp ms eps lo hi (length x) (conj B1 (conj B2 B3)) rnd Gd fs stop sortp sorti SP SI EP FN
              maxGen fuel 1 x s0 s false Gn Gf) as [->|H].
  - split; [unfold s0; cbn; rewrite map_length, seq_length; reflexivity|].
    unfold s0; cbn [n_pop]. intros p Hp. apply in_map_iff in Hp. destruct Hp as (i & <- & _).
    apply (clip_within (R_ord mx)); [lia| |exact B3]. unfold vadd. rewrite map2_length, map_length, Gi. lia.
  - intros i _. destruct i; reflexivity.
  - exact EG.
  - discriminate E.
  - destruct (n_fronts s) as [|[|i f] rest]; try discriminate E.
    destruct (take_all (n_pop s) (i :: f)); [|discriminate E]. destruct (take_all (n_objs s) (i :: f)); [|discriminate E].
    injection E as <-. exact H.
Qed.

(** with one generation the parents are the initial population *)
Lemma one_generation : forall (N : Num) n (cp mp ms eps : N) lb ub fs stop init rnd sortp sorti fuel x r,
  optimize n 1 cp mp ms eps lb ub fs stop init rnd sortp sorti fuel x = NRet r ->
  r_parents r = map (fun i => clip (spread (length x) lb) (spread (length x) ub) (vadd (map (fun u => nsub u (ndiv n1 (nofZ 2))) (init i)) x)) (seq 0 n).
Proof.
  intros N n cp mp ms eps lb ub fs stop init rnd sortp sorti fuel x r E. unfold optimize in E.
  destruct (Nat.ltb n 4 && negb (Nat.eqb (n mod 4) 0)); [discriminate E|]. cbn [generations] in E.
  match type of E with context [generation _ _ _ _ _ _ _ _ _ _ _ _ _ _ ?z] => set (s0 := z) in E end.
  destruct (generation n cp mp ms eps fs rnd sortp sorti fuel 1 (spread (length x) lb) (spread (length x) ub) x s0) as [s| | |] eqn:EG;
    try discriminate E.
  assert (P : n_parents s = n_pop s0).
  { unfold generation in EG. destruct (NSGA2.children n cp mp ms rnd fuel 1 0 _ _ (n_pop s0) []); try discriminate EG.
    destruct fnds as [[fr rk]|]; [|discriminate EG]. injection EG as <-. reflexivity. }
  destruct (n_fronts s) as [|[|i f] rest]; try discriminate E.
  destruct (take_all (n_pop s) (i :: f)); [|discriminate E]. destruct (take_all (n_objs s) (i :: f)); [|discriminate E].
  injection E as <-. cbn [r_parents]. rewrite P. reflexivity.
Qed.

(** every parent is matched by a non-dominated one *)
Lemma best_covers : forall mx (fs : list (list (RNum mx) -> RNum mx)) (pop : list (list (RNum mx))) i, i < length pop ->
  exists j, best_in fs pop j /\ forall f, In f fs -> (f (nth j pop []) <= f (nth i pop []))%R.
Proof.
  intros mx fs pop i Hi.
  destruct (fnds_table (RNum mx) (R_ord mx) (length fs) (length pop) (map (objv fs) pop) (S (length pop)) (repeat 0 (length pop)))
    as (fronts & ranks & _ & PF & _).
  { intros P HP. apply in_map_iff in HP. destruct HP as (p & <- & _). split; [apply map_length|]. intros a _. reflexivity. }
  { rewrite map_length. lia. } { rewrite repeat_length. lia. } { lia. }
  assert (FZ : forall j, in_front fronts 0 j -> best_in fs pop j).
  { intros j Hj. assert (L0 : 0 < length pop) by lia. apply (front_zero _ _ _ L0 PF) in Hj. destruct Hj as [Hj NB]. split; [exact Hj|].
    intros q B. apply (NB q); [|exact B]. destruct B as (P & Q & EP & _).
    rewrite <- (map_length (objv fs) pop). apply nth_error_Some. congruence. }
  destruct (front_ex _ _ _ _ PF Hi) as (k & Hk). revert i Hi Hk. induction k as [|k IH]; intros i Hi Hk.
  - exists i. split; [apply FZ; exact Hk|]. intros f _. right. reflexivity.
  - destruct (pf_next _ _ _ PF k i Hk) as (j & Hj & (P & Q & EP & EQ & [NW _])).
    assert (Lj : j < length pop) by (eapply front_lt; eauto).
    destruct (IH j Lj Hj) as (b & Bb & Hb). exists b. split; [exact Bb|]. intros f Hf.
    eapply Rle_trans; [apply Hb; exact Hf|].
    rewrite nth_error_map in EP, EQ. rewrite (nth_error_nth' pop [] Lj) in EP. rewrite (nth_error_nth' pop [] Hi) in EQ.
    injection EP as <-. injection EQ as <-. apply In_nth_error in Hf. destruct Hf as (m & Em).
    assert (X := NW m (f (nth j pop [])) (f (nth i pop []))). unfold objv in X. rewrite !nth_error_map, Em in X.
    specialize (X eq_refl eq_refl). cbn in X. unfold Rleb in X. destruct Rle_dec; [assumption|discriminate].
Qed.

Lemma no_loss : forall mx n (cp mp ms eps : RNum mx) lo hi rnd fs parents children pop dropped, length parents = n ->
  survivors mx n cp mp ms eps lo hi rnd fs parents children pop dropped ->
  apart eps (parents ++ children) -> tie_free (map (objv fs) parents) (length fs) (seq 0 n) ->
  (forall p, In p parents -> ~ In p children) ->
  forall p, In p parents -> exists q, In q pop /\ forall f, In f fs -> (f q <= f p)%R.
Proof.
  intros mx n cp mp ms eps lo hi rnd fs parents children pop dropped LP (_ & _ & _ & S) AP TF NC p Hp.
  apply In_nth with (d := []) in Hp. destruct Hp as (i & Hi & <-).
  assert (Hi' : i < n) by (rewrite <- LP; exact Hi). destruct (best_covers mx fs parents i Hi) as (j & Bj & Hj). exists (nth j parents []). split; [|exact Hj].
  assert (Lj : j < length parents) by apply Bj.
  apply (S AP TF j); [rewrite <- LP; exact Lj|apply NC; apply nth_In; exact Lj|exact Bj].
Qed.

Lemma optimize_no_loss : forall mx, (0 < mx)%R ->
  forall n maxGen (cp mp ms eps : RNum mx) lb ub fs stop init rnd sortp sorti fuel x r,
  nsga2_good n maxGen lb ub fs init rnd sortp fuel x -> is_sort sortp -> is_sort sorti -> (0 <= eps)%R -> fs <> [] ->
  optimize n maxGen cp mp ms eps lb ub fs stop init rnd sortp sorti fuel x = NRet r ->
  exists children,
    (exists fuel gen, NSGA2.children n cp mp ms rnd fuel gen 0 (spread (length x) lb) (spread (length x) ub) (r_parents r) [] = NRet children) /\
    (apart eps (r_parents r ++ children) -> tie_free (map (objv fs) (r_parents r)) (length fs) (seq 0 n) ->
     (forall p, In p (r_parents r) -> ~ In p children) ->
     forall p, In p (r_parents r) -> exists q, In q (r_pop r) /\ forall f, In f fs -> (f q <= f p)%R).
Proof.
  intros mx MP n maxGen cp mp ms eps lb ub fs stop init rnd sortp sorti fuel x r G SP SI EP FN E.
  destruct (optimize_survivors mx MP n maxGen cp mp ms eps lb ub fs stop init rnd sortp sorti fuel x r G SP SI EP FN E) as (cs & dr & SV).
  assert (LP : length (r_parents r) = n).
  { destruct (optimize_ok (R_ord mx) n maxGen cp mp ms eps lb ub fs stop init rnd sortp sorti fuel x G) as (r' & E' & RP & _).
    rewrite E in E'. injection E' as <-. exact RP. }
  exists cs. split; [apply SV|]. intros AP TF NC.
  exact (no_loss mx n cp mp ms eps _ _ rnd fs (r_parents r) cs (r_pop r) dr LP SV AP TF NC).
Qed.
