From Coq Require Import List Arith Bool Lia Permutation.
From Verif.Base Require Import Num Size Vec SortIdx Instances.
From Verif.Model Require Import Common SA CMAES.
From Verif.Spec Require Import CommonSpec CMAESSpec.
From Verif.Proof Require Import SAProof DEProof CNEProof.
Import ListNotations.

Lemma chunks_from_covers : forall fuel n bs f, 0 < bs -> n - f <= fuel ->
  flat_map (fun c => seq (fst c) (snd c)) (chunks_from fuel n bs f) = seq f (n - f).
Proof.
  induction fuel as [|k IH]; intros n bs f B H; cbn [chunks_from].
  - replace (n - f) with 0 by lia. reflexivity.
  - destruct (Nat.ltb_spec f n) as [Q|Q]; [|replace (n - f) with 0 by lia; reflexivity].
    cbn [flat_map fst snd]. rewrite IH by lia.
    destruct (Nat.le_gt_cases (n - f) bs) as [C|C].
    + rewrite Nat.min_r by lia. replace (n - (f + bs)) with 0 by lia. cbn. apply app_nil_r.
    + rewrite Nat.min_l by lia. rewrite <- seq_app. f_equal. lia.
Qed.
Lemma full_chunks_ok : forall n bs, 0 < bs -> exists cs, full_chunks n bs = Some cs /\ covers n cs.
Proof.
  intros n bs B. unfold full_chunks. destruct (Nat.eqb_spec bs 0); [lia|]. cbn [andb]. eexists. split; [reflexivity|].
  unfold covers. rewrite chunks_from_covers by lia. rewrite Nat.sub_0_r. reflexivity.
Qed.

(** what RandomSelection evaluates *)
Lemma chunks_from_len : forall fuel n bs f, 0 < bs -> n - f <= fuel ->
  length (chunks_from fuel n bs f) * bs < n - f + bs /\ n - f <= length (chunks_from fuel n bs f) * bs.
Proof.
  induction fuel as [|k IH]; intros n bs f B H; cbn [chunks_from].
  - cbn [length]. lia.
  - destruct (Nat.ltb_spec f n) as [Q|Q]; cbn [length]; [|lia]. specialize (IH n bs (f + bs) B ltac:(lia)).
    destruct (length (chunks_from k n bs (f + bs))) as [|l]; [lia|]. cbn [Nat.mul] in *. generalize dependent (l * bs). intros; lia.
Qed.
Lemma random_chunks_ok : forall n m bs sel, 0 < n -> 0 < bs -> exists l, random_chunks n m bs sel = Some l /\
  Forall (fun c => fst c < n /\ snd c = Nat.min bs (n - fst c)) l /\
  length l * bs < m + bs /\ m <= length l * bs.
Proof.
  intros n m bs sel Hn B. unfold random_chunks, full_chunks. destruct (Nat.eqb_spec bs 0); [lia|]. cbn [andb]. eexists. split; [reflexivity|].
  split.
  - apply Forall_forall. intros c Hc. apply in_map_iff in Hc as (d & <- & _). cbn [fst snd]. split; [apply Nat.mod_upper_bound; lia|reflexivity].
  - rewrite map_length. pose proof (chunks_from_len m m bs 0 B ltac:(lia)) as H. rewrite Nat.sub_0_r in H. exact H.
Qed.

Lemma nth_error_ext' {A} : forall l l' : list A, (forall i, nth_error l i = nth_error l' i) -> l = l'.
Proof.
  induction l as [|x l IH]; intros [|y l'] H; auto; try (specialize (H 0); discriminate).
  pose proof (H 0) as H0. injection H0 as ->. f_equal. apply IH. intros i. exact (H (S i)).
Qed.

Section CMAES.
  Context {N : Num}.
  Notation vec := (list N).
  Notation ev := (ev N vec vec).
  Variables (maxIterations lambda patience : nat) (tolerance big : N).
  Variable feval : vec -> nat -> nat -> N.
  Variable cs : list (nat * nat).
  Variable tf : vec -> vec.
  Variable w : list N.
  Variable A : Type.
  Variable sample : nat -> A -> option (list vec).
  Variable adapt : nat -> A -> N -> list vec -> list nat -> vec -> A * N.
  Variable sort_index : list N -> list nat.
  Variable cb : CB N vec vec.
  Notation total := (total feval cs).
  Notation looks := (looks feval cs).

  Lemma evaluate_run : forall x l acc tr t,
    evaluate feval cb true x l acc tr t =
    (fold_left nadd (map (fun c => feval x (fst c) (snd c)) l) acc,
     rev (map (Ev x) (partials acc (map (fun c => feval x (fst c) (snd c)) l))) ++ tr,
     snd (evaluate feval cb true x l acc tr t)).
  Proof.
    intros x. induction l as [|[f b] l IH]; intros acc tr t; [reflexivity|].
    cbn [evaluate map partials fold_left fst snd]. rewrite IH. cbn [snd rev]. rewrite <- app_assoc. reflexivity.
  Qed.
  Lemma evaluate_first : forall x l acc tr t,
    evaluate feval cb false x l acc tr t =
    (fold_left nadd (map (fun c => feval x (fst c) (snd c)) l) acc,
     rev (map (Ev x) (map (fun c => feval x (fst c) (snd c)) l)) ++ tr,
     snd (evaluate feval cb false x l acc tr t)).
  Proof.
    intros x. induction l as [|[f b] l IH]; intros acc tr t; [reflexivity|].
    cbn [evaluate map fold_left fst snd]. rewrite IH. cbn [snd rev]. rewrite <- app_assoc. reflexivity.
  Qed.
  Lemma evaluate_asked : forall r x l acc tr t, (t = true -> asked cb (rev tr)) ->
    snd (evaluate feval cb r x l acc tr t) = true -> asked cb (rev (snd (fst (evaluate feval cb r x l acc tr t)))).
  Proof.
    intros r x. induction l as [|[f b] l IH]; intros acc tr t H E; cbn [evaluate fst snd] in *; [auto|].
    apply IH; [|exact E]. intros Q. apply orb_true_iff in Q as [Q|Q].
    - apply (asked_ext cb tr [_]). auto.
    - apply asked_now; auto.
  Qed.

  Notation member m sigma := (fun s => tf (vadd m (vscale sigma s))).

  Lemma population_ok : forall i m sigma draws idx j steps objs tr t steps' objs' tr' t',
    length draws = length idx -> NoDup idx -> (forall k, In k idx -> k < length steps /\ k < length objs) ->
    (t = true -> asked cb (rev tr)) ->
    population feval (fun _ _ => cs) tf cb i j m sigma draws idx steps objs tr t = (steps', objs', tr', t') ->
    length steps' = length steps /\ length objs' = length objs /\
    (forall k, ~ In k idx -> nth_error steps' k = nth_error steps k /\ nth_error objs' k = nth_error objs k) /\
    (forall k, In k idx -> exists s, nth_error steps' k = Some s /\ nth_error objs' k = Some (total (member m sigma s))) /\
    tr' = rev (flat_map (fun k => looks (member m sigma (nth k steps' []))) idx) ++ tr /\
    (t' = true -> asked cb (rev tr')) /\
    map (fun k => nth k steps' []) idx = draws.
  Proof.
    intros i m sigma. induction draws as [|s ds IH]; intros idx j steps objs tr t steps' objs' tr' t' L ND B T E.
    - destruct idx; [|discriminate]. cbn in E. injection E as <- <- <- <-. repeat split; auto; try contradiction.
    - destruct idx as [|k ix]; [discriminate|]. injection L as L. cbn [population] in E.
      pose proof (evaluate_run (tf (vadd m (vscale sigma s))) cs n0 tr t) as EQ.
      pose proof (evaluate_asked true (tf (vadd m (vscale sigma s))) cs n0 tr t T) as EA.
      destruct (evaluate feval cb true _ cs n0 tr t) as [[o tr1] t1]. cbn [fst snd] in *. injection EQ as EO ET.
      inversion ND as [|k' ix' NK ND']; subst k' ix'.
      destruct (B k (or_introl eq_refl)) as [B1 B2].
      destruct (IH ix (S j) (set_nth k s steps) (set_nth k o objs) tr1 t1 steps' objs' tr' t' L ND') as (H1 & H2 & H3 & H4 & H5 & H6 & H7); auto.
      { intros q Q. rewrite !set_nth_length. apply B. right; exact Q. }
      rewrite set_nth_length in H1. rewrite set_nth_length in H2. destruct (H3 k NK) as [K1 K2].
      rewrite set_nth_same in K1 by assumption. rewrite set_nth_same in K2 by assumption.
      split; [exact H1|]. split; [exact H2|]. split; [|split; [|split; [|split; [exact H6|]]]].
      + intros q Q. destruct (H3 q) as [Q1 Q2]; [intros X; apply Q; right; exact X|].
        rewrite set_nth_other in Q1 by (intros ->; apply Q; left; reflexivity). rewrite set_nth_other in Q2 by (intros ->; apply Q; left; reflexivity). auto.
      + intros q [<-|Q]; [|auto]. exists s. split; [exact K1|]. rewrite K2, EO. reflexivity.
      + rewrite H5, ET. cbn [flat_map]. rewrite (nth_error_nth _ _ _ K1). rewrite rev_app_distr, <- app_assoc. reflexivity.
      + cbn [map]. rewrite (nth_error_nth _ _ _ K1), H7. reflexivity.
  Qed.

  Hypothesis Hsort : forall l : list N, no_nan l -> sorted_index l (sort_index l).

  Lemma existsb_nan (l : list N) : existsb nisnan l = false -> no_nan l.
  Proof. intros H v V. destruct (nisnan v) eqn:E; [|reflexivity]. rewrite <- H. symmetry. apply existsb_exists. eauto. Qed.

  Record CInv (h : list N) (s : cst (N := N) A) : Prop := {
    ci_perm : Permutation (c_idx _ s) (seq 0 lambda);
    ci_steps : length (c_steps _ s) = lambda;
    ci_objs : length (c_objs _ s) = lambda;
    ci_best : c_best _ s = total (tf (c_it _ s));
    ci_last : nth_error h (length h - 1) = Some (c_last _ s);
    ci_count : c_count _ s < length h;
    ci_calm : forall j u v, length h <= j + c_count _ s -> nth_error h j = Some u -> nth_error h (S j) = Some v ->
      nlt (nabs (nsub u v)) tolerance = true
  }.

  Lemma calm_ext : forall (h : list N) c last best, nth_error h (length h - 1) = Some last -> c < length h ->
    (forall j u v, length h <= j + c -> nth_error h j = Some u -> nth_error h (S j) = Some v -> nlt (nabs (nsub u v)) tolerance = true) ->
    nlt (nabs (nsub last best)) tolerance = true ->
    forall j u v, length h <= j + c -> nth_error (h ++ [best]) j = Some u -> nth_error (h ++ [best]) (S j) = Some v -> nlt (nabs (nsub u v)) tolerance = true.
  Proof.
    intros h c last best HL HC HA HS j u v J U V.
    destruct (Nat.lt_ge_cases (S j) (length h)) as [Q|Q].
    - rewrite nth_error_app1 in U, V by lia. eapply HA; eauto.
    - assert (S j = length h).
      { assert (S j < length (h ++ [best])) by (apply nth_error_Some; congruence). rewrite app_length in H. simpl in H. lia. }
      rewrite nth_error_app1 in U by lia. rewrite nth_error_app2, H, Nat.sub_diag in V by lia. injection V as <-.
      replace j with (length h - 1) in U by lia. rewrite HL in U. injection U as <-. exact HS.
  Qed.

  Hypothesis Hsample : forall i a d, sample i a = Some d -> length d = lambda.

  Notation Reason k bs sigma b h tr := (length bs = k \/ asked cb tr \/ (nisnan sigma || nlt big sigma = true) \/
     (nisnan (total (tf b)) || nisinf (total (tf b)) = true) \/ calm tolerance patience (h ++ map (fun b => total (tf b)) bs)).

  Lemma cma_loop_ok : forall k i s term h r, CInv h s -> (term = true -> asked cb (rev (c_tr _ s))) ->
    cma_loop lambda patience tolerance big feval (fun _ _ => cs) tf w A sample adapt sort_index cb k i s term = Ret r ->
    exists es bs sigma b, length bs <= k /\
      gens feval cs tf lambda w A sample adapt i (c_mean _ s) (c_sigma _ s) (c_a _ s) (c_it _ s) es bs sigma b /\
      o_val r = total (tf b) /\ o_x r = tf b /\ o_tr r = rev (c_tr _ s) ++ es ++ [End (tf b)] /\
      Reason k bs sigma b h (o_tr r).
  Proof.
    induction k as [|k IH]; intros i s term h r I T E; cbn [cma_loop] in E.
    { assert (E' : Ret (finish tf (c_it _ s) (c_best _ s) (c_tr _ s)) = Ret r) by (destruct term; exact E).
      injection E' as <-. exists [], [], (c_sigma _ s), (c_it _ s). split; [simpl; lia|]. split; [constructor|].
      cbn [finish o_val o_x o_tr rev]. split; [apply (ci_best _ _ I)|]. split; [reflexivity|]. split; [reflexivity|]. left. reflexivity. }
    destruct term.
    { injection E as <-. exists [], [], (c_sigma _ s), (c_it _ s). split; [simpl; lia|]. split; [constructor|].
      cbn [finish o_val o_x o_tr]. split; [apply (ci_best _ _ I)|]. split; [reflexivity|]. split; [cbn [rev]; reflexivity|]. right. left.
      apply (asked_ext cb (c_tr _ s) [_]). auto. }
    destruct (sample i (c_a _ s)) as [draws|] eqn:ES; [|discriminate].
    destruct (population feval (fun _ _ => cs) tf cb i 0 (c_mean _ s) (c_sigma _ s) draws (c_idx _ s) (c_steps _ s) (c_objs _ s) (c_tr _ s) false)
      as [[[steps objs] tr1] t1] eqn:EP.
    pose proof (ci_perm _ _ I) as PM.
    assert (PL : length (c_idx _ s) = lambda) by (rewrite (Permutation_length PM), seq_length; reflexivity).
    apply population_ok in EP as (P1 & P2 & P3 & P4 & P5 & P6 & P7).
    2: { rewrite PL. eapply Hsample; eauto. }
    2: { eapply Permutation_NoDup; [symmetry; exact PM|apply seq_NoDup]. }
    2: { intros k0 K. apply (Permutation_in _ PM) in K. apply in_seq in K. rewrite (ci_steps _ _ I), (ci_objs _ _ I). lia. }
    2: discriminate.
    rewrite (ci_steps _ _ I) in P1. rewrite (ci_objs _ _ I) in P2.
    set (m0 := c_mean _ s) in *. set (sg := c_sigma _ s) in *.
    assert (OB : objs = map (fun x => total (member m0 sg x)) steps).
    { apply nth_error_ext'. intros q. rewrite nth_error_map.
      destruct (Nat.lt_ge_cases q lambda) as [Q|Q].
      - destruct (P4 q) as (x & X1 & X2); [eapply Permutation_in; [symmetry; exact PM|apply in_seq; lia]|]. rewrite X1, X2. reflexivity.
      - rewrite (proj2 (nth_error_None objs q)) by lia. rewrite (proj2 (nth_error_None steps q)) by lia. reflexivity. }
    destruct (existsb nisnan objs) eqn:EN; [discriminate|]. apply existsb_nan in EN.
    pose proof (Hsort _ EN) as SI. set (idx := sort_index objs) in *. rewrite OB in SI.
    destruct (recombine w steps idx) as [step|] eqn:ER; [|discriminate].
    assert (WE : weighted w steps idx step).
    { unfold recombine in ER. unfold weighted. destruct (map2 _ w idx) as [|s0 l]; [discriminate|]. injection ER as <-. eauto. }
    set (m := vadd m0 (vscale sg step)) in *.
    pose proof (evaluate_run (tf m) cs n0 tr1 t1) as EQ.
    pose proof (evaluate_asked true (tf m) cs n0 tr1 t1 P6) as EA.
    destruct (evaluate feval cb true (tf m) cs n0 tr1 t1) as [[cur tr2] t2]. cbn [fst snd] in *. injection EQ as EO ET.
    change (cur = total (tf m)) in EO. rewrite (ci_best _ _ I) in E. rewrite EO in E.
    destruct (adapt i (c_a _ s) sg steps idx step) as [a sigma] eqn:EAD.
    set (better := nlt (total (tf m)) (total (tf (c_it _ s)))) in *.
    set (it := if better then m else c_it _ s) in *.
    assert (BT : (if better then total (tf m) else total (tf (c_it _ s))) = total (tf it)) by (unfold it; destruct better; reflexivity).
    rewrite BT in E.
    set (tr3 := if better then St (tf it) :: tr2 else tr2) in *.
    set (t3 := if better then t2 || cs_stop cb tr3 else t2) in *.
    assert (TR : tr3 = rev (flat_map (fun k => looks (member m0 sg (nth k steps []))) (c_idx _ s) ++ looks (tf m) ++
         (if better then [St (tf m)] else [])) ++ c_tr _ s).
    { unfold tr3, it. rewrite ET, P5. rewrite !rev_app_distr. destruct better; cbn [rev app]; rewrite <- !app_assoc; reflexivity. }
    assert (GM : forall es bs sigma' b', gens feval cs tf lambda w A sample adapt (S i) m sigma a it es bs sigma' b' ->
       gens feval cs tf lambda w A sample adapt i m0 sg (c_a _ s) (c_it _ s)
         (flat_map (fun k => looks (member m0 sg (nth k steps []))) (c_idx _ s) ++ looks (tf m) ++ (if better then [St (tf m)] else []) ++ es) (it :: bs) sigma' b').
    { intros es bs sigma' b' G. rewrite <- P7 in ES. eapply gens_more; eauto. }
    assert (ONE : forall r', Ret (finish tf it (total (tf it)) tr3) = Ret r' ->
       (nisnan sigma || nlt big sigma = true \/ nisnan (total (tf it)) || nisinf (total (tf it)) = true \/ calm tolerance patience (h ++ [total (tf it)])) ->
       exists es bs sigma b, length bs <= S k /\ gens feval cs tf lambda w A sample adapt i m0 sg (c_a _ s) (c_it _ s) es bs sigma b /\
       o_val r' = total (tf b) /\ o_x r' = tf b /\ o_tr r' = rev (c_tr _ s) ++ es ++ [End (tf b)] /\ Reason (S k) bs sigma b h (o_tr r')).
    { intros r' ER' RS. injection ER' as <-. eexists _, _, sigma, it. split; [|split; [apply GM; constructor|]]; [simpl; lia|].
      cbn [finish o_val o_x o_tr]. split; [reflexivity|]. split; [reflexivity|]. split.
      - rewrite TR. cbn [rev]. rewrite rev_app_distr, rev_involutive. rewrite app_nil_r, <- !app_assoc. reflexivity.
      - right. right. exact RS. }
    destruct (nisnan sigma || nlt big sigma) eqn:Q1; [apply ONE; [exact E|left; reflexivity]|].
    destruct (nisnan (total (tf it)) || nisinf (total (tf it))) eqn:Q2; [apply ONE; [exact E|right; left; reflexivity]|].
    set (small := nlt (nabs (nsub (c_last _ s) (total (tf it)))) tolerance) in *.
    assert (CA : small = true -> forall j u v, length h <= j + c_count _ s -> nth_error (h ++ [total (tf it)]) j = Some u -> nth_error (h ++ [total (tf it)]) (S j) = Some v -> nlt (nabs (nsub u v)) tolerance = true).
    { intros SM. eapply calm_ext; [apply (ci_last _ _ I)|apply (ci_count _ _ I)|apply (ci_calm _ _ I)|exact SM]. }
    destruct (small && (patience <? c_count _ s)) eqn:Q3.
    { apply ONE; [exact E|]. right. right. apply andb_true_iff in Q3 as [Q3 Q4]. apply Nat.ltb_lt in Q4.
      pose proof (ci_count _ _ I). split; [rewrite app_length; simpl; lia|].
      intros j u v J. rewrite app_length in J. simpl in J. apply CA; [exact Q3|lia]. }
    apply (IH _ _ _ (h ++ [total (tf it)])) in E.
    - cbn [c_tr c_mean c_sigma c_a c_it] in E.
      destruct E as (es & bs & sigma' & b' & E1 & E2 & E3 & E4 & E5 & E6).
      eexists _, _, sigma', b'. split; [|split; [apply GM; exact E2|]]; [simpl; lia|].
      split; [exact E3|]. split; [exact E4|]. split.
      + rewrite E5, TR. rewrite rev_app_distr, rev_involutive. rewrite <- !app_assoc. reflexivity.
      + cbn [length map]. rewrite <- app_assoc in E6. destruct E6 as [E6|E6]; [left; lia|right; exact E6].
    - split; cbn [c_idx c_steps c_objs c_best c_it c_last c_count]; auto.
      + destruct SI as [SI _]. rewrite map_length, P1 in SI. exact SI.
      + rewrite app_length. simpl. replace (length h + 1 - 1) with (length h) by lia. rewrite nth_error_app2, Nat.sub_diag by lia. reflexivity.
      + rewrite app_length. simpl. pose proof (ci_count _ _ I). destruct small; lia.
      + intros j u v J U V. rewrite app_length in J. simpl in J. destruct small.
        * eapply CA; eauto. lia.
        * exfalso. assert (S j < length (h ++ [total (tf it)])) by (apply nth_error_Some; congruence). rewrite app_length in H. simpl in H. lia.
    - cbn [c_tr]. intros Q. unfold t3, tr3 in *. destruct better.
      + apply orb_true_iff in Q as [Q|Q]; [apply (asked_ext cb tr2 [_]); auto|apply asked_now; auto].
      + auto.
  Qed.

  Lemma gens_better : OrdLaws N -> forall i m sigma a b es bs sigma' b',
    gens feval cs tf lambda w A sample adapt i m sigma a b es bs sigma' b' ->
    b' = b \/ nlt (total (tf b')) (total (tf b)) = true.
  Proof.
    intros O. induction 1 as [|i m sigma a b steps order idx step m' a' sigma1 b1 es bs sigma' b' HL HP HD member HS HW HM HA HB HG IH]; [left; reflexivity|].
    destruct (nlt (total (tf m')) (total (tf b))) eqn:Q; subst b1; [|exact IH].
    right. destruct IH as [->|IH]; [exact Q|]. eapply (ol_trans _ O); eauto.
  Qed.

  Theorem cma_ok : forall a0 sigma0 x r,
    cma_optimize maxIterations lambda patience tolerance big feval cs (fun _ _ => cs) tf w A sample adapt sort_index cb a0 sigma0 x = Ret r ->
    exists es bs sigma b, length bs <= bound maxIterations - 1 /\
      gens feval cs tf lambda w A sample adapt 1 x sigma0 a0 x es bs sigma b /\
      o_val r = total (tf b) /\ o_x r = tf b /\
      o_tr r = map (Ev (tf x)) (values feval cs (tf x)) ++ Begin (tf x) :: es ++ [End (tf b)] /\
      (length bs = bound maxIterations - 1 \/ asked cb (o_tr r) \/ nisnan sigma || nlt big sigma = true \/
       nisnan (total (tf b)) || nisinf (total (tf b)) = true \/ calm tolerance patience (nmax :: map (fun b => total (tf b)) bs)).
  Proof.
    intros a0 sigma0 x r E. unfold cma_optimize in E.
    pose proof (evaluate_first (tf x) cs n0 [] false) as EQ.
    pose proof (evaluate_asked false (tf x) cs n0 [] false ltac:(discriminate)) as EA.
    destruct (evaluate feval cb false (tf x) cs n0 [] false) as [[cur tr] t]. cbn [fst snd] in *. injection EQ as EO ET.
    apply (cma_loop_ok _ _ _ _ [nmax]) in E.
    - cbn [c_tr c_mean c_sigma c_a c_it] in E. destruct E as (es & bs & sigma & b & E1 & E2 & E3 & E4 & E5 & E6).
      exists es, bs, sigma, b. repeat (split; [assumption|]). split; [|exact E6].
      rewrite E5, ET, app_nil_r. cbn [rev]. rewrite rev_involutive, <- app_assoc. reflexivity.
    - split; cbn; auto; try (rewrite repeat_length; reflexivity); try lia.
      intros [|j] u v J U V; [discriminate|destruct j; discriminate].
    - cbn [c_tr]. intros Q. apply (asked_ext cb tr [_]). auto.
  Qed.

  (** the run comes to an end if no evaluation gives NaN and the sampling does, from
      every distribution that satisfies an invariant *)
  Theorem cma_returns_inv : forall (P : A -> Prop) a0 sigma0 x, w <> [] -> 0 < lambda ->
    (forall y, nisnan (total y) = false) -> P a0 -> (forall i a, P a -> sample i a <> None) ->
    (forall i a sigma steps idx step, P a -> P (fst (adapt i a sigma steps idx step))) ->
    exists r, cma_optimize maxIterations lambda patience tolerance big feval cs (fun _ _ => cs) tf w A sample adapt sort_index cb a0 sigma0 x = Ret r.
  Proof.
    intros P a0 sigma0 x W L NN PA0 SA PA. unfold cma_optimize.
    pose proof (evaluate_first (tf x) cs n0 [] false) as EQ.
    destruct (evaluate feval cb false (tf x) cs n0 [] false) as [[cur tr] t]. cbn [fst snd] in *. injection EQ as EO ET.
    match goal with |- context [cma_loop _ _ _ _ _ _ _ _ _ _ _ _ _ ?k ?i ?s ?t] => set (k0 := k); set (s0 := s); generalize t; generalize i end.
    assert (I0 : Permutation (c_idx _ s0) (seq 0 lambda) /\ length (c_steps _ s0) = lambda /\ length (c_objs _ s0) = lambda /\ P (c_a _ s0)).
    { unfold s0; cbn. rewrite !repeat_length. auto. }
    clearbody k0 s0. revert s0 I0. induction k0 as [|k IH]; intros s (PM & I1 & I2 & I3) i term; cbn [cma_loop]; [destruct term; eauto|].
    destruct term; [eauto|]. destruct (sample i (c_a _ s)) as [draws|] eqn:ES; [|exfalso; eapply SA; eauto].
    destruct (population feval (fun _ _ => cs) tf cb i 0 (c_mean _ s) (c_sigma _ s) draws (c_idx _ s) (c_steps _ s) (c_objs _ s) (c_tr _ s) false)
      as [[[steps objs] tr1] t1] eqn:EP.
    (* the flag and the trace do not matter here *)
    assert (PL : length (c_idx _ s) = lambda) by (rewrite (Permutation_length PM), seq_length; reflexivity).
    pose proof EP as EP'.
    apply population_ok in EP as (P1 & P2 & P3 & P4 & _ & _ & _).
    2: { rewrite PL. eapply Hsample; eauto. }
    2: { eapply Permutation_NoDup; [symmetry; exact PM|apply seq_NoDup]. }
    2: { intros k1 K. apply (Permutation_in _ PM) in K. apply in_seq in K. lia. }
    2: discriminate.
    rewrite I1 in P1. rewrite I2 in P2.
    assert (OBN : no_nan objs).
    { intros v V. apply In_nth_error in V as (q & Q). assert (q < length objs) by (apply nth_error_Some; congruence).
      destruct (P4 q) as (y & _ & Y); [eapply Permutation_in; [symmetry; exact PM|apply in_seq; lia]|]. rewrite Q in Y. injection Y as ->. apply NN. }
    assert (EN : existsb nisnan objs = false).
    { destruct (existsb nisnan objs) eqn:Z; [|reflexivity]. apply existsb_exists in Z as (v & V1 & V2). rewrite (OBN v V1) in V2. discriminate. }
    rewrite EN. pose proof (Hsort _ OBN) as [SP _]. set (idx := sort_index objs) in *.
    assert (SL : length idx = lambda) by (rewrite (Permutation_length SP), seq_length; exact P2).
    unfold recombine. destruct w as [|w0 w']; [congruence|]. destruct idx as [|k0 idx']; [simpl in SL; lia|]. cbn [map2].
    destruct (evaluate feval cb true _ _ _ _ _) as [[cu tr2] t2]. destruct (adapt _ _ _ _ _ _) as [a sigma] eqn:EA.
    destruct (nisnan sigma || _); [eauto|]. destruct (nisnan _ || _); [eauto|]. destruct (_ && _); [eauto|].
    apply IH. cbn. rewrite P2 in SP. repeat (split; [assumption|]).
    change a with (fst (a, sigma)). rewrite <- EA. apply PA. exact I3.
  Qed.
  Theorem cma_returns : forall a0 sigma0 x, w <> [] -> 0 < lambda ->
    (forall y, nisnan (total y) = false) -> (forall i a, sample i a <> None) ->
    exists r, cma_optimize maxIterations lambda patience tolerance big feval cs (fun _ _ => cs) tf w A sample adapt sort_index cb a0 sigma0 x = Ret r.
  Proof.
    intros a0 sigma0 x W L NN SA. apply (cma_returns_inv (fun _ => True)); auto.
  Qed.
End CMAES.
