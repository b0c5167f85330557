From Coq Require Import List Arith Reals Lra Lia Bool ZArith.
From Verif.Base Require Import Num Instances Vec.
From Verif.Model Require Import Swats.
From Verif.Spec Require Import UpdatesSpec SwatsSpec.
From Verif.Proof Require Import UpdatesProof AdamProof.
Import ListNotations.
Local Open Scope R_scope.

Lemma tab_nth : forall (l : list R), l = tab (length l) (fun i => nth i l 0).
Proof.
  unfold tab. induction l as [|x l IH]; [reflexivity|]. cbn [length seq map nth]. f_equal.
  rewrite <- seq_shift, map_map. exact IH.
Qed.
Lemma map2_map : forall {I A B C : Type} (f : A -> B -> C) (a : I -> A) (b : I -> B) (l : list I),
  map2 f (map a l) (map b l) = map (fun i => f (a i) (b i)) l.
Proof. induction l as [|x l IH]; simpl; [reflexivity|]. rewrite IH. reflexivity. Qed.
Lemma tab_map2 : forall n (f : R -> R -> R) a b, map2 f (tab n a) (tab n b) = tab n (fun i => f (a i) (b i)).
Proof. intros. apply map2_map. Qed.
Lemma tab_ext : forall n f g, (forall i, f i = g i) -> tab n f = tab n g.
Proof. intros. apply map_ext. auto. Qed.
Lemma tab_map : forall n (f : R -> R) a, map f (tab n a) = tab n (fun i => f (a i)).
Proof. intros. unfold tab. apply map_map. Qed.
Lemma tab_repeat : forall n, repeat 0 n = tab n (fun _ => 0).
Proof.
  intros n. unfold tab. generalize 0%nat. induction n as [|n IH]; intros k; simpl; [reflexivity|]. f_equal. apply IH.
Qed.
Lemma tab_length : forall n f, length (tab n f) = n.
Proof. intros. unfold tab. rewrite map_length, seq_length. reflexivity. Qed.

Lemma prefixes_snoc : forall {A} (l : list A) a, prefixes (l ++ [a]) = prefixes l ++ [l ++ [a]].
Proof.
  intros A l a. unfold prefixes. rewrite app_length. cbn [length]. rewrite Nat.add_1_r, seq_S, map_app. f_equal.
  - apply map_ext_in. intros k I. apply in_seq in I. rewrite firstn_app.
    replace (S k - length l)%nat with 0%nat by lia. cbn [firstn]. apply app_nil_r.
  - cbn [map]. f_equal. apply firstn_all2. rewrite app_length. cbn. lia.
Qed.

Section S.
  Variable mx : R.
  Variables (n : nat) (eps b1 b2 : R).
  Notation NR := (RNum mx).
  Notation up := (swats_up (N := NR) pow eps b1 b2).
  Notation runs := (swats_run (N := NR) pow eps b1 b2).
  Notation init := (swats_init (N := NR) parent0 n).

  Lemma vdot_dot : forall a b : list R, vdot (N := NR) a b = dot a b.
  Proof.
    intros a b. unfold vdot, dot, vsum, vmul. f_equal. revert b.
    induction a as [|x a IH]; intros [|y b]; simpl; [reflexivity..|]. f_equal. apply IH.
  Qed.
  Lemma run_snoc : forall s (x : list R) (l : hist) h g,
    runs s x (l ++ [(h, g)]) = up (fst (runs s x l)) (snd (runs s x l)) h g.
  Proof. intros. unfold swats_run. rewrite fold_left_app. reflexivity. Qed.
  Lemma run_app : forall s (x : list R) (l l2 : hist),
    runs s x (l ++ l2) = runs (fst (runs s x l)) (snd (runs s x l)) l2.
  Proof. intros. unfold swats_run. rewrite fold_left_app. rewrite <- surjective_pairing. reflexivity. Qed.

  Notation wf := (dims n).

  Record AdamSt (H : hist) (s : swats (N := NR)) : Prop := {
    as_m : w_m s = tab n (fun i => M1 b1 (coord i H));
    as_v : w_v s = tab n (fun i => M2 b2 (coord i H));
    as_t : w_t s = length H;
    as_p : w_phase s = false;
    as_l : w_lambda s = ema b2 (rates n eps b1 b2 H)
  }.

  Lemma adam_delta_snoc : forall H h g s, length g = n -> AdamSt H s ->
    let t := S (w_t s) in
    let m := map2 (fun a b : R => a * b1 + (1 - b1) * b) (w_m s) g in
    let v := map2 (fun a b : R => a * b2 + (1 - b2) * (b * b)) (w_v s) g in
    m = tab n (fun i => M1 b1 (coord i (H ++ [(h, g)]))) /\
    v = tab n (fun i => M2 b2 (coord i (H ++ [(h, g)]))) /\
    map2 (fun a b : R => h * a / (1 - b1 ^ t) / (sqrt (b / (1 - b2 ^ t)) + eps)) m v = adam_delta n eps b1 b2 (H ++ [(h, g)]).
  Proof.
    intros H h g s L A t m v.
    assert (G : g = tab n (fun i => nth i g 0)) by (rewrite <- L; apply tab_nth).
    assert (CS : forall i, coord i (H ++ [(h, g)]) = coord i H ++ [(h, nth i g 0)]).
    { intros i. unfold coord. rewrite map_app. reflexivity. }
    assert (Em : m = tab n (fun i => M1 b1 (coord i (H ++ [(h, g)])))).
    { unfold m. rewrite (as_m _ _ A), G at 1. rewrite tab_map2. apply tab_ext. intros i. rewrite CS, M1_snoc. reflexivity. }
    assert (Ev : v = tab n (fun i => M2 b2 (coord i (H ++ [(h, g)])))).
    { unfold v. rewrite (as_v _ _ A), G at 1. rewrite tab_map2. apply tab_ext. intros i. rewrite CS, M2_snoc. reflexivity. }
    split; [exact Em|]. split; [exact Ev|]. rewrite Em, Ev, tab_map2. unfold adam_delta. apply tab_ext. intros i.
    assert (LS : last_step (H ++ [(h, g)]) = h) by (unfold last_step; rewrite last_last; reflexivity).
    rewrite LS. unfold t. rewrite (as_t _ _ A).
    assert (LC : length (coord i (H ++ [(h, g)])) = S (length H)).
    { unfold coord. rewrite map_length, app_length. simpl. lia. }
    unfold corr. rewrite LC. unfold Rdiv. ring.
  Qed.

  Lemma rates_snoc : forall H p, rates n eps b1 b2 (H ++ [p]) =
    rates n eps b1 b2 H ++ (if usable n eps b1 b2 (H ++ [p]) then [rate n eps b1 b2 (H ++ [p])] else []).
  Proof.
    intros. unfold rates. rewrite prefixes_snoc, filter_app, map_app. f_equal. cbn [filter].
    destruct (usable n eps b1 b2 (H ++ [p])); reflexivity.
  Qed.

  Lemma one_step : forall H h g s x, length g = n -> AdamSt H s ->
    let H' := H ++ [(h, g)] in
    snd (up s x h g) = vsub (N := NR) x (adam_delta n eps b1 b2 H') /\
    (~ switches n eps b1 b2 H' -> AdamSt H' (fst (up s x h g))) /\
    (switches n eps b1 b2 H' -> w_phase (fst (up s x h g)) = true /\
       w_rate (fst (up s x h g)) = avg_rate n eps b1 b2 H' /\ w_v (fst (up s x h g)) = tab n (fun _ => 0)).
  Proof.
    intros H h g s x L A H'.
    destruct (adam_delta_snoc H h g s L A) as (Em & Ev & Ed).
    fold H' in Em, Ev, Ed.
    assert (LG : last_grad H' = g) by (unfold last_grad, H'; rewrite last_last; reflexivity).
    assert (LH : length H' = S (length H)) by (unfold H'; rewrite app_length; simpl; lia).
    unfold swats_up. rewrite (as_p _ _ A). cbv zeta.
    cbn [nadd nsub nmul ndiv n1 n0 nsqrt nlt neq nabs RNum Num.T].
    rewrite Em, Ev in *. rewrite Ed. rewrite !vdot_dot.
    set (D := adam_delta n eps b1 b2 H') in *.
    assert (US : usable n eps b1 b2 H' = negb (Reqb (dot D g) 0)).
    { unfold usable. fold D. rewrite LG. destruct (Reqb_spec (dot D g) 0) as [E|E]; destruct (Req_EM_T (dot D g) 0); try reflexivity; contradiction. }
    assert (RT : rate n eps b1 b2 H' = dot D D / dot D g) by (unfold rate; fold D; rewrite LG; reflexivity).
    pose proof (rates_snoc H (h, g)) as RS. fold H' in RS. rewrite US, RT in RS.
    rewrite (as_t _ _ A), (as_l _ _ A).
    destruct (negb (Reqb (dot D g) 0)) eqn:Q.
    - assert (LA : b2 * ema b2 (rates n eps b1 b2 H) + (1 - b2) * (dot D D / dot D g) = ema b2 (rates n eps b1 b2 H')).
      { rewrite RS, ema_snoc. ring. }
      rewrite LA.
      assert (AV : ema b2 (rates n eps b1 b2 H') / (1 - b2 ^ S (length H)) = avg_rate n eps b1 b2 H').
      { unfold avg_rate. rewrite LH. reflexivity. }
      rewrite AV.
      assert (SW : Rltb (Rabs (avg_rate n eps b1 b2 H' - dot D D / dot D g)) eps && (1 <? S (length H))%nat = true <->
                   switches n eps b1 b2 H').
      { unfold switches. rewrite US, RT, LH, andb_true_iff, Nat.ltb_lt.
        destruct (Rltb_spec (Rabs (avg_rate n eps b1 b2 H' - dot D D / dot D g)) eps); intuition discriminate. }
      destruct (Rltb (Rabs (avg_rate n eps b1 b2 H' - dot D D / dot D g)) eps && (1 <? S (length H))%nat) eqn:W; cbn [fst snd].
      + split; [reflexivity|]. split; [intros NS; exfalso; apply NS, SW; reflexivity|].
        intros _. cbn [w_phase w_rate w_v]. repeat split. rewrite tab_length. apply tab_repeat.
      + split; [reflexivity|]. split.
        * intros _. split; cbn [w_m w_v w_t w_phase w_lambda]; auto.
        * intros S1. apply SW in S1. discriminate.
    - cbn [fst snd]. split; [reflexivity|]. split.
      + intros _. split; cbn [w_m w_v w_t w_phase w_lambda]; auto. rewrite RS, app_nil_r. reflexivity.
      + intros (S1 & _). rewrite US in S1. discriminate.
  Qed.

  Lemma adam_init_st : AdamSt [] init.
  Proof.
    split; cbn; try reflexivity; rewrite tab_repeat; apply tab_ext; intros i; reflexivity.
  Qed.

  Lemma wf_app : forall a b, wf (a ++ b) -> wf a /\ wf b.
  Proof. intros a b W. split; intros h g I; apply (W h g); apply in_or_app; auto. Qed.

  Lemma adam_phase_st : forall (x : list R) H, wf H ->
    (forall P Q, H = P ++ Q -> ~ switches n eps b1 b2 P) -> AdamSt H (fst (runs init x H)).
  Proof.
    intros x H. induction H as [|[h g] H IH] using rev_ind; intros W NS; [apply adam_init_st|].
    apply wf_app in W as [W1 W2].
    assert (A : AdamSt H (fst (runs init x H))).
    { apply IH; [exact W1|]. intros P Q E. apply (NS P (Q ++ [(h, g)])). rewrite E, app_assoc. reflexivity. }
    rewrite run_snoc. apply one_step; [apply (W2 h); left; reflexivity|exact A|].
    apply (NS _ []). rewrite app_nil_r. reflexivity.
  Qed.

  Lemma switches_dec : forall H, switches n eps b1 b2 H \/ ~ switches n eps b1 b2 H.
  Proof.
    intros H. unfold switches. destruct (usable n eps b1 b2 H); [|right; intros (E & _); discriminate].
    destruct (Rlt_dec (Rabs (avg_rate n eps b1 b2 H - rate n eps b1 b2 H)) eps); [|right; tauto].
    destruct (lt_dec 1 (length H)); [left; auto|right; tauto].
  Qed.

  Lemma adam_phase : forall (x : list R) H h g, wf (H ++ [(h, g)]) ->
    (forall P Q, H = P ++ Q -> ~ switches n eps b1 b2 P) ->
    snd (runs init x (H ++ [(h, g)])) =
      vsub (N := NR) (snd (runs init x H)) (adam_delta n eps b1 b2 (H ++ [(h, g)])) /\
    (w_phase (fst (runs init x (H ++ [(h, g)]))) = true <-> switches n eps b1 b2 (H ++ [(h, g)])).
  Proof.
    intros x H h g W NS. apply wf_app in W as [W1 W2].
    pose proof (adam_phase_st x H W1 NS) as A.
    rewrite run_snoc.
    destruct (one_step H h g _ (snd (runs init x H)) (W2 h g (or_introl eq_refl)) A) as (E & F & Gs).
    split; [exact E|]. split.
    - intros Ph. destruct (switches_dec (H ++ [(h, g)])) as [|K]; [auto|].
      specialize (F K). rewrite (as_p _ _ F) in Ph. discriminate.
    - intros K. apply Gs in K. tauto.
  Qed.

  (* the SGD phase from any state *)
  Lemma sgd_phase_run : forall (l : hist) (s : swats (N := NR)) (X V : nat -> R), w_phase s = true -> wf l ->
    w_v s = tab n V ->
    let r := runs s (tab n X) l in
    w_phase (fst r) = true /\ w_rate (fst r) = w_rate s /\
    snd r = tab n (fun i => X i - (1 - b1) * w_rate s *
              ((match length l with O => 0 | S k => b1 * geom b1 k end) * V i + weighted (geom b1) (unit_steps (coord i l)))).
  Proof.
    induction l as [|[h g] l IH]; intros s X V Ph W Ev r.
    - unfold r. cbn. repeat split; auto. apply tab_ext. intros i. ring.
    - assert (Lg : length g = n) by (apply (W h); left; reflexivity).
      assert (G : g = tab n (fun i => nth i g 0)) by (rewrite <- Lg; apply tab_nth).
      set (V' := fun i => V i * b1 + nth i g 0).
      set (X' := fun i => X i - (1 - b1) * w_rate s * V' i).
      assert (U : snd (up s (tab n X) h g) = tab n X' /\ w_phase (fst (up s (tab n X) h g)) = true /\
                  w_rate (fst (up s (tab n X) h g)) = w_rate s /\ w_v (fst (up s (tab n X) h g)) = tab n V').
      { assert (EV : map2 Rplus (map (fun a : R => a * b1) (w_v s)) g = tab n V').
        { rewrite Ev, tab_map. transitivity (map2 Rplus (tab n (fun i => V i * b1)) (tab n (fun i => nth i g 0)));
            [rewrite <- G; reflexivity|]. apply tab_map2. }
        unfold swats_up. rewrite Ph. cbn [fst snd w_phase w_rate w_v].
        unfold vadd, vsub, vscale. cbn [nadd nsub nmul n1 RNum Num.T]. rewrite EV.
        rewrite tab_map, tab_map2. repeat split. }
      destruct U as (U1 & U2 & U3 & U4).
      assert (R1 : r = runs (fst (up s (tab n X) h g)) (tab n X') l).
      { unfold r. rewrite <- U1. unfold swats_run. cbn [fold_left fst snd]. rewrite <- surjective_pairing. reflexivity. }
      rewrite R1. destruct (IH (fst (up s (tab n X) h g)) X' V' U2 (fun h' g' I => W h' g' (or_intror I)) U4) as (A & B & C).
      split; [exact A|]. split; [rewrite B; exact U3|]. rewrite C, U3. apply tab_ext. intros i.
      unfold X', V'. cbn [coord map length unit_steps weighted fst snd].
      replace (length (map (fun q : R * R => (1, snd q)) (map (fun p : R * list R => (fst p, nth i (snd p) 0)) l))) with (length l)
        by (rewrite !map_length; reflexivity).
      change (map (fun q : R * R => (1, snd q)) (map (fun p : R * list R => (fst p, nth i (snd p) 0)) l)) with (unit_steps (coord i l)).
      destruct (length l) as [|k]; [rewrite geom_0|rewrite geom_S]; ring.
  Qed.

  Lemma sgd_phase : forall (x : list R) l1 l2, length x = n -> wf (l1 ++ l2) ->
    switches n eps b1 b2 l1 ->
    (forall P p Q, l1 = P ++ p :: Q -> ~ switches n eps b1 b2 P) ->
    let r := runs init x (l1 ++ l2) in
    w_phase (fst r) = true /\ w_rate (fst r) = avg_rate n eps b1 b2 l1 /\
    snd r = tab n (fun i => nth i (snd (runs init x l1)) 0 -
        (1 - b1) * avg_rate n eps b1 b2 l1 * weighted (geom b1) (unit_steps (coord i l2))).
  Proof.
    intros x l1 l2 Lx W SW NS r.
    destruct l1 as [|[h g] H] using rev_ind; [destruct SW as (_ & _ & K); simpl in K; lia|].
    apply wf_app in W as [W1 W2]. pose proof W1 as W1'. apply wf_app in W1' as [W3 W4].
    assert (NS' : forall P Q, H = P ++ Q -> ~ switches n eps b1 b2 P).
    { intros P Q E. destruct Q as [|q Q].
      - apply (NS P (h, g) []). rewrite E, app_nil_r. reflexivity.
      - apply (NS P q (Q ++ [(h, g)])). rewrite E, <- app_assoc. reflexivity. }
    pose proof (adam_phase_st x H W3 NS') as A.
    destruct (one_step H h g _ (snd (runs init x H)) (W4 h g (or_introl eq_refl)) A) as (E & _ & F).
    rewrite <- run_snoc in *. destruct (F SW) as (P1 & P2 & P3).
    set (x1 := snd (runs init x (H ++ [(h, g)]))) in *.
    assert (L1 : length x1 = n).
    { assert (LL : forall K, wf K -> (forall P Q, K = P ++ Q -> ~ switches n eps b1 b2 P) -> length (snd (runs init x K)) = n).
      { intros K. induction K as [|[h' g'] K IH] using rev_ind; intros WK NK; [exact Lx|].
        destruct (adam_phase x K h' g' WK) as [EK _].
        { intros P Q EQ. apply (NK P (Q ++ [(h', g')])). rewrite EQ, app_assoc. reflexivity. }
        rewrite EK. unfold vsub. rewrite map2_length. unfold adam_delta. rewrite tab_length.
        rewrite IH; [lia|apply wf_app in WK; tauto|].
        intros P Q EQ. apply (NK P (Q ++ [(h', g')])). rewrite EQ, app_assoc. reflexivity. }
      rewrite E. unfold vsub. rewrite map2_length. unfold adam_delta. rewrite tab_length, (LL H W3 NS'). lia. }
    unfold r. rewrite run_app.
    assert (X1 : x1 = tab n (fun i => nth i x1 0)) by (rewrite <- L1; apply tab_nth).
    fold x1. rewrite X1 at 1 2 3.
    destruct (sgd_phase_run l2 _ (fun i => nth i x1 0) (fun _ => 0) P1 W2 P3) as (Q1 & Q2 & Q3).
    split; [exact Q1|]. split; [rewrite Q2; exact P2|]. rewrite Q3, P2. apply tab_ext. intros i. ring.
  Qed.

  (* a second optimization with the same object *)
  Lemma second_run : forall p (x : list R) l, fst (fst p) = true -> length x = n -> wf l ->
    let r := runs (swats_init (N := NR) p n) x l in
    w_phase (fst r) = true /\
    snd r = tab n (fun i => nth i x 0 - (1 - b1) * snd (fst p) * weighted (geom b1) (unit_steps (coord i l))).
  Proof.
    intros p x l Ph Lx W r.
    assert (X1 : x = tab n (fun i => nth i x 0)) by (rewrite <- Lx; apply tab_nth).
    unfold r. rewrite X1 at 1 2.
    destruct (sgd_phase_run l (swats_init (N := NR) p n) (fun i => nth i x 0) (fun _ => 0) Ph W) as (A & _ & B).
    { cbn. apply tab_repeat. }
    split; [exact A|]. rewrite B. apply tab_ext. intros i. cbn [swats_init w_rate]. ring.
  Qed.
End S.

Section Ex.
  Definition exH : hist := [(1, [1]); (1, [1])].
  Lemma ex_delta1 : adam_delta 1 1 (1/2) (1/2) [(1, [1])] = [1/2].
  Proof.
    unfold adam_delta, tab, last_step, coord, M1, M2, gs_of, sq, corr. cbn. f_equal.
    replace (((1 - 1 / 2) * 1 * (1 * 1) + 0) / (1 - 1 / 2 * 1)) with 1 by field. rewrite sqrt_1. field.
  Qed.
  Lemma ex_delta2 : adam_delta 1 1 (1/2) (1/2) exH = [1/2].
  Proof.
    unfold adam_delta, tab, last_step, coord, M1, M2, gs_of, sq, corr. cbn. f_equal.
    replace (((1 - 1 / 2) * (1 / 2 * 1) * (1 * 1) + ((1 - 1 / 2) * 1 * (1 * 1) + 0)) / (1 - 1 / 2 * (1 / 2 * 1))) with 1 by field.
    rewrite sqrt_1. field.
  Qed.
  Lemma ex_usable : usable 1 1 (1/2) (1/2) [(1, [1])] = true /\ usable 1 1 (1/2) (1/2) exH = true.
  Proof.
    unfold usable. rewrite ex_delta1, ex_delta2. cbn.
    destruct (Req_EM_T _ 0) as [E|E]; [exfalso; lra|]. auto.
  Qed.
  Lemma ex_rate : rate 1 1 (1/2) (1/2) [(1, [1])] = 1/2 /\ rate 1 1 (1/2) (1/2) exH = 1/2.
  Proof. unfold rate. rewrite ex_delta1, ex_delta2. cbn. split; field. Qed.
  Lemma ex_switches : switches 1 1 (1/2) (1/2) exH /\
    forall P p Q, exH = P ++ p :: Q -> ~ switches 1 1 (1/2) (1/2) P.
  Proof.
    split.
    - split; [apply ex_usable|]. split; [|simpl; lia].
      assert (RS : rates 1 1 (1/2) (1/2) exH = [1/2; 1/2]).
      { unfold rates. change (prefixes exH) with [[(1, [1])]; exH]. cbn [filter].
        destruct ex_usable as [-> ->]. cbn [map]. destruct ex_rate as [-> ->]. reflexivity. }
      unfold avg_rate. rewrite RS. destruct ex_rate as [_ ->]. cbn.
      replace (_ - _) with 0 by field. rewrite Rabs_R0. lra.
    - intros P p Q E (_ & _ & L).
      assert (LE : length exH = (length P + S (length Q))%nat) by (rewrite E, app_length; reflexivity). simpl in LE. lia.
  Qed.
End Ex.
