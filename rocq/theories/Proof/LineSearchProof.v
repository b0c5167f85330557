From Coq Require Import List Arith Bool ZArith Lia.
From Verif.Base Require Import Num Vec.
From Verif.Model Require Import Common SA LBFGS.
From Verif.Spec Require Import CommonSpec LBFGSSpec.
From Verif.Proof Require Import SAProof DEProof.
Import ListNotations.

Lemma nth_error_snoc {A} (l : list A) a i b : nth_error (l ++ [a]) i = Some b ->
  nth_error l i = Some b \/ (i = length l /\ a = b).
Proof.
  intros E. destruct (Nat.lt_ge_cases i (length l)) as [H|H].
  - rewrite nth_error_app1 in E by exact H. left; exact E.
  - rewrite nth_error_app2 in E by exact H. destruct (i - length l) as [|[|k]] eqn:K; cbn in E; try discriminate.
    injection E as E. right. split; [lia|exact E].
Qed.
Lemma nth_error_last {A} (l : list A) a : nth_error (l ++ [a]) (length l) = Some a.
Proof. rewrite nth_error_app2, Nat.sub_diag by lia. reflexivity. Qed.
Lemma nth_error_old {A} (l : list A) a i b : nth_error l i = Some b -> nth_error (l ++ [a]) i = Some b.
Proof. intros E. rewrite nth_error_app1; [exact E|]. apply nth_error_Some. congruence. Qed.

Section LineSearch.
  Context {N : Num} (O : OrdLaws N).
  Notation vec := (list N).
  Variables (armijo wolfe minStep maxStep : N) (maxTrials : nat).
  Variable f : vec -> N * vec.
  Variable cb : CB N vec vec.
  Notation loop := (ls_loop wolfe minStep maxStep maxTrials f cb).

  Definition best_inv (ts : list (N * N * vec)) (best obj : N) : Prop :=
    (exists i t, nth_error ts i = Some t /\ t_step t = best /\ t_val t = obj /\ nlt (t_val t) nmax = true /\
       forall j u, nth_error ts j = Some u ->
         nlt (t_val u) (t_val t) = false /\ (j < i -> nlt (t_val t) (t_val u) = true)) \/
    (best = n1 /\ obj = nmax /\ forall t, In t ts -> nlt (t_val t) nmax = false).

  Lemma best_inv_step ts best obj (step v : N) (g : vec) :
    (forall t, In t ts -> nisnan (t_val t) = false) -> nisnan v = false ->
    best_inv ts best obj ->
    best_inv (ts ++ [(step, v, g)]) (if nlt v obj then step else best) (if nlt v obj then v else obj).
  Proof.
    intros NT NV B. destruct (nlt v obj) eqn:E.
    - left. exists (length ts), (step, v, g). split; [apply nth_error_last|]. split; [reflexivity|]. split; [reflexivity|].
      assert (VM : nlt v nmax = true).
      { destruct B as [(i & t & _ & _ & TV & TM & _)|(_ & TV & _)]; [|rewrite <- TV; exact E].
        apply (ol_trans N O _ _ _ E). rewrite <- TV. exact TM. }
      split; [exact VM|]. cbn [t_val fst snd].
      assert (LT : forall u, In u ts -> nlt v (t_val u) = true).
      { intros u IU. assert (NL : nlt (t_val u) obj = false).
        { destruct B as [(i & t & _ & _ & TV & _ & L)|(_ & TV & L)].
          - apply In_nth_error in IU. destruct IU as [j J]. rewrite <- TV. apply (L j u J).
          - rewrite TV. apply L, IU. }
        apply (ol_lt_le_trans N O _ obj _ E). apply (ol_total N O); auto.
        destruct (nisnan obj) eqn:NO; [|reflexivity]. rewrite (ol_nan_lt_r N O _ _ NO) in E. discriminate. }
      intros j u J. apply nth_error_snoc in J. destruct J as [J|[-> <-]].
      + pose proof (LT u (nth_error_In _ _ J)) as LU. split; [|auto].
        cbn [t_val fst snd]. destruct (nlt (t_val u) v) eqn:F; [|reflexivity].
        pose proof (ol_trans N O _ _ _ F LU) as C. rewrite (ol_irrefl N O) in C. discriminate.
      + cbn [t_val fst snd]. split; [apply (ol_irrefl N O)|lia].
    - destruct B as [(i & t & TI & TS & TV & TM & L)|(B1 & B2 & L)].
      + left. exists i, t. split; [apply nth_error_old, TI|]. do 3 (split; [assumption|]).
        intros j u J. apply nth_error_snoc in J. destruct J as [J|[-> <-]]; [apply L, J|].
        cbn [t_val fst snd]. rewrite TV. split; [exact E|].
        intros C. assert (i < length ts) by (apply nth_error_Some; congruence). lia.
      + right. do 2 (split; [assumption|]). intros u IU. apply in_app_iff in IU.
        destruct IU as [IU|[<-|[]]]; [apply L, IU|]. cbn [t_val fst snd]. rewrite <- B2. exact E.
  Qed.

  Definition step_inv (ts : list (N * N * vec)) (step : N) : Prop :=
    step_sizes ts /\ (ts = [] -> step = n1) /\
    (forall t, nth_error ts (length ts - 1) = Some t ->
       step = nmul (t_step t) (ndiv (nofZ 21) (nofZ 10)) \/ step = nmul (t_step t) (ndiv n1 (nofZ 2))).

  Lemma step_inv_sizes ts step v g : step_inv ts step -> step_sizes (ts ++ [(step, v, g)]).
  Proof.
    intros ((S1 & S2) & S3 & S4). split.
    - intros t E. apply nth_error_snoc in E. destruct E as [E|[E <-]]; [apply S1, E|].
      cbn [t_step fst]. apply S3. symmetry in E. apply length_zero_iff_nil, E.
    - intros i t u ET EU. apply nth_error_snoc in EU. destruct EU as [EU|[EU <-]].
      + assert (i < length ts) by (assert (S i < length ts) by (apply nth_error_Some; congruence); lia).
        rewrite nth_error_app1 in ET by assumption. apply (S2 i t u ET EU).
      + cbn [t_step fst]. rewrite nth_error_app1 in ET by lia. apply S4.
        replace (length ts - 1) with i by lia. exact ET.
  Qed.
  Lemma step_inv_next ts step v g w : step_inv ts step -> w = @inc N \/ w = @dec N ->
    step_inv (ts ++ [(step, v, g)]) (nmul step w).
  Proof.
    intros H W. split; [apply step_inv_sizes, H|]. split.
    - intros C. destruct ts; discriminate.
    - intros t. rewrite app_length. cbn [length]. replace (length ts + 1 - 1) with (length ts) by lia.
      rewrite nth_error_last. intros E. injection E as <-. cbn [t_step fst].
      destruct W as [->| ->]; [left|right]; reflexivity.
  Qed.

  (** what a search leaves behind *)
  Definition ls_post (v0 slope : N) (x d : vec) (term0 : bool) (tr0 : list (ev N vec vec)) (l : LS) : Prop :=
    let ts := ls_trials l in
    step_sizes ts /\ trial_values f x d ts /\ 1 <= length ts <= Nat.max 1 maxTrials /\
    (exists evs, ls_tr l = rev evs ++ tr0 /\
       search_events f x d (if ls_ok l then ts else removelast ts) evs /\
       (ls_term l = true <-> term0 = true \/ exists h e rest, evs = rev h ++ e :: rest /\ cs_stop cb (e :: h ++ tr0) = true)) /\
    if ls_ok l then
      (forall t, In t ts -> nisnan (t_val t) = false) /\
      best_step ts (ls_step l) /\ ls_x l = at_step x d (ls_step l) /\
      exists before t, ts = before ++ [t] /\ ls_val l = t_val t /\ ls_g l = t_grad t /\
        (strong_wolfe armijo wolfe v0 slope d t \/ gave_up minStep maxStep maxTrials ts t)
    else
      ls_x l = x /\ ls_step l = n0 /\
      exists before t, ts = before ++ [t] /\ ls_val l = t_val t /\ ls_g l = t_grad t /\ nisnan (t_val t) = true /\
        (forall u, In u before -> nisnan (t_val u) = false).

  Lemma ls_loop_ok v0 slope (x d : vec) term0 tr0 : forall fuel ts step best obj term tr evs,
    maxTrials < fuel + length ts -> length ts < Nat.max 1 maxTrials ->
    step_inv ts step -> trial_values f x d ts -> (forall t, In t ts -> nisnan (t_val t) = false) ->
    best_inv ts best obj ->
    tr = rev evs ++ tr0 -> search_events f x d ts evs ->
    (term = true <-> term0 = true \/ exists h e rest, evs = rev h ++ e :: rest /\ cs_stop cb (e :: h ++ tr0) = true) ->
    exists l, loop fuel (length ts) x d v0 slope (nmul armijo slope) step best obj term ts tr = Some l /\
      ls_post v0 slope x d term0 tr0 l.
  Proof.
    induction fuel as [|fuel IH]; intros ts step best obj term tr evs FU LT SI TV NN BI TR SE TE; [lia|].
    cbn [ls_loop]. fold (at_step x d step). destruct (f (at_step x d step)) as [v g] eqn:F.
    destruct (nisnan v) eqn:NV.
    - eexists. split; [reflexivity|]. unfold ls_post. cbn [ls_ok ls_trials ls_tr ls_x ls_step ls_val ls_g ls_term].
      split; [apply step_inv_sizes, SI|]. split.
      { intros t IT. apply in_app_iff in IT. destruct IT as [IT|[<-|[]]]; [apply TV, IT|].
        cbn [t_val t_step fst snd]. rewrite F. reflexivity. }
      split; [rewrite app_length; cbn [length]; lia|]. split.
      { exists evs. split; [exact TR|]. rewrite removelast_last. split; assumption. }
      split; [reflexivity|split; [reflexivity|]].
      exists ts, (step, v, g). cbn [t_val t_grad fst snd]. auto.
    - set (g' := cs_grad cb tr (at_step x d step) v g). cbv zeta.
      set (tr1 := EvG (at_step x d step) v g g' :: tr).
      set (ts' := ts ++ [(step, v, g')]).
      set (best' := if nlt v obj then step else best). set (obj' := if nlt v obj then v else obj).
      set (e := @EvG N vec vec (at_step x d step) v g g') in *.
      assert (SS : step_sizes ts') by (apply step_inv_sizes, SI).
      assert (TV' : trial_values f x d ts').
      { intros t IT. apply in_app_iff in IT. destruct IT as [IT|[<-|[]]]; [apply TV, IT|].
        cbn [t_val t_step fst snd]. rewrite F. reflexivity. }
      assert (NN' : forall t, In t ts' -> nisnan (t_val t) = false).
      { intros t IT. apply in_app_iff in IT. destruct IT as [IT|[<-|[]]]; [apply NN, IT|exact NV]. }
      assert (BI' : best_inv ts' best' obj') by (apply best_inv_step; assumption).
      assert (LE : length ts' = S (length ts)) by (unfold ts'; rewrite app_length; cbn; lia).
      assert (TR' : tr1 = rev (evs ++ [e]) ++ tr0) by (unfold tr1; rewrite rev_app_distr, TR; reflexivity).
      assert (SE' : search_events f x d ts' (evs ++ [e])).
      { apply Forall2_app; [exact SE|]. constructor; [|constructor]. exists g. cbn [t_step t_val t_grad fst snd].
        rewrite F. auto. }
      assert (TE' : (term || cs_stop cb tr1)%bool = true <-> term0 = true \/
                exists h e' rest, evs ++ [e] = rev h ++ e' :: rest /\ cs_stop cb (e' :: h ++ tr0) = true).
      { rewrite orb_true_iff, TE. unfold tr1. rewrite TR. split.
        - intros [[A|(h & e' & r & A & B)]|A]; [auto| |].
          + right. exists h, e', (r ++ [e]). rewrite A, <- app_assoc. auto.
          + right. exists (rev evs), e, []. rewrite rev_involutive. auto.
        - intros [A|(h & e' & r & A & B)]; [auto|]. destruct (exists_last (l := e' :: r) ltac:(discriminate)) as (r' & z & Z).
          rewrite Z, app_assoc in A. apply app_inj_tail in A. destruct A as [A <-].
          destruct r' as [|e2 r'].
          + injection Z as -> ->. right. rewrite app_nil_r in A. subst evs. rewrite rev_involutive. exact B.
          + injection Z as -> ->. left. right. exists h, e2, r'. auto. }
      assert (DONE : forall t, t = (step, v, g') ->
        (strong_wolfe armijo wolfe v0 slope d t \/ gave_up minStep maxStep maxTrials ts' t) ->
        ls_post v0 slope x d term0 tr0 {| ls_ok := true; ls_val := v; ls_x := vadd x (vscale best' d); ls_g := g';
          ls_step := best'; ls_term := term || cs_stop cb tr1; ls_trials := ts'; ls_tr := tr1 |}).
      { intros t -> W. unfold ls_post. cbn [ls_ok ls_trials ls_tr ls_x ls_step ls_val ls_g ls_term].
        split; [exact SS|split; [exact TV'|split; [lia|split]]].
        - exists (evs ++ [e]). auto.
        - split; [exact NN'|]. split; [|split; [reflexivity|]].
          + destruct BI' as [(i & t & A & B & C & D & L)|(A & B & L)]; [left|right].
            * exists i, t. auto.
            * auto.
          + exists ts, (step, v, g'). cbn [t_val t_grad fst snd]. auto. }
      (* the width *)
      set (width := if nlt (nadd v0 (nmul step (nmul armijo slope))) v then Some (@dec N)
                    else if nlt (vdot g' d) (nmul wolfe slope) then Some (@inc N)
                    else if nlt (nmul (nopp wolfe) slope) (vdot g' d) then Some (@dec N) else None).
      assert (WD : match width with
                   | Some w => w = @inc N \/ w = @dec N
                   | None => strong_wolfe armijo wolfe v0 slope d (step, v, g') end).
      { unfold width. destruct (nlt (nadd v0 _) v) eqn:E1; [auto|].
        destruct (nlt (vdot g' d) (nmul wolfe slope)) eqn:E2; [auto|].
        destruct (nlt (nmul (nopp wolfe) slope) (vdot g' d)) eqn:E3; [auto|].
        split; [exact E1|split; [exact E2|exact E3]]. }
      destruct width as [w|].
      + destruct (nlt step minStep || nlt maxStep step || (maxTrials <=? S (length ts)))%bool eqn:C.
        * eexists. split; [reflexivity|]. apply (DONE (step, v, g') eq_refl). right.
          unfold gave_up. cbn [t_step fst]. rewrite !orb_true_iff in C. destruct C as [[C|C]|C]; auto.
          apply Nat.leb_le in C. right; right. lia.
        * rewrite !orb_false_iff in C. destruct C as [_ C]. apply Nat.leb_gt in C.
          rewrite <- LE. apply (IH ts' (nmul step w) best' obj' _ _ (evs ++ [e])); auto; try lia.
          unfold ts'. apply step_inv_next; assumption.
      + eexists. split; [reflexivity|]. apply (DONE (step, v, g') eq_refl). left. exact WD.
  Qed.

  Theorem line_search_ok v0 (x g d : vec) term tr :
    exists l, line_search armijo wolfe minStep maxStep maxTrials f cb v0 x g d term tr = Some l /\
      ((ls_ok l = false /\ ls_trials l = [] /\ ls_x l = x /\ ls_val l = v0 /\ ls_g l = g /\ ls_tr l = tr /\
        ls_term l = term /\ ls_step l = n0 /\
        (nlt n0 (vdot g d) = true \/ nisnan (vdot g d) = true \/ nisinf (vdot g d) = true)) \/
       (nlt n0 (vdot g d) = false /\ nisnan (vdot g d) = false /\ nisinf (vdot g d) = false /\
        ls_post v0 (vdot g d) x d term tr l)).
  Proof.
    unfold line_search, nfinite. cbv zeta. rewrite negb_involutive.
    destruct (nlt n0 (vdot g d) || (nisnan (vdot g d) || nisinf (vdot g d)))%bool eqn:C.
    - eexists. split; [reflexivity|]. left. cbn. rewrite !orb_true_iff in C. repeat split; tauto.
    - rewrite !orb_false_iff in C. destruct C as (C1 & C2 & C3).
      destruct (ls_loop_ok v0 (vdot g d) x d term tr (S maxTrials) [] n1 n1 nmax term tr []) as (l & L & P);
        try (cbn [length]; lia).
      + split; [|split; [reflexivity|]].
        * split; [intros t E; discriminate|intros i t u E; destruct i; discriminate].
        * intros t E; discriminate.
      + intros t [].
      + intros t [].
      + right. repeat split. intros t [].
      + reflexivity.
      + constructor.
      + split; [auto|]. intros [A|(h & e & r & A & _)]; [exact A|]. destruct (rev h); discriminate.
      + exists l. split; [exact L|]. right. auto.
  Qed.
End LineSearch.
