(** Every epoch of a run of parallel SGD brings the iterate closer to the minimiser, down to a floor. *)
From Coq Require Import List Arith Bool Reals Lra Lia Permutation.
From Verif.Base Require Import Num Vec Instances.
From Verif.Model Require Import Common SA ParallelSgd.
From Verif.Spec Require Import Gradient ConvergeSpec FWSpec VrRateSpec SgdRateSpec ParSpec ParSerialSpec.
From Verif.Proof Require Import SmoothProof GDConverge NormProof VrRate SgdRate SAProof ParProof ParRun ParSerial ParFloor.
Import ListNotations.
Local Open Scope R_scope.

Section Link.
  Variable mx : R.
  Notation RN := (RNum mx).
  Variables (p n : nat) (h : R) (gr : nat -> list R -> list R).
  Hypothesis GL : forall i x, (i < n)%nat -> length x = p -> length (gr i x) = p.
  Hypothesis HE : 0 < h.
  Notation am := (amounts (N := RN)).
  Notation pts := (list (nat * list R)).
  Inductive reads : list (pev RN) -> pts -> Prop :=
  | reads_nil : reads [] []
  | reads_grad t idx ask z log l : reads log l -> reads (PGrad (N := RN) t idx (nonzeros 0 (gr idx z)) ask :: log) ((idx, z) :: l)
  | reads_other e log l : match e with PGrad _ _ _ _ => False | _ => True end -> reads log l -> reads (e :: log) l.

  Lemma reads_computed log l : reads log l -> map snd (computed (N := RN) (rev log)) = rev (map fst l).
  Proof.
    induction 1 as [|t idx ask z log l H IH|e log l E H IH]; [reflexivity| |]; unfold computed in *; rewrite flat_rev_cons, map_app, IH.
    - reflexivity.
    - destruct e; try contradiction; cbn; apply app_nil_r.
  Qed.
  Lemma reads_sum q log l : reads log l -> sumR (am q (wanted (N := RN) h (rev log))) = h * sumR (map (fun v => nth q v 0) (made gr l)).
  Proof.
    induction 1 as [|t idx ask z log l H IH|e log l E H IH]; [cbn; lra| |]; unfold wanted in *; rewrite flat_rev_cons, am_app, sumR_app.
    - cbn [made map sumR fst snd]. pose proof (am_sum mx h (gr idx z) q) as Q. unfold scaled in Q. cbn in Q, IH |- *. unfold made in IH. rewrite Q, IH. ring.
    - refine (eq_trans (f_equal2 Rplus IH eq_refl) _). destruct e; try contradiction; cbn; lra.
  Qed.
  Lemma reads_abs q log l : reads log l -> sumR (map Rabs (am q (wanted (N := RN) h (rev log)))) = h * sumR (map (fun v => Rabs (nth q v 0)) (made gr l)).
  Proof.
    induction 1 as [|t idx ask z log l H IH|e log l E H IH]; [cbn; lra| |]; unfold wanted in *; rewrite flat_rev_cons, am_app, map_app, sumR_app.
    - cbn [made map sumR fst snd]. pose proof (am_abs mx h (gr idx z) q (Rlt_le _ _ HE)) as Q. unfold scaled in Q. cbn in Q, IH |- *. unfold made in IH. rewrite Q, IH. ring.
    - refine (eq_trans (f_equal2 Rplus IH eq_refl) _). destruct e; try contradiction; cbn; lra.
  Qed.
  Lemma subs_len (us : list (nat * R)) : forall x : list R, length (subs (N := RN) us x) = length x.
  Proof.
    unfold subs. induction us as [|[q a] us IH]; intros x; [reflexivity|]. cbn [fold_left]. refine (eq_trans (IH _) _).
    unfold sub_at. change (Num.T RN) with R. destruct (nth_error x q); [apply set_nth_length|reflexivity].
  Qed.

  Variable w : list R.
  Hypothesis Lw : length w = p.
  Variables (share : nat) (order : list nat).
  Variable grad : list (pev RN) -> nat -> list (nat * R).
  Variables (cbG cbS : list (pev RN) -> bool).
  Hypothesis SEEN : forall hh idx, (idx < n)%nat -> exists y, seen (N := RN) w hh y /\ grad hh idx = nonzeros 0 (gr idx y).
  Hypothesis ORD : Permutation order (seq 0 n).
  Notation pstep := (pstep (N := RN) share order h grad cbG cbS).
  Notation pexec := (pexec (N := RN) share order h grad cbG cbS).
  Variable all : list (nat * nat).
  Notation inv := (inv (N := RN) share order h w all).
  Notation drifted := (drifted p n h gr w).

  Lemma seen_len hh (y : list R) : seen (N := RN) w hh y -> length y = p.
  Proof.
    intros S0. assert (Q : forall q, nth_error y q = None <-> nth_error w q = None).
    { intros q. destruct (S0 q) as (h1 & h2 & _ & E). change (Num.T RN) with R in *. rewrite E. 
      pose proof (nth_after mx (applied (N := RN) (rev h2)) w q) as A. unfold after. unfold subs in A. change (Num.T RN) with R in *. rewrite A.
      destruct (nth_error w q); cbn; split; intros; congruence. }
    apply Nat.le_antisymm.
    - apply nth_error_None. apply Q. apply nth_error_None. lia.
    - rewrite <- Lw. apply nth_error_None. apply Q. apply nth_error_None. lia.
  Qed.
  Lemma made_ok l : drifted l -> Forall (fun a => length a = p) (made gr l).
  Proof. induction l as [|[i z] l IH]; intros D; [constructor|]. destruct D as (I & Lz & _ & D). constructor; [apply GL; auto|apply IH, D]. Qed.
  Lemma grad_drift s ls l (y : list R) : inv s ls -> reads (s_log s) l -> drifted l -> seen (N := RN) w (s_log s) y -> dst y w <= h * spent gr l.
  Proof.
    intros (_ & I2 & _) RD D SY. unfold spent. apply dominate with (p := p); [lra|exact (seen_len _ _ SY)|exact Lw|apply made_ok, D|].
    intros q. rewrite <- (reads_abs q _ _ RD). destruct (SY q) as (h1 & h2 & Eh & E). change (Num.T RN) with R in *.
    pose proof (nth_after mx (applied (N := RN) (rev h2)) w q) as A. unfold subs in A. unfold after in E. change (Num.T RN) with R in *. rewrite A in E.
    assert (P : Permutation (am q (applied (N := RN) (rev (s_log s)) ++ pends (N := RN) ls)) (am q (wanted (N := RN) h (rev (s_log s))))) by exact (amounts_perm (N := RN) q _ _ I2).
    assert (B : sumR (map Rabs (am q (applied (N := RN) (rev h2)))) <= sumR (map Rabs (am q (wanted (N := RN) h (rev (s_log s)))))).
    { rewrite <- (sumR_perm _ _ (Permutation_map Rabs P)). rewrite Eh, rev_app_distr. unfold applied at 2. rewrite flat_map_app. fold (applied (N := RN) (rev h2)).
      rewrite !am_app, !map_app, !sumR_app.
      pose proof (abs_sum_nonneg (am q (flat_map (fun e : pev RN => match e with PSub _ p a => [(p, a)] | _ => [] end) (rev h1)))) as Z1.
      pose proof (abs_sum_nonneg (am q (pends (N := RN) ls))) as Z2. change (Num.T RN) with R in *. lra. }
    destruct (nth_error w q) as [b|] eqn:Ew.
    - cbn in E. rewrite (nth_error_nth y q 0 E), (nth_error_nth w q 0 Ew). 
      match goal with |- Rabs (?u - ?v - ?u) <= _ => replace (u - v - u) with (- v) by ring end. rewrite Rabs_Ropp.
      eapply Rle_trans; [apply sum_abs_le|exact B].
    - cbn in E. apply nth_error_None in E. apply nth_error_None in Ew. rewrite !nth_overflow by assumption. rewrite Rminus_0_r, Rabs_R0. apply abs_sum_nonneg.
  Qed.
  Lemma link_step t s lc ls s' lc' l : nth_error ls t = Some lc -> pstep t s lc = Some (s', lc') ->
    inv s ls -> reads (s_log s) l -> drifted l -> exists l', reads (s_log s') l' /\ drifted l'.
  Proof.
    intros NT E IV RD D. unfold ParallelSgd.pstep in E. destruct lc as [j ph]. cbn in E.
    destruct ph as [|ask u|bb u|[|[q v] u]|ask|bb]; [destruct (in_loop share order t j) eqn:IL; [|discriminate]|..];
      injection E as <- <-; try (exists l; split; [apply reads_other; [exact Logic.I|exact RD]|exact D]).
    assert (J : (j < length order)%nat).
    { unfold in_loop in IL. apply andb_true_iff in IL. destruct IL as [_ IL]. apply Nat.ltb_lt in IL. exact IL. }
    assert (Ln : (nth j order 0 < n)%nat).
    { pose proof (Permutation_in _ ORD (nth_In order 0%nat J)) as I. apply in_seq in I. lia. }
    destruct (SEEN (s_log s) (nth j order 0%nat) Ln) as (y & SY & Eg). exists ((nth j order 0%nat, y) :: l). cbn [s_log emit]. rewrite Eg. split.
    - apply reads_grad. exact RD.
    - cbn. split; [exact Ln|]. split; [exact (seen_len _ _ SY)|]. split; [exact (grad_drift s ls l y IV RD D SY)|exact D].
  Qed.
  Lemma link_exec : forall sched s ls s' ls' l, pexec sched s ls = (s', ls') -> inv s ls -> reads (s_log s) l -> drifted l ->
    exists l', reads (s_log s') l' /\ drifted l'.
  Proof.
    induction sched as [|t r IH]; intros s ls s' ls' l E I RD D; cbn in E; [injection E as <- <-; eauto|].
    destruct (nth_error ls t) as [lc|] eqn:NT; [|eapply IH; eauto].
    destruct (pstep t s lc) as [[s1 l1]|] eqn:PS; [|eapply IH; eauto].
    destruct (link_step t s lc ls s1 l1 l NT PS I RD D) as (l' & RD' & D').
    exact (IH _ _ _ _ _ E (inv_step (N := RN) share order h grad cbG cbS w all t s lc ls s1 l1 NT PS I) RD' D').
  Qed.
End Link.

Section Run.
  Variable mx : R.
  Notation RN := (RNum mx).
  Variables (p n : nat) (L mu h : R) (gr : nat -> list R -> list R) (F : list R -> R) (y : list R).
  Hypothesis ES : each_smooth p n L gr.
  Hypothesis SM : smooth_on (space p) L F (avg_grad p n gr).
  Hypothesis SC : strongly_convex_on (space p) mu F.
  Hypothesis HM : 0 < mu <= L.
  Hypothesis HE : 0 < h.
  Hypothesis Hn : (0 < n)%nat.
  Hypothesis Hy : length y = p.
  Hypothesis MN : forall z, length z = p -> F y <= F z.
  Hypothesis SMALL : 8 * (h * INR n) * (L * L) <= mu.

  Lemma epoch_near share order grad cbG cbS T sched (w : list R) term s ls :
    length w = p -> Permutation order (seq 0 n) -> (n <= T * share)%nat ->
    (forall hh idx, (idx < n)%nat -> exists z, seen (N := RN) w hh z /\ grad hh idx = nonzeros 0 (gr idx z)) ->
    pexec (N := RN) share order h grad cbG cbS sched {| s_it := (w : list RN); s_term := term; s_log := [] |} (start share T) = (s, ls) ->
    finished (N := RN) share order ls = true ->
    exists o, Permutation o (seq 0 n) /\ mid p n L h gr o w n (s_it s).
  Proof.
    intros Lw ORD LT SEEN E FI.
    destruct (epoch_ok (N := RN) share order h grad cbG cbS T sched w term s ls E FI) as (P1 & _ & P2 & P3).
    assert (LO : length order = n) by (rewrite (Permutation_length ORD); apply seq_length).
    rewrite firstn_all2 in P1 by lia.
    set (all := flat_map (fun t => map (fun i => (t, i)) (slice order (t * share) ((t + 1) * share))) (seq 0 T)).
    assert (I0 : inv (N := RN) share order h w all {| s_it := (w : list RN); s_term := term; s_log := [] |} (start share T)).
    { unfold inv. cbn [s_log rev]. rewrite start_pends. unfold start. rewrite start_todos. split; [reflexivity|]. split; reflexivity. }
    assert (GL : forall i x, (i < n)%nat -> length x = p -> length (gr i x) = p) by (intros i x I Lx; apply (ES i x x); auto).
    destruct (link_exec mx p n h gr GL HE w Lw share order grad cbG cbS SEEN ORD all sched _ _ _ _ [] E I0 (reads_nil mx gr) Logic.I) as (l & RD & D).
    assert (PL : Permutation (map fst l) (seq 0 n)).
    { rewrite <- ORD, <- P1. rewrite (reads_computed mx gr _ _ RD). apply Permutation_rev. }
    exists (map fst l). split; [exact PL|].
    assert (X : s_it s = along w (sum_vec p (made gr l)) (- h)); [|rewrite X; exact (epoch_mid p n L mu h gr ES HM HE SMALL w Lw l D PL)].
    pose proof (made_ok p n h gr GL w l D) as MO. assert (LS : length (sum_vec p (made gr l)) = p) by (apply sum_len, MO).
    refine (eq_trans P3 _). apply nth_ext with (d := 0) (d' := 0).
    - rewrite along_length by congruence. apply subs_len.
    - intros q _. rewrite nth_along by congruence. rewrite nth_sum by exact MO.
      pose proof (nth_after mx (applied (N := RN) (rev (s_log s))) w q) as A. change (Num.T RN) with R in *.
      assert (Q : sumR (amounts (N := RN) q (applied (N := RN) (rev (s_log s)))) = h * sumR (map (fun v => nth q v 0) (made gr l))).
      { rewrite <- (reads_sum mx h gr q _ _ RD). apply sumR_perm. exact (amounts_perm (N := RN) q _ _ P2). }
      destruct (nth_error w q) as [b|] eqn:Ew.
      + cbn in A. rewrite (nth_error_nth _ q 0 A), (nth_error_nth w q 0 Ew). 
        match goal with |- ?u - ?v = _ => replace v with (h * sumR (map (fun vv => nth q vv 0) (made gr l))) by (symmetry; exact Q) end. ring.
      + cbn in A. apply nth_error_None in A. apply nth_error_None in Ew. rewrite (nth_overflow w) by exact Ew. rewrite nth_overflow by exact A.
        assert (Z : sumR (map (fun v => nth q v 0) (made gr l)) = 0).
        { clear -MO Ew Lw. induction (made gr l) as [|v m IH]; [reflexivity|]. cbn. rewrite IH by exact (Forall_inv_tail MO).
          rewrite nth_overflow; [lra|]. rewrite (Forall_inv MO). lia. }
        rewrite Z. ring.
  Qed.

  Variable x0 : list R.
  Notation q := (1 - h * INR n * mu / 4).
  Notation B e := (q ^ e * dst x0 y + 8 * h * L * disagreement n gr y / mu).
  Variables (maxIterations : nat) (tolerance : R).
  Variable f : list R -> R.
  Variables (shuffle : bool) (T share : nat).
  Variable perm : list (oev RN) -> list nat -> list nat.
  Variable cbE : list (oev RN) -> bool.
  Variable grad : list (oev RN) -> list (pev RN) -> nat -> list (nat * R).
  Variables (cbG cbS : list (oev RN) -> list (pev RN) -> bool).
  Variable sched : list (oev RN) -> list nat.
  Hypothesis PERM : forall hh l, Permutation (perm hh l) l.
  Hypothesis LT : (n <= T * share)%nat.
  Hypothesis SEEN : forall x v h0 hh idx, (idx < n)%nat -> exists z, seen (N := RN) x hh z /\ grad (OEval (N := RN) x v :: h0) hh idx = nonzeros 0 (gr idx z).

  Lemma run_near : forall fuel i order (x : list R) last term tr v (xf : list R) full,
    psgd_loop (N := RN) maxIterations tolerance shuffle T share f (fun _ => h) perm cbE grad cbG cbS sched fuel i order x last term tr = Ret (v, xf, full) ->
    Permutation order (seq 0 n) -> length x = p -> length (epochs (N := RN) tr) = (i - 1)%nat -> (1 <= i)%nat ->
    dst x y <= B (i - 1)%nat -> (forall j o a es z, In (OEpoch (N := RN) j o a es z) tr -> dst z y <= B j) ->
    (forall j o a es z, In (OEpoch (N := RN) j o a es z) full -> dst z y <= B j) /\ dst xf y <= B (length (epochs (N := RN) full)).
  Proof.
    assert (EN : forall tr e, match e with OEpoch _ _ _ _ _ => False | _ => True end -> length (epochs (N := RN) (e :: tr)) = length (epochs (N := RN) tr)) by (intros tr [] H; try contradiction; reflexivity).
    assert (ER : forall tr, length (epochs (N := RN) (rev tr)) = length (epochs (N := RN) tr)).
    { intros tr. unfold epochs. induction tr as [|e tr IH]; [reflexivity|]. cbn. rewrite flat_map_app, app_length, IH. cbn. rewrite app_nil_r.
      destruct e; cbn; lia. }
    induction fuel as [|fuel IH]; intros i order x last term tr v xf full E PO Lx LE I1 DX ET; cbn [psgd_loop] in E; [discriminate|].
    assert (STOP : forall v' tr', Ret (v', x, rev (OEnd (N := RN) x :: tr')) = Ret (v, xf, full) ->
      (forall j o a es z, In (OEpoch (N := RN) j o a es z) tr' -> dst z y <= B j) -> length (epochs (N := RN) tr') = (i - 1)%nat ->
      (forall j o a es z, In (OEpoch (N := RN) j o a es z) full -> dst z y <= B j) /\ dst xf y <= B (length (epochs (N := RN) full))).
    { intros v' tr' Q H1 H2. injection Q as _ <- <-. split.
      - intros j o a es z I. apply (H1 j o a es z). apply in_app_or in I. destruct I as [I|[I|[]]]; [apply in_rev in I; exact I|discriminate].
      - change (rev tr' ++ [OEnd (N := RN) x]) with (rev (OEnd (N := RN) x :: tr')). rewrite ER, EN by exact Logic.I. rewrite H2. exact DX. }
    destruct ((i =? bound maxIterations) || term)%bool; [exact (STOP _ _ E ET LE)|].
    assert (ET' : forall j o a es z, In (OEpoch (N := RN) j o a es z) (OEval (N := RN) x (f x) :: tr) -> dst z y <= B j) by (intros j o a es z [Q|I]; [discriminate|exact (ET j o a es z I)]).
    assert (LE' : length (epochs (N := RN) (OEval (N := RN) x (f x) :: tr)) = (i - 1)%nat) by (rewrite EN by exact Logic.I; exact LE).
    destruct (nisnan (n := RN) (f x) || nisinf (n := RN) (f x))%bool; [exact (STOP _ _ E ET' LE')|].
    destruct (nlt (n := RN) (nabs (n := RN) (nsub (n := RN) last (f x))) tolerance); [exact (STOP _ _ E ET' LE')|].
    set (order1 := if shuffle then perm (OEval (N := RN) x (f x) :: tr) order else order) in *.
    assert (PO1 : Permutation order1 (seq 0 n)) by (unfold order1; destruct shuffle; [rewrite PERM|]; exact PO).
    destruct (pexec _ _ _ _ _ _ _ _ _) as [s ls] eqn:PE.
    destruct (finished share order1 ls) eqn:FI; [|discriminate].
    destruct (epoch_near share order1 _ _ _ T _ x _ s ls Lx PO1 LT (SEEN x (f x) tr) PE FI) as (o & PO2 & M).
    pose proof (pass_end mx p n L mu h gr F y ES SM SC HM HE Hn Hy MN SMALL o PO2 x (s_it s) (i - 1)%nat (dst x0 y) M DX) as NX.
    replace (S (i - 1)) with i in NX by lia.
    apply (IH _ _ _ _ _ _ _ _ _ E PO1).
    - exact (proj1 (proj2 M)).
    - change (S (length (epochs (N := RN) (OEval (N := RN) x (f x) :: tr))) = (S i - 1)%nat). rewrite LE'. lia.
    - lia.
    - replace (S i - 1)%nat with i by lia. exact NX.
    - intros j o' a es z [Q|I]; [injection Q as <- _ _ _ <-; exact NX|exact (ET' j o' a es z I)].
  Qed.
  Theorem psgd_near fuel v (xf : list R) full : length x0 = p ->
    psgd (N := RN) maxIterations tolerance shuffle T share f (fun _ => h) perm cbE grad cbG cbS sched n fuel x0 = Ret (v, xf, full) ->
    (forall j o a es z, In (OEpoch (N := RN) j o a es z) full -> dist z y <= floor_bound n L mu h (disagreement n gr y) (dist x0 y) j) /\
    dist xf y <= floor_bound n L mu h (disagreement n gr y) (dist x0 y) (length (epochs (N := RN) full)).
  Proof.
    intros L0 E. unfold floor_bound. rewrite !dist_dst. 
    assert (V0 : 0 <= 8 * h * L * disagreement n gr y / mu).
    { pose proof (S0_nonneg n gr y). unfold Rdiv. apply Rmult_le_pos; [|left; apply Rinv_0_lt_compat; lra]. repeat apply Rmult_le_pos; lra. }
    destruct (run_near fuel 1 (seq 0 n) x0 _ false [OBegin (N := RN) x0] v xf full E (Permutation_refl _) L0 eq_refl (le_n 1)) as [A C].
    - cbn [Nat.sub pow]. lra.
    - intros j o a es z [Q|[]]. discriminate.
    - split; [|exact C]. intros j o a es z I. rewrite dist_dst. exact (A j o a es z I).
  Qed.
End Run.

Lemma no_disagreement n (gr : nat -> list R -> list R) y : (forall i, (i < n)%nat -> sqn (gr i y) = 0) -> disagreement n gr y = 0.
Proof.
  intros Z. unfold disagreement. assert (G : forall l, (forall i, In i l -> (i < n)%nat) -> sumR (map (fun i => len (gr i y)) l) = 0).
  { induction l as [|i l IH]; intros U; cbn; [reflexivity|]. rewrite IH by (intros; apply U; right; assumption).
    unfold len. rewrite Z by (apply U; left; reflexivity). rewrite sqrt_0. lra. }
  apply G. intros i I. apply in_seq in I. lia.
Qed.
Lemma psgd_interpolation :
  forall mx p n L mu h (gr : nat -> list R -> list R) (F : list R -> R) (y : list R),
  each_smooth p n L gr -> smooth_on (space p) L F (avg_grad p n gr) -> strongly_convex_on (space p) mu F ->
  0 < mu <= L -> 0 < h -> (0 < n)%nat -> length y = p -> (forall z, length z = p -> F y <= F z) ->
  8 * (h * INR n) * (L * L) <= mu -> (forall i, (i < n)%nat -> sqn (gr i y) = 0) ->
  forall (x0 : list R) maxIterations (tolerance : R) f shuffle T share perm cbE grad cbG cbS sched,
  (forall hh l, Permutation (perm hh l) l) -> (n <= T * share)%nat ->
  (forall x v h0 hh idx, (idx < n)%nat -> exists z, seen (N := RNum mx) x hh z /\
     grad (OEval (N := RNum mx) x v :: h0) hh idx = nonzeros 0 (gr idx z)) ->
  forall fuel v (xf : list R) full, length x0 = p ->
  psgd (N := RNum mx) maxIterations tolerance shuffle T share f (fun _ => h) perm cbE grad cbG cbS sched n fuel x0 = Ret (v, xf, full) ->
  (forall j o a es z, In (OEpoch (N := RNum mx) j o a es z) full -> dist z y <= (1 - h * INR n * mu / 4) ^ j * dist x0 y) /\
  dist xf y <= (1 - h * INR n * mu / 4) ^ length (epochs (N := RNum mx) full) * dist x0 y.
Proof.
  intros mx p n L mu h gr F y ES SM SC HM HE Hn Hy MN SMALL Z x0 maxIterations tolerance f shuffle T share perm cbE grad cbG cbS sched PERM LT SEEN fuel v xf full L0 Run.
  destruct (psgd_near mx p n L mu h gr F y ES SM SC HM HE Hn Hy MN SMALL x0 maxIterations tolerance f shuffle T share perm cbE grad cbG cbS sched PERM LT SEEN fuel v xf full L0 Run) as [A B].
  rewrite (no_disagreement n gr y Z) in A, B.
  assert (G : forall d e, floor_bound n L mu h 0 d e = (1 - h * INR n * mu / 4) ^ e * d) by (intros; unfold floor_bound; field; lra).
  split; [intros j o a es z I|]; rewrite <- G; [exact (A j o a es z I)|exact B].
Qed.
Lemma psgd_accuracy :
  forall mx p n L mu (gr : nat -> list R -> list R) (F : list R -> R) (y : list R),
  each_smooth p n L gr -> smooth_on (space p) L F (avg_grad p n gr) -> strongly_convex_on (space p) mu F ->
  0 < mu <= L -> (0 < n)%nat -> length y = p -> (forall z, length z = p -> F y <= F z) ->
  forall (x0 : list R) eps, length x0 = p -> 0 < eps ->
  exists h0, 0 < h0 /\ forall h, 0 < h <= h0 -> exists E,
  forall maxIterations (tolerance : R) f shuffle T share perm cbE grad cbG cbS sched,
  (forall hh l, Permutation (perm hh l) l) -> (n <= T * share)%nat ->
  (forall x v h0 hh idx, (idx < n)%nat -> exists z, seen (N := RNum mx) x hh z /\
     grad (OEval (N := RNum mx) x v :: h0) hh idx = nonzeros 0 (gr idx z)) ->
  forall fuel v (xf : list R) full,
  psgd (N := RNum mx) maxIterations tolerance shuffle T share f (fun _ => h) perm cbE grad cbG cbS sched n fuel x0 = Ret (v, xf, full) ->
  forall j o a es z, In (OEpoch (N := RNum mx) j o a es z) full -> (E <= j)%nat -> dist z y <= eps.
Proof.
    intros mx p n L mu gr F y ES SM SC HM Hn Hy MN x0 eps L0.
    intros He. pose proof (S0_nonneg n gr y) as Z. assert (NP : 0 < INR n) by (apply lt_0_INR, Hn).
    set (A := 16 * L * ((disagreement n gr y) + 1) / mu). assert (HA : 0 < A) by (unfold A, Rdiv; repeat apply Rmult_lt_0_compat; try lra; apply Rinv_0_lt_compat; lra).
    set (B := 8 * INR n * (L * L)). assert (HB : 0 < B) by (unfold B; repeat apply Rmult_lt_0_compat; lra).
    exists (Rmin (eps / A) (mu / B)). split.
    { apply Rmin_glb_lt; apply Rmult_lt_0_compat; try lra; apply Rinv_0_lt_compat; assumption. }
    intros h [HE HU]. assert (H1 : h * A <= eps).
    { apply Rle_trans with (eps / A * A); [apply Rmult_le_compat_r; [lra|]; eapply Rle_trans; [exact HU|apply Rmin_l]|]. apply Req_le. field. lra. }
    assert (H2 : h * B <= mu).
    { apply Rle_trans with (mu / B * B); [apply Rmult_le_compat_r; [lra|]; eapply Rle_trans; [exact HU|apply Rmin_r]|]. apply Req_le. field. lra. }
    assert (SMALL : 8 * (h * INR n) * (L * L) <= mu) by (unfold B in H2; lra).
    pose proof (q_range n L mu h HM HE Hn SMALL) as Q. set (q := 1 - h * INR n * mu / 4) in *.
    assert (FL : 8 * h * L * (disagreement n gr y) / mu <= eps / 2).
    { assert (h * A = 2 * (8 * h * L * (disagreement n gr y) / mu) + 16 * h * L / mu) by (unfold A; field; lra).
      assert (0 <= 16 * h * L / mu) by (apply Rmult_le_pos; [repeat apply Rmult_le_pos; lra|apply Rlt_le, Rinv_0_lt_compat; lra]). lra. }
    assert (D0 : 0 <= dist x0 y) by apply sqrt_pos.
    destruct (pow_lt_1_zero q ltac:(rewrite Rabs_right; lra) (eps / 2 / (dist x0 y + 1)) ltac:(apply Rmult_lt_0_compat; [lra|apply Rinv_0_lt_compat; lra])) as [E HP].
    exists E. intros maxIterations tolerance f shuffle T share perm cbE grad cbG cbS sched PERM LT SEEN fuel v xf full Run j o a es z I Ge.
    destruct (psgd_near mx p n L mu h gr F y ES SM SC HM HE Hn Hy MN SMALL x0 maxIterations tolerance f shuffle T share perm cbE grad cbG cbS sched PERM LT SEEN fuel v xf full L0 Run) as [K _].
    eapply Rle_trans; [exact (K j o a es z I)|].
    unfold floor_bound. fold q. specialize (HP j Ge). assert (P0 : 0 <= q ^ j) by (apply pow_le; lra). rewrite Rabs_right in HP by lra.
    assert (q ^ j * dist x0 y <= eps / 2).
    { apply Rle_trans with (eps / 2 / (dist x0 y + 1) * (dist x0 y + 1)).
      - apply Rmult_le_compat; lra.
      - apply Req_le. field. lra. }
    lra.
Qed.
