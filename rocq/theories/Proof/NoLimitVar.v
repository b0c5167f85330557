(** Proofs for C60: SVRG, SARAH, Katyusha, big-batch SGD, SPALeRA SGD, Lookahead, IQN. *)
From Coq Require Import List Arith Bool Lia ZArith.
From Verif.Base Require Import Num Vec Size Loop.
From Verif.Model Require Import Common.
From Verif.Model Require VarRed SVRG Sarah Katyusha BigBatch Spalera Lookahead IQN CMAES.
From Verif.Spec Require Import NoLimitSpec.
From Verif.Proof Require Import NoLimit.
Import ListNotations.

Section Var.
  Context {N : Num}.
  Lemma smax_pos M : 0 < M -> SVRG.smax M = M. Proof. destruct M; [lia|reflexivity]. Qed.
  Ltac lim H1 H2 := rewrite !ltb_t by first [exact H1 | exact H2 | lia].

  Lemma svrg_no_limit {D} (f : VarRed.VFun N) cb b (tol : N) sh ex (dp : D -> _) M fuel inner d eta x : fuel < M -> fuel < size_max ->
    SVRG.svrg f cb b 0 tol sh ex dp fuel inner d eta x = SVRG.svrg f cb b M tol sh ex dp fuel inner d eta x.
  Proof.
    intros H1 H2. unfold SVRG.svrg. destruct (b =? 0); [reflexivity|].
    match goal with |- context [loop (SVRG.sbody f cb b 0 tol sh dp fuel ?i) fuel _] =>
      rewrite (loop_agree (SVRG.sbody f cb b 0 tol sh dp fuel i) (SVRG.sbody f cb b M tol sh dp fuel i) SVRG.s_i 1 fuel) end; [reflexivity| | |cbn [SVRG.s_i]; lia].
    - intros s Hs. unfold SVRG.sbody. rewrite (smax_pos M) by lia. change (SVRG.smax 0) with size_max. rewrite !ltb_t by lia. reflexivity.
    - intros s s' Hs. unfold SVRG.sbody. destruct (negb _); [discriminate|]. destruct (VarRed.eval_pass _ _ _ _ _ _ _ _ _) as [[[? ?] ?]|]; [|discriminate].
      destruct b0; [discriminate|]. destruct (_ || _); [discriminate|]. destruct (VarRed.full_gradient _ _ _ _ _ _ _ _ _) as [[[? ?] ?]|]; [|discriminate].
      destruct b0; [discriminate|]. destruct (loop _ _ _) as [?|[?|]]; try discriminate. destruct (dp _ _ _ _ _ _). intro E; injection E as <-. cbn [SVRG.s_i]. lia.
  Qed.
  Lemma sarah_no_limit (f : VarRed.VFun N) cb b (tol : N) sh ex eta norm early M fuel inner x : fuel < M -> fuel < size_max ->
    Sarah.sarah f cb b 0 tol sh ex eta norm early fuel inner x = Sarah.sarah f cb b M tol sh ex eta norm early fuel inner x.
  Proof.
    intros H1 H2. unfold Sarah.sarah.
    match goal with |- context [loop (Sarah.abody f cb b 0 tol sh eta norm early fuel ?i) fuel _] =>
      rewrite (loop_agree (Sarah.abody f cb b 0 tol sh eta norm early fuel i) (Sarah.abody f cb b M tol sh eta norm early fuel i) Sarah.a_i 1 fuel) end; [reflexivity| | |cbn [Sarah.a_i]; lia].
    - intros s Hs. unfold Sarah.abody. rewrite (smax_pos M) by lia. change (SVRG.smax 0) with size_max. rewrite !ltb_t by lia. reflexivity.
    - intros s s' Hs. unfold Sarah.abody. destruct (negb _); [discriminate|]. destruct (VarRed.eval_pass _ _ _ _ _ _ _ _ _) as [[[? ?] ?]|]; [|discriminate].
      destruct (_ || _); [discriminate|]. destruct (VarRed.full_gradient _ _ _ _ _ _ _ _ _) as [[[? bb] ?]|]; [|discriminate].
      destruct bb; [discriminate|]. destruct (loop _ _ _) as [?|[?|]]; try discriminate. intro E; injection E as <-. cbn [Sarah.a_i]. lia.
  Qed.
  Lemma katyusha_no_limit (f : VarRed.VFun N) cb px cv lp b (tol : N) sh ex M fuel inner x : fuel < M -> fuel < size_max ->
    Katyusha.katyusha f cb px cv lp b 0 tol sh ex fuel inner x = Katyusha.katyusha f cb px cv lp b M tol sh ex fuel inner x.
  Proof.
    intros H1 H2. unfold Katyusha.katyusha. destruct (b =? 0); [reflexivity|].
    match goal with |- context [loop (Katyusha.hbody f cb px cv lp b 0 tol sh fuel ?i) fuel _] =>
      rewrite (loop_agree (Katyusha.hbody f cb px cv lp b 0 tol sh fuel i) (Katyusha.hbody f cb px cv lp b M tol sh fuel i) Katyusha.h_i 1 fuel) end; [reflexivity| | |cbn [Katyusha.h_i]; lia].
    - intros s Hs. unfold Katyusha.hbody. rewrite (smax_pos M) by lia. change (SVRG.smax 0) with size_max. rewrite !ltb_t by lia. reflexivity.
    - intros s s' Hs. unfold Katyusha.hbody. destruct (negb _); [discriminate|]. destruct (VarRed.eval_pass _ _ _ _ _ _ _ _ _) as [[[? ?] ?]|]; [|discriminate].
      destruct (_ || _); [discriminate|]. destruct (VarRed.full_gradient _ _ _ _ _ _ _ _ _) as [[[? bb] ?]|]; [|discriminate].
      destruct (loop _ _ _) as [?|[?|]]; try discriminate. intro E; injection E as <-. cbn [Katyusha.h_i]. lia.
  Qed.
  Lemma lookahead_no_limit {B D E} base hm bm k (tol : N) ex (dp : D -> _) n b fe (stop : list (Lookahead.lev N E) -> bool) M fuel (ba : B) d st x : fuel < M -> fuel < size_max ->
    Lookahead.lookahead base hm bm k 0 tol ex dp n b fe stop fuel ba d st x = Lookahead.lookahead base hm bm k M tol ex dp n b fe stop fuel ba d st x.
  Proof.
    intros H1 H2. unfold Lookahead.lookahead.
    match goal with |- context [loop (Lookahead.lbody base hm bm k 0 tol dp stop) fuel _] =>
      rewrite (loop_agree (Lookahead.lbody base hm bm k 0 tol dp stop) (Lookahead.lbody base hm bm k M tol dp stop) Lookahead.l_i 1 fuel) end; [reflexivity| | |cbn [Lookahead.l_i]; lia].
    - intros s Hs. unfold Lookahead.lbody. replace (Lookahead.lmax M) with M by (destruct M; [lia|reflexivity]). change (Lookahead.lmax 0) with size_max. rewrite !ltb_t by lia. reflexivity.
    - intros s s' Hs. unfold Lookahead.lbody. destruct (negb _); [discriminate|]. destruct (base _ _ _ _) as [[[[? ?] ?] ?]|]; [|discriminate].
      destruct (dp _ _ _ _). destruct (_ || _); [discriminate|]. intro Eq; injection Eq as <-. cbn [Lookahead.l_i]. lia.
  Qed.
  Lemma iqn_no_limit solve norm (f : VarRed.VFun N) cb eta b (tol : N) rows M fuel init x : S fuel < M -> fuel < size_max ->
    IQN.iqn solve norm f cb eta b 0 tol rows fuel init x = IQN.iqn solve norm f cb eta b M tol rows fuel init x.
  Proof.
    intros H1 H2. unfold IQN.iqn. destruct (_ || _); [reflexivity|]. destruct (IQN.init_pass _ _ _ _ _ _ _ _ _) as [[[[? ?] ?] ?]| |]; try reflexivity.
    match goal with |- context [loop (IQN.ibody solve norm f cb eta b 0 tol rows fuel) fuel _] =>
      rewrite (loop_agree (IQN.ibody solve norm f cb eta b 0 tol rows fuel) (IQN.ibody solve norm f cb eta b M tol rows fuel) IQN.v_k 1 fuel) end; [reflexivity| | |cbn [IQN.v_k]; lia].
    - intros s Hs. unfold IQN.ibody. change (IQN.ilimit 0) with size_max. assert (HM : fuel < IQN.ilimit M) by (destruct M; cbn [IQN.ilimit]; lia). rewrite !ltb_t by lia. reflexivity.
    - intros s s' Hs. unfold IQN.ibody. destruct (negb _); [discriminate|]. destruct (IQN.inner _ _ _ _ _ _ _ _ _ _ _ _ _ _) as [[[[? ?] ?] ?]| |]; try discriminate.
      destruct (VarRed.eval_pass _ _ _ _ _ _ _ _ _) as [[[? ?] ?]|]; [|discriminate]. destruct (_ || _); [discriminate|]. intro Eq; injection Eq as <-. cbn [IQN.v_k]. lia.
  Qed.
  Lemma spalera_no_limit npow nexp (tiny al ep ra : N) (f : VarRed.VFun N) cb b tol lam sh ex {D} (dc : D -> _) M fuel old eta d x :
    fuel * b < M -> fuel * b < size_max ->
    Spalera.spalera npow nexp tiny al ep ra f cb b 0 tol lam sh ex dc fuel old eta d x = Spalera.spalera npow nexp tiny al ep ra f cb b M tol lam sh ex dc fuel old eta d x.
  Proof.
    intros H1 H2. unfold Spalera.spalera. destruct (Spalera.pass _ _ _ _ _ _ _ _ _) as [[[ov term] tr]|]; [|reflexivity].
    destruct (match old with None => _ | Some q => q end) as [pol lm].
    match goal with |- context [loop (Spalera.pbody npow nexp tiny al ep ra f cb b 0 tol sh dc lm) fuel _] =>
      rewrite (loop_agree (Spalera.pbody npow nexp tiny al ep ra f cb b 0 tol sh dc lm) (Spalera.pbody npow nexp tiny al ep ra f cb b M tol sh dc lm) Spalera.l_i b (fuel * b)) end; [reflexivity| | |cbn [Spalera.l_i]; lia].
    - intros s Hs. unfold Spalera.pbody. replace (Spalera.pmax M) with M by (destruct M; [lia|reflexivity]). change (Spalera.pmax 0) with size_max.
      rewrite !ltb_t by lia. rewrite !min_out by lia. destruct (negb _); [reflexivity|]. destruct (_ =? 0); [reflexivity|]. destruct (Spalera.pc_stop _ _); [reflexivity|].
      destruct (Spalera.update _ _ _ _ _ _ _ _ _ _ _ _ _ _) as [[[? []] ?]|]; try reflexivity. destruct (dc _ _ _ _). destruct (negb _); [reflexivity|].
      destruct (_ || _); [reflexivity|]. rewrite !eqb_f by lia. reflexivity.
    - intros s s' Hs. unfold Spalera.pbody. destruct (negb _); [discriminate|]. destruct (_ =? 0); [discriminate|].
      set (c := Nat.min _ (VarRed.vf_num f - _)). assert (Hc : c <= b) by (unfold c; lia). clearbody c.
      destruct (Spalera.pc_stop _ _); [discriminate|]. destruct (Spalera.update _ _ _ _ _ _ _ _ _ _ _ _ _ _) as [[[? []] ?]|]; try discriminate.
      destruct (dc _ _ _ _). destruct (negb _); [intro E; injection E as <-; cbn [Spalera.l_i]; lia|].
      destruct (_ || _); [discriminate|]. intro E; injection E as <-; cbn [Spalera.l_i]; lia.
  Qed.
  Lemma grow_c (f : VarRed.VFun N) cb norm offset x cf fuel : forall bs c k gB r s bs' c' gB' r' s',
    BigBatch.grow f cb norm offset fuel x cf bs c k gB r s = Some (bs', c', gB', r', s') -> c <= bs -> c <= VarRed.vf_num f -> c' <= VarRed.vf_num f.
  Proof.
    induction fuel as [|fuel IH]; intros bs c k gB r s bs' c' gB' r' s' H Hb Hc; cbn [BigBatch.grow] in H;
      (destruct (BigBatch.noisy _ _ _); [set (o := match offset bs with O => 1 | o => o end) in *; destruct (Nat.leb_spec (VarRed.vf_num f) (cf + bs + o)) as [L|L]|]);
      try discriminate; try (injection H as <- <- <- <- <-; assumption). apply IH in H; lia.
  Qed.
  Lemma bigbatch_no_limit (f : VarRed.VFun N) cb pol (tol : N) sh ex norm offset M fuel bs eta prev x :
    let n := VarRed.vf_num f in fuel * n < M -> fuel * n < size_max ->
    BigBatch.bigbatch f cb pol 0 tol sh ex norm offset fuel bs eta prev x = BigBatch.bigbatch f cb pol M tol sh ex norm offset fuel bs eta prev x.
  Proof.
    intros n H1 H2. unfold BigBatch.bigbatch.
    assert (Mn : forall a i l cf, i + n <= l -> Nat.min (Nat.min a (l - i)) (n - cf) = Nat.min a (n - cf)) by (intros; lia).
    assert (Cn : forall a i l cf, Nat.min (Nat.min a (l - i)) (n - cf) <= n) by (intros; lia).
    assert (Gn : forall bs0 c cf x fu k gB r e bs' c' gB' r' e', (if c =? bs0 then BigBatch.grow f cb norm offset fu x cf bs0 c k gB r e else Some (bs0, c, gB, r, e)) = Some (bs', c', gB', r', e') -> c <= n -> c' <= n).
    { intros bs0 c cf y fu k gB r e bs' c' gB' r' e' H Hc. destruct (Nat.eqb_spec c bs0) as [->|]; [|injection H as <- <- <- <- <-; exact Hc]. eapply grow_c; [exact H|lia|exact Hc]. }
    match goal with |- context [loop (BigBatch.bbody f cb pol 0 tol sh norm offset fuel) fuel _] =>
      rewrite (loop_agree (BigBatch.bbody f cb pol 0 tol sh norm offset fuel) (BigBatch.bbody f cb pol M tol sh norm offset fuel) BigBatch.b_i n (fuel * n)) end; [reflexivity| | |cbn [BigBatch.b_i]; lia].
    - intros s Hs. unfold BigBatch.bbody. replace (BigBatch.amax M) with M by (destruct M; [lia|reflexivity]). change (BigBatch.amax 0) with size_max.
      rewrite !ltb_t by lia. fold n. rewrite !Mn by lia. destruct (negb _); [reflexivity|]. destruct (n =? 0); [reflexivity|].
      destruct (BigBatch.bgrad _ _ _ _ _ _) as [[g term] tr].
      pose proof (Nat.le_min_r (BigBatch.b_bs s) (n - BigBatch.b_cf s)) as Hc.
      set (c0 := Nat.min (BigBatch.b_bs s) (n - BigBatch.b_cf s)) in *. clearbody c0.
      match goal with |- match ?q with _ => _ end = _ => destruct q as [[[[[bs' c'] gB'] r'] e']|] eqn:Eg; [|reflexivity] end.
      apply Gn in Eg; [|lia].
      destruct (BigBatch.e_term _); [reflexivity|]. destruct (BigBatch.update _ _ _ _ _ _ _ _ _ _ _ _ _ _) as [[[[[? ?] ?] ?] ?]|]; [|reflexivity].
      destruct (negb _); [reflexivity|]. destruct (_ || _); [reflexivity|]. rewrite !eqb_f by lia. reflexivity.
    - intros s s' Hs. unfold BigBatch.bbody. fold n. destruct (negb _); [discriminate|]. destruct (n =? 0); [discriminate|].
      destruct (BigBatch.bgrad _ _ _ _ _ _) as [[g term] tr].
      pose proof (Cn (BigBatch.b_bs s) (BigBatch.b_i s) (BigBatch.amax 0) (BigBatch.b_cf s)) as Hc.
      set (c0 := Nat.min _ (n - BigBatch.b_cf s)) in *. clearbody c0.
      match goal with |- match ?q with _ => _ end = _ -> _ => destruct q as [[[[[bs' c'] gB'] r'] e']|] eqn:Eg; [|discriminate] end.
      apply Gn in Eg; [|lia].
      destruct (BigBatch.e_term _); [discriminate|]. destruct (BigBatch.update _ _ _ _ _ _ _ _ _ _ _ _ _ _) as [[[[[? ?] ?] ?] ?]|]; [|discriminate].
      destruct (negb _); [intro E; injection E as <-; cbn [BigBatch.b_i]; lia|].
      destruct (_ || _); [discriminate|]. intro E; injection E as <-; cbn [BigBatch.b_i]; lia.
  Qed.

  Lemma cma_loop_agree la pa (tol big : N) fe sel tf w A sample adapt srt cb F k1 : forall k2 i s t, F < i + k1 -> F < i + k2 ->
    CMAES.cma_loop la pa tol big fe sel tf w A (watched F sample) adapt srt cb k1 i s t =
    CMAES.cma_loop la pa tol big fe sel tf w A (watched F sample) adapt srt cb k2 i s t \/ F < i.
  Proof.
    induction k1 as [|k1 IH]; intros k2 i s t H1 H2; [right; lia|]. destruct k2 as [|k2]; [right; lia|]. left. cbn [CMAES.cma_loop].
    destruct t; [reflexivity|]. unfold watched at 1 3. destruct (Nat.ltb_spec i F) as [L|L]; [|reflexivity].
    destruct (sample i _) as [draws|]; [|reflexivity]. destruct (CMAES.population _ _ _ _ _ _ _ _ _ _ _ _ _ _) as [[[steps objs] tr1] t1].
    destruct (existsb _ _); [reflexivity|]. destruct (CMAES.recombine _ _ _) as [step|]; [|reflexivity].
    destruct (CMAES.evaluate _ _ _ _ _ _ _ _) as [[cur tr2] t2]. destruct (adapt _ _ _ _ _ _) as [a sigma].
    destruct (_ || _); [reflexivity|]. destruct (_ || _); [reflexivity|]. destruct (_ && _); [reflexivity|].
    edestruct (IH k2 (S i)) as [E|E]; [lia|lia|exact E|lia].
  Qed.
  Lemma cma_no_limit la pa (tol big : N) fe ic sel tf w A sample adapt srt cb F M a0 sg x : 1 <= F -> F < M -> F <= size_max ->
    CMAES.cma_optimize 0 la pa tol big fe ic sel tf w A (watched F sample) adapt srt cb a0 sg x =
    CMAES.cma_optimize M la pa tol big fe ic sel tf w A (watched F sample) adapt srt cb a0 sg x.
  Proof.
    intros H0 H1 H2. unfold CMAES.cma_optimize. destruct (CMAES.evaluate _ _ _ _ _ _ _ _) as [[cur tr] t].
    change (bound 0) with (S size_max). replace (bound M) with M by (destruct M; [lia|reflexivity]).
    edestruct (cma_loop_agree la pa tol big fe sel tf w A sample adapt srt cb F (S size_max - 1) (M - 1) 1) as [E|E]; [lia|lia|exact E|lia].
  Qed.
End Var.
