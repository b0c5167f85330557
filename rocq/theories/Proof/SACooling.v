(** Simulated annealing with exponential cooling: how much the energy can rise. *)
From Coq Require Import List Arith Bool Reals Lra Lia.
From Verif.Base Require Import Num Vec Instances.
From Verif.Model Require Import Common SA SACooling.
From Verif.Spec Require Import CommonSpec SASpec.
From Verif.Proof Require Import SAProof.
Import ListNotations.
Local Open Scope R_scope.

Section Cool.
  Variable mx : R.
  Notation RN := (RNum mx).
  Notation vec := (list R).
  Notation ev := (ev RN (list RN) (list RN)).
  Variables (maxIterations initMoves moveCtrlSweep maxToleranceSweep : nat).
  Variables (tolerance maxMoveCoef initMoveCoef gain target lambda : R).
  Variable lg : R -> R.
  Variable f : vec -> R.
  Variable rnd : nat -> R * R.
  Variable cb : CB RN (list RN) (list RN).
  Variables (t0 xi : R).
  Hypothesis HL : 0 < lambda < 1.
  Hypothesis HT : 0 < t0.
  Hypothesis HX : 0 < xi <= 1.
  Hypothesis DRAW : forall j, xi <= snd (rnd j).
  Notation gen := (generate_move (N := RN) moveCtrlSweep maxMoveCoef gain target lg exp f rnd cb).
  Notation cool := (cooling (N := RN) moveCtrlSweep maxToleranceSweep tolerance maxMoveCoef gain target (exponential_schedule (N := RN) lambda) lg exp f rnd cb).
  Notation inits := (init_moves (N := RN) moveCtrlSweep maxMoveCoef gain target lg exp f rnd cb).
  Notation l := (- ln xi).
  Notation steps h := (length (stepped (N := RN) h)).
  Notation temp k := (t0 * (1 - lambda) ^ k).

  Lemma l_nonneg : 0 <= l.
  Proof. destruct HX as [A B]. destruct B as [B| ->]; [|rewrite ln_1; lra]. pose proof (ln_increasing xi 1 A B) as H. rewrite ln_1 in H. lra. Qed.
  Lemma temp_pos k : 0 < temp k.
  Proof. apply Rmult_lt_0_compat; [exact HT|apply pow_lt; lra]. Qed.

  Lemma gen_facts (s s' : sst (N := RN)) t : gen s = Some (s', t) -> sa_e s = f (sa_x s) -> 0 < sa_t s ->
    sa_e s' = f (sa_x s') /\ sa_t s' = sa_t s /\ sa_e s' <= sa_e s + l * sa_t s /\ exists y, sa_tr s' = Ev (N := RN) (X := list RN) (G := list RN) y (f y) :: sa_tr s.
  Proof.
    intros E IE IT. unfold generate_move in E.
    destruct (nth_error (sa_x s) (sa_idx s)) as [prev|] eqn:EP; [|discriminate].
    destruct (nth_error (sa_size s) (sa_idx s)) as [size|]; [|discriminate].
    destruct (nth_error (sa_acc s) (sa_idx s)) as [a|]; [|discriminate].
    pose proof (DRAW (sa_j s)) as DR. destruct (rnd (sa_j s)) as [u z] eqn:ER. cbn [snd] in DR. 
    match type of E with context [set_nth (sa_idx s) ?v (sa_x s)] => set (y := set_nth (sa_idx s) v (sa_x s)) in * end.
    injection E as <- _. cbn [sa_e sa_x sa_t sa_tr].
    match goal with |- context [(?c || ?d)%bool] => set (keep := (c || d)%bool) in * end.
    split; [|split; [reflexivity|split; [|exists y; reflexivity]]].
    - destruct keep; [reflexivity|]. unfold y. rewrite set_nth_set, set_nth_id by exact EP. exact IE.
    - pose proof l_nonneg as LN. assert (LT : 0 <= l * sa_t s) by (apply Rmult_le_pos; [exact LN|change (Num.T RN) with R in *; lra]). destruct keep eqn:K; [|change (Num.T RN) with R in *; lra].
      unfold keep in K. apply orb_true_iff in K. destruct K as [K|K].
      + change (Rleb (f y - sa_e s) 0 = true) in K. destruct (Rleb_spec (f y - sa_e s) 0); [change (Num.T RN) with R in *; lra|discriminate].
      + change (Rltb z (exp (- (f y - sa_e s) / sa_t s)) = true) in K. destruct (Rltb_spec z (exp (- (f y - sa_e s) / sa_t s))) as [Q|]; [|discriminate].
        assert (Q2 : xi < exp (- (f y - sa_e s) / sa_t s)) by (change (Num.T RN) with R in *; lra). apply ln_increasing in Q2; [|lra]. rewrite ln_exp in Q2.
        assert (Q3 : ln xi * sa_t s < - (f y - sa_e s) / sa_t s * sa_t s) by (apply Rmult_lt_compat_r; [exact IT|exact Q2]).
        replace (- (f y - sa_e s) / sa_t s * sa_t s) with (- (f y - sa_e s)) in Q3 by (field; change (Num.T RN) with R in *; lra).
        change (Num.T RN) with R in *. lra.
  Qed.

  (** the energy plus what it can still rise *)
  Definition ceiling (h : list ev) (y : vec) : R := f y + l * temp (steps h) / lambda.
  Definition held (h : list ev) (top : R) : Prop :=
    forall b y a, h = b ++ St y :: a -> top <= ceiling (St (N := RN) y :: a) y /\ forall z, In z (stepped (N := RN) b) -> f z <= ceiling (St (N := RN) y :: a) y.
  Notation phi s := (sa_e s + l * sa_t s / lambda).
  Definition cinv (s : sst (N := RN)) : Prop := sa_e s = f (sa_x s) /\ sa_t s = temp (steps (sa_tr s)) /\ held (sa_tr s) (phi s).

  Lemma held_ev h y v top : held h top -> held (Ev (N := RN) (X := list RN) (G := list RN) y v :: h) top.
  Proof.
    intros H b z a E. destruct b as [|e b]; [discriminate|]. injection E as <- E. destruct (H b z a E) as [A B]. split; [exact A|exact B].
  Qed.
  Lemma held_le h top top' : top' <= top -> held h top -> held h top'.
  Proof. intros L H b z a E. destruct (H b z a E) as [A B]. split; [lra|exact B]. Qed.
  Lemma ratio_nonneg t : 0 < t -> 0 <= l * t / lambda.
  Proof. intros T0. pose proof l_nonneg. apply Rmult_le_pos; [apply Rmult_le_pos; lra|left; apply Rinv_0_lt_compat; lra]. Qed.

  Lemma cooling_held : forall k (s : sst (N := RN)) t fr r (T : R), cinv s -> cool k s t fr = Some (r, T) ->
    T = temp (length (stepped (N := RN) (o_tr r))) /\ o_val r = f (o_x r) /\ held (rev (o_tr r)) (o_val r) /\ o_val r <= phi s.
  Proof.
    assert (STEPR : forall h : list ev, stepped (N := RN) (rev h) = rev (stepped (N := RN) h)).
    { intros h. unfold stepped. induction h as [|e h IH]; [reflexivity|]. cbn [rev]. rewrite flat_map_app, IH. destruct e; cbn; rewrite ?app_nil_r; reflexivity. }
    assert (DONE : forall (s : sst (N := RN)) (T : R), sa_e s = f (sa_x s) -> T = temp (steps (sa_tr s)) -> held (sa_tr s) (sa_e s) ->
      let r := sa_done (N := RN) s in T = temp (length (stepped (N := RN) (o_tr r))) /\ o_val r = f (o_x r) /\ held (rev (o_tr r)) (o_val r)).
    { intros s T A B C r. unfold r, sa_done. cbn [o_tr o_val o_x]. rewrite STEPR, rev_length, rev_involutive. split; [exact B|]. split; [exact A|].
      intros b y a E. destruct b as [|e b]; [discriminate|]. injection E as <- E. exact (C b y a E). }
    induction k as [|k IH]; intros s t fr r T (I1 & I2 & I3) E.
    - assert (E' : Some (sa_done (N := RN) s, sa_t s) = Some (r, T)) by (destruct t; exact E). injection E' as <- <-.
      pose proof (ratio_nonneg (sa_t s)) as RP. rewrite I2 in RP. specialize (RP (temp_pos _)). rewrite <- I2 in RP.
      destruct (DONE s (sa_t s) I1 I2) as (A & B & C); [apply held_le with (2 := I3); change (Num.T RN) with R in *; lra|].
      split; [exact A|]. split; [exact B|]. split; [exact C|]. cbn [o_val sa_done]. change (Num.T RN) with R in *. lra.
    - assert (TP : 0 < sa_t s) by (rewrite I2; apply temp_pos). pose proof (ratio_nonneg _ TP) as RP.
      assert (LT : l * sa_t s <= l * sa_t s / lambda).
      { assert (X : 0 <= l * sa_t s) by (apply Rmult_le_pos; [apply l_nonneg|change (Num.T RN) with R in *; lra]).
        assert (1 <= / lambda) by (rewrite <- Rinv_1; apply Rinv_le_contravar; lra). unfold Rdiv.
        rewrite <- (Rmult_1_r (l * sa_t s)) at 1. apply Rmult_le_compat_l; [exact X|lra]. }
      cbn [cooling] in E. destruct t.
      + injection E as <- <-. destruct (DONE s (sa_t s) I1 I2) as (A & B & C); [apply held_le with (2 := I3); change (Num.T RN) with R in *; lra|].
        split; [exact A|]. split; [exact B|]. split; [exact C|]. cbn [o_val sa_done]. change (Num.T RN) with R in *. lra.
      + destruct (gen s) as [[s1 b]|] eqn:G; [|discriminate]. destruct (gen_facts s s1 b G I1 TP) as (G1 & G2 & G3 & y & G4).
        assert (ST1 : stepped (N := RN) (sa_tr s1) = stepped (N := RN) (sa_tr s)) by (rewrite G4; reflexivity).
        assert (H1 : held (sa_tr s1) (phi s)) by (rewrite G4; apply held_ev; exact I3).
        destruct b.
        * injection E as <- <-. destruct (DONE s1 (sa_t s1) G1) as (A & B & C); [rewrite ST1, G2; exact I2|apply held_le with (2 := H1); change (Num.T RN) with R in *; lra|].
          split; [exact A|]. split; [exact B|]. split; [exact C|]. cbn [o_val sa_done]. change (Num.T RN) with R in *. lra.
        * set (s2 := {| sa_x := sa_x s1; sa_e := sa_e s1; sa_t := exponential_schedule (N := RN) lambda (sa_t s1) (sa_e s1); sa_idx := sa_idx s1; sa_sweep := sa_sweep s1;
                        sa_acc := sa_acc s1; sa_size := sa_size s1; sa_j := sa_j s1; sa_tr := St (sa_x s1) :: sa_tr s1 |}) in *.
          assert (T2 : sa_t s2 = (1 - lambda) * sa_t s) by (cbn [sa_t s2]; unfold exponential_schedule; rewrite G2; reflexivity).
          assert (P2 : phi s2 <= phi s).
          { rewrite T2. cbn [sa_e s2]. replace (l * ((1 - lambda) * sa_t s) / lambda) with (l * sa_t s / lambda - l * sa_t s) by (field; lra). change (Num.T RN) with R in *. lra. }
          assert (TT : sa_t s2 = temp (steps (sa_tr s2))).
          { rewrite T2, I2. cbn [sa_tr s2]. change (stepped (N := RN) (St (sa_x s1) :: sa_tr s1)) with (sa_x s1 :: stepped (N := RN) (sa_tr s1)). rewrite ST1. cbn [length pow]. change (Num.T RN) with R. ring. }
          assert (C2 : cinv s2).
          { split; [exact G1|]. split; [exact TT|]. intros b z a Q. cbn [sa_tr s2] in Q. destruct b as [|e b].
            - injection Q as <- <-. split; [|intros z []]. unfold ceiling. rewrite TT. cbn [sa_tr s2 sa_e]. rewrite G1. apply Rle_refl.
            - injection Q as <- Q. destruct (H1 b z a Q) as [A B]. split; [change (Num.T RN) with R in *; lra|]. intros w [W|W]; [subst w|exact (B w W)].
              assert (F1 : f (sa_x s1) <= phi s) by (rewrite <- G1; change (Num.T RN) with R in *; lra). exact (Rle_trans _ _ _ F1 A). }
          destruct (_ <=? _)%nat.
          -- injection E as <- <-. destruct (DONE s2 (sa_t s2) G1 TT) as (A & B & C).
             { apply held_le with (2 := proj2 (proj2 C2)). pose proof (ratio_nonneg (sa_t s2)) as R2. rewrite TT in R2. specialize (R2 (temp_pos _)). rewrite <- TT in R2. change (Num.T RN) with R in *. lra. }
             split; [exact A|]. split; [exact B|]. split; [exact C|]. cbn [o_val sa_done s2 sa_e]. change (Num.T RN) with R in *. lra.
          -- destruct (IH _ _ _ _ _ C2 E) as (A & B & C & D). split; [exact A|]. split; [exact B|]. split; [exact C|exact (Rle_trans _ _ _ D P2)].
  Qed.

  Lemma init_facts : forall k (s : sst (N := RN)) t (s' : sst (N := RN)) t', sa_e s = f (sa_x s) -> sa_t s = t0 -> stepped (N := RN) (sa_tr s) = [] -> inits k s t = Some (s', t') ->
    sa_e s' = f (sa_x s') /\ sa_t s' = t0 /\ stepped (N := RN) (sa_tr s') = [] /\ sa_e s' <= sa_e s + INR k * (l * t0).
  Proof.
    pose proof l_nonneg as LN. assert (LT : 0 <= l * t0) by (apply Rmult_le_pos; lra).
    induction k as [|k IH]; intros s t s' t' A B C E; cbn [init_moves] in E.
    - injection E as <- _. split; [exact A|]. split; [exact B|]. split; [exact C|]. cbn [INR]. change (Num.T RN) with R in *. lra.
    - destruct (gen s) as [[s1 b]|] eqn:G; [|discriminate]. assert (TP : 0 < sa_t s) by (rewrite B; exact HT).
      destruct (gen_facts s s1 b G A TP) as (G1 & G2 & G3 & y & G4).
      assert (ST : stepped (N := RN) (sa_tr s1) = []) by (rewrite G4; exact C). rewrite S_INR. rewrite B in G3.
      assert (KP : 0 <= INR k * (l * t0)) by (apply Rmult_le_pos; [apply pos_INR|exact LT]).
      destruct (t || b)%bool.
      + injection E as <- _. split; [exact G1|]. split; [rewrite G2; exact B|]. split; [exact ST|]. change (Num.T RN) with R in *. lra.
      + destruct (IH s1 false s' t' G1 (eq_trans G2 B) ST E) as (D1 & D2 & D3 & D4). split; [exact D1|]. split; [exact D2|]. split; [exact D3|]. change (Num.T RN) with R in *. lra.
  Qed.

  Theorem annealing_bound (x : list R) r (T : R) :
    sa_optimize (N := RN) maxIterations initMoves moveCtrlSweep maxToleranceSweep tolerance maxMoveCoef initMoveCoef gain target
      (exponential_schedule (N := RN) lambda) lg exp f rnd cb t0 x = Ret (r, T) ->
    T = temp (length (stepped (N := RN) (o_tr r))) /\ o_val r = f (o_x r) /\
    o_val r <= f x + t0 * (INR initMoves + / lambda) * ln (/ xi) /\
    forall a y b, o_tr r = a ++ St y :: b ->
      let rise := temp (S (length (stepped (N := RN) a))) / lambda * ln (/ xi) in
      o_val r <= f y + rise /\ forall z, In z (stepped (N := RN) b) -> f z <= f y + rise.
  Proof.
    intros E. unfold sa_optimize in E.
    match type of E with context [init_moves _ _ _ _ _ _ _ _ _ _ ?s0 ?tt] => set (s := s0) in *; set (t := tt) in * end.
    destruct (inits initMoves s t) as [[s1 t1]|] eqn:EI; [|discriminate].
    destruct (cool maxIterations s1 t1 0) as [[r' T']|] eqn:EC; [|discriminate]. injection E as -> ->.
    destruct (init_facts initMoves s t s1 t1 eq_refl eq_refl eq_refl EI) as (A1 & A2 & A3 & A4). cbn [sa_e s] in A4.
    assert (CI : cinv s1).
    { split; [exact A1|]. split; [rewrite A2, A3; cbn [length pow]; change (Num.T RN) with R; ring|]. intros b y a Q. exfalso.
      assert (X : In y (stepped (N := RN) (sa_tr s1))) by (rewrite Q; unfold stepped; apply in_flat_map; exists (St y); split; [apply in_elt|left; reflexivity]).
      rewrite A3 in X. destruct X. }
    destruct (cooling_held _ _ _ _ _ _ CI EC) as (B1 & B2 & B3 & B4).
    split; [exact B1|]. split; [exact B2|]. rewrite ln_Rinv by lra. split.
    - rewrite A2 in B4. replace (t0 * (INR initMoves + / lambda) * - ln xi) with (INR initMoves * (l * t0) + l * t0 / lambda) by (field; lra). change (Num.T RN) with R in *. lra.
    - intros a y b Q. assert (RQ : rev (o_tr r) = rev b ++ St y :: rev a) by (rewrite Q, rev_app_distr; cbn [rev]; rewrite <- app_assoc; reflexivity).
      destruct (B3 _ _ _ RQ) as [H1 H2]. unfold ceiling in H1, H2.
      assert (SR : forall h : list ev, stepped (N := RN) (rev h) = rev (stepped (N := RN) h)).
      { intros h. unfold stepped. induction h as [|e h IH]; [reflexivity|]. cbn [rev]. rewrite flat_map_app, IH. destruct e; cbn; rewrite ?app_nil_r; reflexivity. }
      assert (LS : steps (St (N := RN) y :: rev a) = S (steps a)) by (change (S (steps (rev a)) = S (steps a)); rewrite SR, rev_length; reflexivity).
      rewrite LS in H1, H2. intros rise.
      assert (RE : rise = l * temp (S (steps a)) / lambda) by (unfold rise; field; lra). rewrite RE.
      split; [exact H1|]. intros z Z. apply H2. rewrite SR. apply in_rev in Z. exact Z.
  Qed.
End Cool.
