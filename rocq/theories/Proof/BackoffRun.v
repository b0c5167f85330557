(** Runs of parallel SGD with a decay policy, and the step sizes of ExponentialBackoff. *)
From Coq Require Import List Arith Bool Reals Lra Lia Permutation.
From Verif.Base Require Import Num Vec Instances.
From Verif.Model Require Import Common SA ParallelSgd ReuseSwarm.
From Verif.Spec Require Import ConvergeSpec ParSpec ParSerialSpec BackoffSpec.
From Verif.Proof Require Import SgdRate SAProof ParProof ParRun ParSerial ParFloor ParFloorRun Backoff.
Import ListNotations.
Local Open Scope R_scope.

Lemma total_S step k : step_total step (S k) = step_total step k + step (S k).
Proof. unfold step_total. rewrite seq_S, map_app, sumR_app. cbn. lra. Qed.
Lemma total_mono step : (forall i, (1 <= i)%nat -> 0 < step i) -> forall j k, (j <= k)%nat -> step_total step j <= step_total step k.
Proof. intros P j k. induction 1 as [|k H IH]; [lra|]. rewrite total_S. specialize (P (S k)). assert (0 < step (S k)) by (apply P; lia). lra. Qed.

Section Run.
  Variable mx : R.
  Notation RN := (RNum mx).
  Variables (n : nat) (G S0 : R) (gr : nat -> list R -> list R) (step : nat -> R).
  Hypothesis HG : 0 <= G.
  Hypothesis POS : forall i, (1 <= i)%nat -> 0 < step i.
  Hypothesis SUM : forall k, step_total step k <= S0.
  Variable x0 : list R.
  Hypothesis BND : forall i z q, (i < n)%nat -> in_box x0 (INR n * G * S0) z -> Rabs (nth q (gr i z) 0) <= G.
  Variables (maxIterations : nat) (tolerance : R).
  Variable f : list R -> R.
  Variables (shuffle : bool) (T share : nat).
  Variable perm : list (oev RN) -> list nat -> list nat.
  Variable cbE : list (oev RN) -> bool.
  Variable grad : list (oev RN) -> list (pev RN) -> nat -> list (nat * R).
  Variables (cbG cbS : list (oev RN) -> list (pev RN) -> bool).
  Variable sched : list (oev RN) -> list nat.
  Hypothesis PERM : forall hh l, Permutation (perm hh l) l.
  Hypothesis SEEN : forall x v h0 hh idx, (idx < n)%nat -> exists z, seen (N := RN) x hh z /\ grad (OEval (N := RN) x v :: h0) hh idx = nonzeros 0 (gr idx z).
  Notation ng := (INR n * G).
  Notation W := (step_total step).
  Definition tracked (tr : list (oev RN)) (k : nat) (x : list R) : Prop :=
    in_box x0 (ng * W k) x /\
    forall j o a es z, In (OEpoch (N := RN) j o a es z) tr -> (j <= k)%nat /\ in_box x0 (ng * W j) z /\ in_box z (ng * (W k - W j)) x.

  Lemma ng_pos : 0 <= ng.
  Proof. apply Rmult_le_pos; [apply pos_INR|exact HG]. Qed.
  Lemma run_box : forall fuel i order (x : list R) last term tr v (xf : list R) full,
    psgd_loop (N := RN) maxIterations tolerance shuffle T share f step perm cbE grad cbG cbS sched fuel i order x last term tr = Ret (v, xf, full) ->
    Permutation order (seq 0 n) -> length (epochs (N := RN) tr) = (i - 1)%nat -> (1 <= i)%nat ->
    tracked tr (i - 1) x -> tracked full (length (epochs (N := RN) full)) xf.
  Proof.
    assert (EN : forall tr e, match e with OEpoch _ _ _ _ _ => False | _ => True end -> length (epochs (N := RN) (e :: tr)) = length (epochs (N := RN) tr)) by (intros tr [] H; try contradiction; reflexivity).
    assert (ER : forall tr, length (epochs (N := RN) (rev tr)) = length (epochs (N := RN) tr)).
    { intros tr. unfold epochs. induction tr as [|e tr IH]; [reflexivity|]. cbn. rewrite flat_map_app, app_length, IH. cbn. rewrite app_nil_r.
      destruct e; cbn; lia. }
    induction fuel as [|fuel IH]; intros i order x last term tr v xf full E PO LE I1 TR; cbn [psgd_loop] in E; [discriminate|].
    assert (STOP : forall v' tr', Ret (v', x, rev (OEnd (N := RN) x :: tr')) = Ret (v, xf, full) ->
      tracked tr' (i - 1) x -> length (epochs (N := RN) tr') = (i - 1)%nat -> tracked full (length (epochs (N := RN) full)) xf).
    { intros v' tr' Q [A H1] H2. injection Q as _ <- <-.
      assert (LF : length (epochs (N := RN) (rev tr' ++ [OEnd (N := RN) x])) = (i - 1)%nat).
      { change (rev tr' ++ [OEnd (N := RN) x]) with (rev (OEnd (N := RN) x :: tr')). rewrite ER, EN by exact Logic.I. exact H2. }
      rewrite LF. split; [exact A|]. intros j o a es z I. apply (H1 j o a es z). apply in_app_or in I. destruct I as [I|[I|[]]]; [apply in_rev in I; exact I|discriminate]. }
    destruct ((i =? bound maxIterations) || term)%bool; [exact (STOP _ _ E TR LE)|].
    assert (TR' : tracked (OEval (N := RN) x (f x) :: tr) (i - 1) x) by (split; [exact (proj1 TR)|]; intros j o a es z [Q|I]; [discriminate|exact (proj2 TR j o a es z I)]).
    assert (LE' : length (epochs (N := RN) (OEval (N := RN) x (f x) :: tr)) = (i - 1)%nat) by (rewrite EN by exact Logic.I; exact LE).
    destruct (nisnan (n := RN) (f x) || nisinf (n := RN) (f x))%bool; [exact (STOP _ _ E TR' LE')|].
    destruct (nlt (n := RN) (nabs (n := RN) (nsub (n := RN) last (f x))) tolerance); [exact (STOP _ _ E TR' LE')|].
    set (order1 := if shuffle then perm (OEval (N := RN) x (f x) :: tr) order else order) in *.
    assert (PO1 : Permutation order1 (seq 0 n)) by (unfold order1; destruct shuffle; [rewrite PERM|]; exact PO).
    destruct (pexec _ _ _ _ _ _ _ _ _) as [s ls] eqn:PE.
    destruct (finished share order1 ls) eqn:FI; [|discriminate].
    assert (WS : W i = W (i - 1) + step i) by (replace i with (S (i - 1)) at 1 3 by lia; apply total_S).
    pose proof ng_pos as NG.
    assert (BX : in_box x (ng * step i) (s_it s)).
    { refine (epoch_box mx n (step i) G gr x share order1 _ _ _ T _ _ s ls (POS i I1) HG _ (SEEN x (f x) tr) PO1 PE FI).
      intros idx z I Z q. apply BND; [exact I|]. apply box_weaken with (2 := box_trans _ _ _ _ _ (proj1 TR) Z).
      rewrite <- Rmult_plus_distr_l, <- WS. apply Rmult_le_compat_l; [exact NG|apply SUM]. }
    apply (IH _ _ _ _ _ _ _ _ _ E PO1).
    - change (S (length (epochs (N := RN) (OEval (N := RN) x (f x) :: tr))) = (S i - 1)%nat). rewrite LE'. lia.
    - lia.
    - replace (S i - 1)%nat with i by lia.
      assert (NX : in_box x0 (ng * W i) (s_it s)) by (rewrite WS, Rmult_plus_distr_l; exact (box_trans _ _ _ _ _ (proj1 TR) BX)).
      split; [exact NX|]. intros j o' a es z [Q|I].
      + injection Q as <- _ _ _ <-. split; [lia|]. split; [exact NX|]. apply box_refl. rewrite Rminus_diag_eq by reflexivity. lra.
      + destruct (proj2 TR' j o' a es z I) as (J & A & B). split; [lia|]. split; [exact A|].
        rewrite WS. replace (ng * (W (i - 1) + step i - W j)) with (ng * (W (i - 1) - W j) + ng * step i) by ring. exact (box_trans _ _ _ _ _ B BX).
  Qed.
  Theorem psgd_box fuel v (xf : list R) full :
    psgd (N := RN) maxIterations tolerance shuffle T share f step perm cbE grad cbG cbS sched n fuel x0 = Ret (v, xf, full) ->
    let k := length (epochs (N := RN) full) in
    in_box x0 (INR n * G * step_total step k) xf /\
    forall j o a es z, In (OEpoch (N := RN) j o a es z) full -> (j <= k)%nat /\
      in_box x0 (INR n * G * step_total step j) z /\ in_box z (INR n * G * (step_total step k - step_total step j)) xf.
  Proof.
    intros E. refine (run_box fuel 1 (seq 0 n) x0 _ false [OBegin (N := RN) x0] v xf full E (Permutation_refl _) eq_refl (le_n 1) _).
    split; [apply box_refl; cbn; lra|]. intros j o a es z [Q|[]]. discriminate.
  Qed.
End Run.

Section Sums.
  Variable mx : R.
  Notation RN := (RNum mx).
  Variables (q first : nat) (beta s : R).
  Hypothesis HB : 0 < beta < 1.
  Hypothesis HS : 0 < s.
  Hypothesis HQ : (1 <= q)%nat.
  Hypothesis HF : (1 <= first)%nat.
  Notation step := (backoff_step_size (N := RN) q beta (first, s)).
  Notation st := (backoff_after (N := RN) q beta (first, s)).
  (** what the step sizes after round k add up to *)
  Definition left_over (k : nat) : R := snd (st k) * (INR (fst (st k)) - 1 - INR k + INR q * beta / (1 - beta)).

  Lemma after_ok k : (k < fst (st k))%nat /\ 0 < snd (st k) /\ 0 < step (S k) /\ step_total step k = backoff_total first q s beta - left_over k.
  Proof.
    induction k as [|k (I1 & I2 & I3 & I4)].
    - split; [cbn; lia|]. split; [exact HS|]. split.
      + unfold backoff_step_size. cbn [pred backoff_after]. unfold backoff. destruct (first <=? 1)%nat; [|exact HS]. cbn. apply Rmult_lt_0_compat; lra.
      + unfold step_total, left_over, backoff_total. cbn. ring.
    - assert (K : (S k < fst (st (S k)))%nat /\ 0 < snd (st (S k)) /\ step_total step (S k) = backoff_total first q s beta - left_over (S k)).
      { rewrite total_S, I4. unfold left_over. unfold backoff_step_size at 1. cbn [pred backoff_after].
        destruct (st k) as [c u] eqn:E. cbn [fst snd] in *. unfold backoff. destruct (Nat.leb_spec c (S k)) as [C|C]; cbn [fst snd].
        - assert (c = S k) by lia. subst c. split; [lia|]. split; [apply Rmult_lt_0_compat; lra|].
          rewrite plus_INR, !S_INR. change (nmul (n := RN) u beta) with (u * beta). field. lra.
        - split; [exact C|]. split; [exact I2|]. rewrite !S_INR. field. lra. }
      destruct K as (K1 & K2 & K3). split; [exact K1|]. split; [exact K2|]. split; [|exact K3].
      unfold backoff_step_size. cbn [pred]. change (match st (S k) with (cutoff, step0) => _ end) with (backoff (N := RN) q beta (st (S k)) (S (S k))).
      destruct (st (S k)) as [c u]. cbn [snd] in K2. unfold backoff. destruct (c <=? S (S k))%nat; [|exact K2]. cbn. apply Rmult_lt_0_compat; lra.
  Qed.
  Lemma left_pos k : 0 < left_over k.
  Proof.
    destruct (after_ok k) as (I1 & I2 & _). unfold left_over. apply Rmult_lt_0_compat; [exact I2|].
    assert (INR (S k) <= INR (fst (st k))) by (apply le_INR; lia). rewrite S_INR in *.
    assert (0 < INR q * beta / (1 - beta)); [|lra].
    apply Rmult_lt_0_compat; [|apply Rinv_0_lt_compat; lra]. apply Rmult_lt_0_compat; [apply lt_0_INR; lia|lra].
  Qed.
  Lemma backoff_sum k : step_total step k < backoff_total first q s beta.
  Proof. destruct (after_ok k) as (_ & _ & _ & E). rewrite E. pose proof (left_pos k). lra. Qed.
  Lemma backoff_pos i : (1 <= i)%nat -> 0 < step i.
  Proof. intros I. destruct i as [|i]; [lia|]. exact (proj1 (proj2 (proj2 (after_ok i)))). Qed.
End Sums.
Lemma whole_pos first b q : 0 < b < 1 -> (1 <= first)%nat -> whole_part first b q -> (1 <= q)%nat.
Proof.
  intros [B1 B2] F [_ W]. destruct q as [|q]; [|lia]. exfalso. cbn [INR] in W. apply le_INR in F. cbn [INR] in F.
  assert (1 <= INR first / b); [|lra]. apply Rmult_le_reg_r with b; [exact B1|]. unfold Rdiv. rewrite Rmult_assoc, Rinv_l by lra. lra.
Qed.
Lemma backoff_box :
  forall mx n first q (b s G : R) (gr : nat -> list R -> list R) (x0 : list R),
  0 < b < 1 -> 0 < s -> (1 <= first)%nat -> whole_part first b q -> 0 <= G ->
  let reach := INR n * G * backoff_total first q s b in
  (forall i z e, (i < n)%nat -> in_box x0 reach z -> Rabs (nth e (gr i z) 0) <= G) ->
  forall maxIterations (tolerance : R) f shuffle T share perm cbE grad cbG cbS sched,
  (forall hh l, Permutation (perm hh l) l) ->
  (forall x v h0 hh idx, (idx < n)%nat -> exists z, seen (N := RNum mx) x hh z /\
     grad (OEval (N := RNum mx) x v :: h0) hh idx = nonzeros 0 (gr idx z)) ->
  forall fuel v (xf : list R) full,
  psgd (N := RNum mx) maxIterations tolerance shuffle T share f (backoff_step_size (N := RNum mx) q b (first, s)) perm cbE grad cbG cbS sched n fuel x0
    = Ret (v, xf, full) ->
  in_box x0 reach xf /\ forall (y : list R) e, Rabs (nth e y 0 - nth e x0 0) - reach <= Rabs (nth e y 0 - nth e xf 0).
Proof.
  intros mx n first q b s G gr x0 HB HS HF WH HG reach BND maxIterations tolerance f shuffle T share perm cbE grad cbG cbS sched PM SN fuel v xf full Run.
  pose proof (whole_pos first b q HB HF WH) as HQ.
  destruct (psgd_box mx n G (backoff_total first q s b) gr (backoff_step_size (N := RNum mx) q b (first, s)) HG (backoff_pos mx q first b s HB HS HQ HF)
    (fun k => Rlt_le _ _ (backoff_sum mx q first b s HB HS HQ HF k)) x0 BND maxIterations tolerance f shuffle T share perm cbE grad cbG cbS sched PM SN fuel v xf full Run) as [A _].
  assert (B : in_box x0 reach xf).
  { apply box_weaken with (2 := A). unfold reach. apply Rmult_le_compat_l; [apply Rmult_le_pos; [apply pos_INR|exact HG]|].
    left. exact (backoff_sum mx q first b s HB HS HQ HF _). }
  split; [exact B|]. intros y e. destruct B as [_ B]. specialize (B e).
  replace (nth e y 0 - nth e x0 0) with ((nth e y 0 - nth e xf 0) + (nth e xf 0 - nth e x0 0)) by ring.
  pose proof (Rabs_triang (nth e y 0 - nth e xf 0) (nth e xf 0 - nth e x0 0)). lra.
Qed.
