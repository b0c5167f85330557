(** Parallel SGD cannot get further from its start than the sum of its step sizes allows. *)
From Coq Require Import List Arith Bool Reals Lra Lia Permutation.
From Verif.Base Require Import Num Vec Instances.
From Verif.Model Require Import Common SA ParallelSgd ReuseSwarm.
From Verif.Spec Require Import ConvergeSpec ParSpec ParSerialSpec BackoffSpec.
From Verif.Proof Require Import SmoothProof GDConverge NormProof VrRate SgdRate SAProof ParProof ParRun ParSerial ParFloor ParFloorRun.
Import ListNotations.
Local Open Scope R_scope.

(** ** Boxes *)
Lemma box_refl x r : 0 <= r -> in_box x r x.
Proof. intros H. split; [reflexivity|]. intros q. rewrite Rminus_diag_eq, Rabs_R0 by reflexivity. exact H. Qed.
Lemma box_trans x r w s z : in_box x r w -> in_box w s z -> in_box x (r + s) z.
Proof.
  intros [L1 A] [L2 B]. split; [congruence|]. intros q. specialize (A q). specialize (B q).
  replace (nth q z 0 - nth q x 0) with ((nth q z 0 - nth q w 0) + (nth q w 0 - nth q x 0)) by ring.
  pose proof (Rabs_triang (nth q z 0 - nth q w 0) (nth q w 0 - nth q x 0)). lra.
Qed.
Lemma box_weaken x r s z : r <= s -> in_box x r z -> in_box x s z.
Proof. intros H [L A]. split; [exact L|]. intros q. specialize (A q). lra. Qed.

Section Epoch.
  Variable mx : R.
  Notation RN := (RNum mx).
  Variables (n : nat) (h G : R) (gr : nat -> list R -> list R).
  Hypothesis HE : 0 < h.
  Hypothesis HG : 0 <= G.
  Variable w : list R.
  Variables (share : nat) (order : list nat).
  Variable grad : list (pev RN) -> nat -> list (nat * R).
  Variables (cbG cbS : list (pev RN) -> bool).
  Hypothesis BND : forall i z, (i < n)%nat -> in_box w (INR n * G * h) z -> forall q, Rabs (nth q (gr i z) 0) <= G.
  Hypothesis SEEN : forall hh idx, (idx < n)%nat -> exists y, seen (N := RN) w hh y /\ grad hh idx = nonzeros 0 (gr idx y).
  Hypothesis ORD : Permutation order (seq 0 n).
  Notation am := (amounts (N := RN)).
  Notation pstep := (pstep (N := RN) share order h grad cbG cbS).
  Notation pexec := (pexec (N := RN) share order h grad cbG cbS).
  Variable all : list (nat * nat).
  Hypothesis ALL : (length all <= n)%nat.
  Notation inv := (inv (N := RN) share order h w all).
  Definition tame (l : list (nat * list R)) : Prop := Forall (fun e => forall q, Rabs (nth q (gr (fst e) (snd e)) 0) <= G) l.

  Lemma tame_sum q : forall l, tame l -> sumR (map (fun v => Rabs (nth q v 0)) (made gr l)) <= INR (length l) * G.
  Proof.
    induction 1 as [|e l E H IH]; [cbn; lra|]. cbn [made map sumR length]. rewrite S_INR. specialize (E q). unfold made in IH. lra.
  Qed.
  Lemma reads_count s ls l : inv s ls -> reads mx gr (s_log s) l -> (length l <= n)%nat.
  Proof.
    intros (I1 & _) RD. pose proof (reads_computed mx gr _ _ RD) as C. apply (f_equal (@length nat)) in C. rewrite rev_length, !map_length in C.
    pose proof (Permutation_length I1) as P. rewrite app_length in P. lia.
  Qed.
  Lemma spent_small q l : tame l -> (length l <= n)%nat -> h * sumR (map (fun v => Rabs (nth q v 0)) (made gr l)) <= INR n * G * h.
  Proof.
    intros T LE. pose proof (tame_sum q l T) as A. apply le_INR in LE. pose proof (Rmult_le_compat_r G _ _ HG LE) as B.
    apply Rle_trans with (h * (INR n * G)); [apply Rmult_le_compat_l; lra|lra].
  Qed.
  Lemma read_near s ls l (y : list R) : inv s ls -> reads mx gr (s_log s) l -> tame l -> seen (N := RN) w (s_log s) y -> in_box w (INR n * G * h) y.
  Proof.
    intros IV RD D SY. pose proof (reads_count s ls l IV RD) as LE. destruct IV as (_ & I2 & _). split; [exact (seen_len mx _ w eq_refl _ _ SY)|]. intros q.
    apply Rle_trans with (2 := spent_small q l D LE). rewrite <- (reads_abs mx h gr HE q _ _ RD). destruct (SY q) as (h1 & h2 & Eh & E). change (Num.T RN) with R in *.
    pose proof (nth_after mx (applied (N := RN) (rev h2)) w q) as A. unfold subs in A. unfold after in E. change (Num.T RN) with R in *. rewrite A in E.
    assert (P : Permutation (am q (applied (N := RN) (rev (s_log s)) ++ pends (N := RN) ls)) (am q (wanted (N := RN) h (rev (s_log s))))) by exact (amounts_perm (N := RN) q _ _ I2).
    assert (B : sumR (map Rabs (am q (applied (N := RN) (rev h2)))) <= sumR (map Rabs (am q (wanted (N := RN) h (rev (s_log s)))))).
    { rewrite <- (sumR_perm _ _ (Permutation_map Rabs P)). rewrite Eh, rev_app_distr. unfold applied at 2. rewrite flat_map_app. fold (applied (N := RN) (rev h2)).
      rewrite !am_app, !map_app, !sumR_app.
      pose proof (abs_sum_nonneg (am q (flat_map (fun e : pev RN => match e with PSub _ p a => [(p, a)] | _ => [] end) (rev h1)))) as Z1.
      pose proof (abs_sum_nonneg (am q (pends (N := RN) ls))) as Z2. change (Num.T RN) with R in *. lra. }
    destruct (nth_error w q) as [b|] eqn:Ew.
    - cbn in E. rewrite (nth_error_nth y q 0 E), (nth_error_nth w q 0 Ew). 
      match goal with |- Rabs (?u - ?v - ?u) <= _ => replace (u - v - u) with (- v) by ring end. rewrite Rabs_Ropp.
      eapply Rle_trans; [apply sum_abs_le|exact B].
    - cbn in E. apply nth_error_None in E. apply nth_error_None in Ew. rewrite !nth_overflow by assumption. rewrite Rminus_0_r, Rabs_R0. apply abs_sum_nonneg.
  Qed.
  Lemma tame_step t s lc ls s' lc' l : nth_error ls t = Some lc -> pstep t s lc = Some (s', lc') ->
    inv s ls -> reads mx gr (s_log s) l -> tame l -> exists l', reads mx gr (s_log s') l' /\ tame l'.
  Proof.
    intros NT E IV RD D. unfold ParallelSgd.pstep in E. destruct lc as [j ph]. cbn in E.
    destruct ph as [|ask u|bb u|[|[q v] u]|ask|bb]; [destruct (in_loop share order t j) eqn:IL; [|discriminate]|..];
      injection E as <- <-; try (exists l; split; [apply reads_other; [exact Logic.I|exact RD]|exact D]).
    assert (J : (j < length order)%nat).
    { unfold in_loop in IL. apply andb_true_iff in IL. destruct IL as [_ IL]. apply Nat.ltb_lt in IL. exact IL. }
    assert (Ln : (nth j order 0 < n)%nat).
    { pose proof (Permutation_in _ ORD (nth_In order 0%nat J)) as I. apply in_seq in I. lia. }
    destruct (SEEN (s_log s) (nth j order 0%nat) Ln) as (y & SY & Eg). exists ((nth j order 0%nat, y) :: l). cbn [s_log emit]. rewrite Eg. split.
    - apply reads_grad. exact RD.
    - constructor; [|exact D]. cbn [fst snd]. exact (BND _ y Ln (read_near s ls l y IV RD D SY)).
  Qed.
  Lemma tame_exec : forall sched s ls s' ls' l, pexec sched s ls = (s', ls') -> inv s ls -> reads mx gr (s_log s) l -> tame l ->
    exists l', reads mx gr (s_log s') l' /\ tame l'.
  Proof.
    induction sched as [|t r IH]; intros s ls s' ls' l E I RD D; cbn in E; [injection E as <- <-; eauto|].
    destruct (nth_error ls t) as [lc|] eqn:NT; [|eapply IH; eauto].
    destruct (pstep t s lc) as [[s1 l1]|] eqn:PS; [|eapply IH; eauto].
    destruct (tame_step t s lc ls s1 l1 l NT PS I RD D) as (l' & RD' & D').
    exact (IH _ _ _ _ _ E (inv_step (N := RN) share order h grad cbG cbS w all t s lc ls s1 l1 NT PS I) RD' D').
  Qed.
End Epoch.

Lemma epoch_box mx n (h G : R) gr (w : list R) share order grad cbG cbS T sched term s ls :
  0 < h -> 0 <= G ->
  (forall i z, (i < n)%nat -> in_box w (INR n * G * h) z -> forall q, Rabs (nth q (gr i z) 0) <= G) ->
  (forall hh idx, (idx < n)%nat -> exists y, seen (N := RNum mx) w hh y /\ grad hh idx = nonzeros 0 (gr idx y)) ->
  Permutation order (seq 0 n) ->
  pexec (N := RNum mx) share order h grad cbG cbS sched {| s_it := (w : list (RNum mx)); s_term := term; s_log := [] |} (start share T) = (s, ls) ->
  finished (N := RNum mx) share order ls = true -> in_box w (INR n * G * h) (s_it s).
Proof.
  intros HE HG BND SEEN ORD E FI.
  destruct (epoch_ok (N := RNum mx) share order h grad cbG cbS T sched w term s ls E FI) as (P1 & _ & P2 & P3).
  set (all := flat_map (fun t => map (fun i => (t, i)) (slice order (t * share) ((t + 1) * share))) (seq 0 T)).
  assert (I0 : inv (N := RNum mx) share order h w all {| s_it := (w : list (RNum mx)); s_term := term; s_log := [] |} (start share T)).
  { unfold inv. cbn [s_log rev]. rewrite start_pends. unfold start. rewrite start_todos. split; [reflexivity|]. split; reflexivity. }
  assert (LO : length order = n) by (rewrite (Permutation_length ORD); apply seq_length).
  assert (ALL : (length all <= n)%nat).
  { rewrite <- (map_length snd). unfold all. rewrite map_snd_pairs, slices_all, firstn_length. lia. }
  destruct (tame_exec mx n h G gr HE HG w share order grad cbG cbS BND SEEN ORD all ALL sched _ _ _ _ [] E I0 (reads_nil mx gr) (Forall_nil _)) as (l & RD & D).
  pose proof (inv_exec (N := RNum mx) share order h grad cbG cbS w all sched _ _ _ _ E I0) as IV.
  refine (read_near mx n h G gr HE HG w share order all ALL s ls l (s_it s) IV RD D _).
  intros q. exists [], (s_log s). split; [reflexivity|]. rewrite P3. reflexivity.
Qed.
