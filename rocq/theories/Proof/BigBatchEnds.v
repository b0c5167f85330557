(** Big-batch SGD with BacktrackingLineSearch on whole batches: every run ends. *)
From Coq Require Import List Arith Bool Reals Lra Lia ZArith.
From Verif.Base Require Import Num Vec Size Instances Loop.
From Verif.Model Require Import Common Sgd VarRed BigBatch.
From Verif.Spec Require Import SgdSpec VarRedSpec BigBatchSpec Gradient FWSpec BigBatchRateSpec ConvergeSpec.
From Verif.Proof Require Import BigBatchProof SmoothProof WnConverge BigBatchRate.
Import ListNotations.
Local Open Scope R_scope.

Section Ends.
  Variable mx : R.
  Notation RN := (RNum mx).
  Variables (p : nat) (f : VFun RN) (L sp eta0 : R) (F : list R -> R) (grad : list R -> list R) (gi : nat -> list R -> list R) (k : nat).
  Variables (cb : BCB RN) (maxIterations : nat) (tol : R) (shuffle exact : bool) (offset : nat -> nat).
  Notation n := (vf_num f).
  Notation lim := (amax maxIterations).
  Hypothesis SM : smooth_on (space p) L F grad.
  Hypothesis HL : 0 < L.
  Hypothesis WS : whole_sum mx p f F grad gi.
  Hypothesis HS : 0 < sp < 1.
  Hypothesis HN : (0 < n)%nat.
  Hypothesis HK : forall h x g, bc_hook cb h x g = g.
  Hypothesis BK : eta0 * L <= 2 * (1 - sp) * 2 ^ k.
  Let nm := fun g : list R => sqrt (ConvergeSpec.sqn g).

  Lemma search_le x g gB cf c obj : forall fuel (eta : R) tr e' tr', 0 < eta ->
    search (N := RN) f fuel (fun e => e / 2) sp x g gB cf c obj eta tr = Some (e', tr') -> 0 < (e' : R) <= eta.
  Proof.
    induction fuel as [|fuel IH]; intros eta tr e' tr' HE; cbn [search]; unfold quiet; destruct (nlt _ _); try discriminate.
    - intro H. injection H as <- _. lra.
    - intro H. apply IH in H; lra.
    - intro H. injection H as <- _. lra.
  Qed.

  Lemma samples_sum x : forall c i j s, e_g (samples (N := RN) f cb nm x i j c s) = fold_left (fun a q => vadd (N := RN) a (gi q x)) (seq i c) (e_g s).
  Proof.
    destruct WS as (_ & WG & _). induction c as [|c IH]; intros i j s; [reflexivity|]. cbn [samples seq fold_left]. rewrite IH. f_equal.
    unfold sample, bgrad. cbn [e_g]. rewrite HK, WG. reflexivity.
  Qed.

  Definition ok (s : bst (N := RN)) : Prop :=
    length (b_x s) = p /\ 0 < (b_eta s : R) <= eta0 /\ (n <= b_bs s)%nat /\
    ((b_i s < lim)%nat -> b_cf s = 0%nat /\ exists q, (lim - b_i s = S q * n)%nat).
  Lemma body_ends fuel s : (k <= fuel)%nat -> ok s ->
    match bbody (N := RN) f cb (Backtrack (N := RN) sp) maxIterations tol shuffle nm offset fuel s with
    | inl s' => ok s' /\ (lim - b_i s' < lim - b_i s)%nat
    | inr BMore => False
    | inr BBad => False
    | inr (BDone s') | inr (BConv s') => (n <= b_bs s')%nat
    end.
  Proof.
    intros HF (LX & HE & HB & HI). unfold bbody.
    destruct (Nat.ltb_spec (b_i s) lim) as [C|C]; [|exact HB]. destruct (b_term s); [exact HB|]. cbn [negb andb].
    destruct (Nat.eqb_spec n 0) as [Z|_]; [lia|]. destruct (HI C) as (E0 & q & EQ). rewrite E0.
    assert (Ec : Nat.min (Nat.min (b_bs s) (lim - b_i s)) (n - 0) = n) by (rewrite EQ; cbn [Nat.mul]; lia).
    rewrite Ec. destruct (bgrad f cb (b_x s) 0 false (b_tr s)) as [[g term] tr] eqn:EG.
    set (e := samples f cb nm (b_x s) 1 1 (n - 1) _).
    assert (Eg : e_g e = grad (b_x s)).
    { unfold e. rewrite samples_sum. cbn [e_g]. unfold bgrad in EG. injection EG as <- _ _. destruct WS as (_ & WG & WT). rewrite HK, WG. apply WT. exact LX. }
    set (gB := BigBatch.sqn _ _).
    assert (EB : gB = mean_sq (N := RN) nm n (grad (b_x s))) by (unfold gB; rewrite Eg; reflexivity).
    assert (G : (if (n =? b_bs s)%nat then grow (N := RN) f cb nm offset n (b_x s) 0 (b_bs s) n (Nat.max 1 n) gB false e else Some (b_bs s, n, gB, false, e)) = Some (b_bs s, n, gB, false, e)).
    { destruct (n =? b_bs s)%nat; [|reflexivity].
      assert (GR : forall m, grow (N := RN) f cb nm offset m (b_x s) 0 (b_bs s) n (Nat.max 1 n) gB false e = Some (b_bs s, n, gB, false, e)).
      { intros [|m]; cbn [grow]; (destruct (noisy _ _ _); [|reflexivity]);
          (match goal with |- context [(n <=? ?a)%nat] => destruct (Nat.leb_spec n a) as [Q|Q]; [reflexivity|exfalso; lia] end). }
      apply GR. }
    rewrite G. cbv beta iota. destruct (e_term e); [exact HB|]. unfold update.
    rewrite Eg, EB. cbv beta iota.
    destruct (search_ends mx p f L sp F grad gi fuel (b_x s) (b_eta s) (e_tr e) SM HL WS HS (proj1 HE) HN LX) as (eta' & tr' & ES).
    { apply Rle_trans with (eta0 * L); [apply Rmult_le_compat_r; lra|]. eapply Rle_trans; [exact BK|].
      apply Rmult_le_compat_l; [lra|]. apply Rle_pow; [lra|exact HF]. }
    change (backtrack f fuel (fun e1 : T RN => ndiv e1 (two (N := RN))) sp (b_x s) (grad (b_x s)) (mean_sq (N := RN) nm n (grad (b_x s))) 0 n (b_eta s) (e_tr e) = Some (eta', tr')) in ES.
    rewrite ES.
    assert (HE' : 0 < (eta' : R) <= b_eta s).
    { unfold backtrack, quiet in ES. exact (search_le _ _ _ _ _ _ _ _ _ _ _ (proj1 HE) ES). }
    assert (LX' : length (vsub (N := RN) (b_x s) (vscale (N := RN) eta' (grad (b_x s)))) = p) by exact (go_length mx p L F grad SM eta' (b_x s) LX).
    cbn [Nat.add]. rewrite Nat.mod_same by lia. cbn [Nat.eqb negb].
    destruct (_ || _); [exact HB|].
    split; [|cbn [b_i]; lia].
    unfold ok. cbn [b_x b_eta b_bs b_i b_cf]. split; [exact LX'|]. split; [lra|]. split; [exact HB|].
    intro C'. destruct (Nat.eqb_spec (b_i s + n) lim) as [Z|_]; [lia|]. cbn [negb]. split; [reflexivity|].
    destruct q as [|q]; [lia|]. exists q. cbn [Nat.mul] in *. lia.
  Qed.

  Lemma final_ends fuel x bs acc tr : (0 < fuel)%nat -> (n <= bs)%nat -> exists v, final_pass (N := RN) f fuel x bs 0 acc tr = Some v.
  Proof.
    intros HF HB. destruct fuel as [|fuel]; [lia|]. cbn [final_pass]. destruct (Nat.ltb_spec 0 n) as [_|]; [|lia]. cbn [Nat.add].
    destruct fuel; cbn [final_pass]; (destruct (Nat.ltb_spec bs n) as [|_]; [lia|]); eauto.
  Qed.

  Lemma run_ends fuel b prev x0 : (k <= fuel)%nat -> (lim < fuel)%nat -> 0 < eta0 -> (n <= b)%nat -> (lim mod n = 0)%nat -> length x0 = p ->
    exists r, bigbatch (N := RN) f cb (Backtrack (N := RN) sp) maxIterations tol shuffle exact nm offset fuel b eta0 prev x0 = Ret r.
  Proof.
    intros HF HM HE HB HD LX. unfold bigbatch.
    set (s0 := {| b_x := x0 |}).
    assert (O0 : ok s0).
    { split; [exact LX|]. split; [cbn; lra|]. split; [exact HB|]. cbn. intro C. split; [reflexivity|].
      pose proof (Nat.div_mod lim n ltac:(lia)) as D. rewrite HD in D. destruct (lim / n)%nat as [|q] eqn:E; [nia|]. exists q. nia. }
    destruct (loop_terminates (bbody (N := RN) f cb (Backtrack (N := RN) sp) maxIterations tol shuffle nm offset fuel) ok (fun s => (lim - b_i s)%nat)) with (fuel := fuel) (s := s0) as [o EO].
    { intros s Hs. pose proof (body_ends fuel s HF Hs) as B. destruct (bbody _ _ _ _ _ _ _ _ _ _); [exact B|exact I]. }
    { exact O0. }
    { cbn. lia. }
    pose proof (loop_inv_done (bbody (N := RN) f cb (Backtrack (N := RN) sp) maxIterations tol shuffle nm offset fuel) ok
      (fun o => match o with BMore => False | BBad => False | BDone s' | BConv s' => (n <= b_bs s')%nat end)) as LI.
    specialize (LI ltac:(intros s Hs; pose proof (body_ends fuel s HF Hs) as B; destruct (bbody _ _ _ _ _ _ _ _ _ _); [exact (proj1 B)|exact B]) fuel s0 o O0 EO).
    rewrite EO. destruct o as [s|s| |]; try contradiction; [|eauto]. destruct exact; [|eauto].
    destruct (final_ends fuel (b_x s) (b_bs s) n0 (b_tr s) ltac:(lia) LI) as [[v tr] ->]. eauto.
  Qed.
End Ends.
