(** Consequences of the report of big-batch SGD, and examples. *)
From Coq Require Import List Arith Bool Lia ZArith QArith.
From Verif.Base Require Import Num Vec Size Loop Instances QInst.
From Verif.Model Require Import Common VarRed BigBatch.
From Verif.Spec Require Import SgdSpec VarRedSpec BigBatchSpec.
From Verif.Proof Require Import SVRGProof BigBatchProof.
Import ListNotations.
Local Open Scope nat_scope.

Section P.
  Context {N : Num}.
  Variables (n lim : nat) (tol : N) (norm : list N -> N) (pol : bpolicy N).
  Notation brun := (brun n lim tol norm pol).

  Lemma step_bound s t m : step_ok n lim norm pol s t m -> 0 < u_c n lim s t /\ p_f s + u_c n lim s t <= n.
  Proof.
    intros (A & B & C & (F & G & _) & _). unfold u_c. split; [lia|]. destruct (u_grow t) as [|o r] eqn:E.
    - cbn. unfold first_batch. lia.
    - destruct (G ltac:(discriminate)) as (G1 & G2). rewrite G1. lia.
  Qed.
  Lemma seq_mod i c : 0 < n -> i mod n + c <= n -> seq (i mod n) c = map (fun k => k mod n) (seq i c).
  Proof.
    intros Hn H. rewrite <- (Nat.add_0_r i) at 2. rewrite <- (Nat.add_0_r (i mod n)).
    assert (E : forall c k, i mod n + k + c <= n -> seq (i mod n + k) c = map (fun q => q mod n) (seq (i + k) c)).
    { clear c H. induction c as [|c IH]; intros k H; [reflexivity|]. cbn [seq map]. f_equal.
      - rewrite Nat.add_mod by lia. rewrite (Nat.mod_small k) by lia. symmetry. apply Nat.mod_small. lia.
      - replace (S (i mod n + k)) with (i mod n + S k) by lia. replace (S (i + k)) with (i + S k) by lia. apply IH. lia. }
    apply E. lia.
  Qed.
  Lemma covers l : forall s s', 0 < n -> p_f s = p_i s mod n -> brun s l s' ->
    p_i s <= p_i s' /\
    flat_map (fun p => seq (fst p) (snd p)) (batches_of n lim s l) = map (fun k => k mod n) (seq (p_i s) (p_i s' - p_i s)).
  Proof.
    induction l as [|[t m] l IH]; intros s s' Hn Hf R; cbn [BigBatchSpec.brun batches_of flat_map fst snd] in *.
    - subst s'. rewrite Nat.sub_diag. split; [lia|reflexivity].
    - destruct R as (St & _ & R). pose proof (step_bound s t m St) as (P & L). destruct St as (A & B & _ & _ & _ & Ei & Ef & _).
      assert (Q : p_i m <= p_i s' /\ flat_map (fun p => seq (fst p) (snd p)) (batches_of n lim m l) = map (fun k => k mod n) (seq (p_i m) (p_i s' - p_i m))).
      { destruct l as [|[t' m'] l].
        - cbn in *. subst s'. rewrite Nat.sub_diag. split; [lia|reflexivity].
        - apply IH; [exact Hn| |exact R]. destruct R as ((A' & _) & _). rewrite Ei, Ef in *.
          destruct (more n lim s t) eqn:M.
          + unfold more, ends in M. apply andb_prop in M. destruct M as (M & _). apply Nat.eqb_eq in M.
            rewrite <- Nat.add_mod_idemp_l, <- Hf, M, Nat.mod_same by lia. reflexivity.
          + rewrite <- Nat.add_mod_idemp_l, <- Hf by lia.
            symmetry. apply Nat.mod_small. exact A'. }
      destruct Q as (Q1 & Q2). split; [lia|]. rewrite Q2. rewrite Hf, seq_mod by lia. rewrite <- map_app, Ei, <- seq_app. f_equal. f_equal. lia.
  Qed.
  Lemma grows l : forall s s', brun s l s' -> p_bs s <= p_bs s' <= Nat.max (p_bs s) (n - 1) /\
    Forall (fun q => p_bs s <= p_bs (snd q) <= p_bs s') l.
  Proof.
    induction l as [|[t m] l IH]; intros s s' R; cbn [BigBatchSpec.brun] in *; [subst; split; [lia|constructor]|].
    destruct R as (St & _ & R). destruct (IH _ _ R) as (A & B). destruct St as (_ & _ & _ & (F & G & _) & _ & _ & _ & Eb & _).
    assert (K : p_bs s <= p_bs m <= Nat.max (p_bs s) (n - 1)).
    { rewrite Eb. destruct (u_grow t) as [|o r] eqn:E; [cbn; lia|]. destruct (G ltac:(discriminate)) as (_ & G2). lia. }
    split; [lia|]. constructor; [cbn; lia|]. revert B. apply Forall_impl. intros q Hq. lia.
  Qed.
  (** only the last batch can pass the limit, and only by growing *)
  Lemma overshoot l : forall s s', brun s l s' -> p_i s <= lim ->
    p_i s' <= lim \/ exists l' t m, l = l' ++ [(t, m)] /\ p_i s' <= lim + list_sum (u_grow t).
  Proof.
    induction l as [|[t m] l IH]; intros s s' R L; cbn [BigBatchSpec.brun] in *; [subst; auto|].
    destruct R as (St & _ & R). destruct St as (_ & B & _ & _ & _ & Ei & _).
    assert (K : p_i m <= lim + list_sum (u_grow t)) by (rewrite Ei; unfold u_c, first_batch; lia).
    destruct l as [|[t' m'] l].
    - cbn in R. subst s'. right. exists [], t, m. split; [reflexivity|exact K].
    - destruct (IH _ _ R) as [H|(l' & t1 & m1 & E & H)]; [destruct R as ((_ & R1 & _) & _); lia|left; exact H|].
      right. exists ((t, m) :: l'), t1, m1. cbn. rewrite E. auto.
  Qed.
End P.

Section Top.
  Context {N : Num}.
  Variables (n lim : nat) (tol : N) (norm : list N -> N) (pol : bpolicy N) (b : nat) (eta : N) (prev x : list N).
  Notation brun := (brun n lim tol norm pol).
  Lemma covers_start l s : 0 < n -> brun (bstart b eta prev x) l s ->
    flat_map (fun p => seq (fst p) (snd p)) (batches_of n lim (bstart b eta prev x) l) = map (fun k => k mod n) (seq 0 (p_i s)).
  Proof.
    intros Hn R. assert (Z : p_f (bstart b eta prev x) = p_i (bstart b eta prev x) mod n) by (cbn [bstart p_f p_i]; rewrite Nat.mod_0_l; lia).
    destruct (covers n lim tol norm pol l _ _ Hn Z R) as (_ & E).
    rewrite E. cbn [bstart p_i]. f_equal. f_equal. lia.
  Qed.
  Lemma brun_split l1 : forall s q l2 s', brun s (l1 ++ q :: l2) s' -> brun (snd q) l2 s'.
  Proof. induction l1 as [|[t m] l1 IH]; intros s [t' m'] l2 s' R; cbn in R; destruct R as (_ & _ & R); [exact R|]. eapply IH, R. Qed.
  Lemma shrinks l s : brun (bstart b eta prev x) l s ->
    b <= p_bs s <= Nat.max b (n - 1) /\
    forall l1 q l2, l = l1 ++ q :: l2 -> b <= p_bs (snd q) <= p_bs s /\ Forall (fun q' => p_bs (snd q) <= p_bs (snd q')) l2.
  Proof.
    intros R. destruct (grows n lim tol norm pol _ _ _ R) as (A & B). split; [exact A|]. intros l1 q l2 ->.
    rewrite Forall_forall in B. split; [apply (B q); apply in_or_app; right; left; reflexivity|].
    destruct (grows n lim tol norm pol _ _ _ (brun_split _ _ _ _ _ R)) as (_ & C). revert C. apply Forall_impl. intros a Ha. lia.
  Qed.
End Top.
Lemma size_after {N : Num} (f : VFun N) cb pol maxIterations (tol : N) shuffle exact norm offset fuel b (eta : N) prev x r :
  0 < b -> 0 < vf_num f ->
  bigbatch f cb pol maxIterations tol shuffle exact norm offset fuel b eta prev x = Ret r ->
  b <= br_bs r <= Nat.max b (vf_num f - 1).
Proof.
  intros Hb Hn E. destruct (bigbatch_ok f cb pol maxIterations tol shuffle exact norm offset Hn b eta prev x Hb fuel r E) as (s' & (l & s & R & C) & _ & _ & _ & Eb & _).
  rewrite Eb. destruct (grows _ _ _ _ _ _ _ _ R) as (A & _). cbn [bstart p_bs] in A. destruct (br_conv r).
  - destruct C as (t & (_ & _ & _ & (F & G & _) & _ & _ & _ & Es & _) & _). rewrite Es.
    destruct (u_grow t) as [|o q] eqn:K; [cbn; lia|]. destruct (G ltac:(discriminate)). lia.
  - destruct C as (g & gs & fi & _ & [(_ & ->)|((F & G & _) & _)] & -> & _); cbn [p_bs]; [cbn; lia|].
    destruct g as [|o q] eqn:K; [cbn; lia|]. destruct (G ltac:(discriminate)). lia.
Qed.

(** Batches of one function never grow: the sample variance of one gradient is 0 and the test
    divides 1 by 0. *)
Lemma one_never_noisy (gB : F64) : noisy (N := F64) gB n0 1 = false.
Proof.
  unfold noisy. replace (ndiv (nmul (ndiv n1 (nsub (nofnat 1) n1)) n0) (nofnat 1) : F64) with fnan by (vm_compute; reflexivity).
  destruct gB; reflexivity.
Qed.

Lemma one_stays (f : VFun F64) cb pol maxIterations (tol : F64) shuffle exact norm offset fuel eta prev x r :
  bigbatch f cb pol maxIterations tol shuffle exact norm offset fuel 1 eta prev x = Ret r -> br_bs r = 1.
Proof.
  unfold bigbatch.
  set (P := fun s : bst (N := F64) => b_bs s = 1).
  set (Q := fun e : bexit (N := F64) => match e with BDone s | BConv s => b_bs s = 1 | _ => True end).
  match goal with |- context [loop ?b fuel ?s] => assert (H : match loop b fuel s with inl q => P q | inr e => Q e end) end.
  { apply loop_inv; [|reflexivity]. intros s Hs. unfold P in Hs. unfold bbody.
    destruct (negb _); [exact Hs|]. destruct (_ =? 0); [exact I|].
    destruct (bgrad _ _ _ _ _ _) as [[g term] tr]. rewrite Hs.
    assert (C : Nat.min (Nat.min 1 (amax maxIterations - b_i s)) (vf_num f - b_cf s) - 1 = 0) by lia.
    rewrite C. cbn [samples]. cbn [e_g e_d e_v e_term e_tr].
    assert (G : forall fu c k gB rr e, e_v e = (n0 : F64) -> grow f cb norm offset fu (b_x s) (b_cf s) 1 c k gB rr e = Some (1, c, gB, rr, e)).
    { intros fu c k gB rr e E. destruct fu; cbn [grow]; rewrite E, one_never_noisy; reflexivity. }
    match goal with |- context [if ?c =? 1 then _ else _] => destruct (c =? 1) end; rewrite ?G by reflexivity;
    (cbn [e_g e_d e_v e_term e_tr]; destruct term; [reflexivity|];
     match goal with |- context [match ?u with Some _ => _ | None => _ end] => destruct u as [[[[[pv et] xx] gg] tt]|] end; [|exact I];
     destruct (negb _); [reflexivity|]; destruct (_ || _); reflexivity). }
  destruct (loop _ _ _) as [s|[s|s| |]]; intros E; try discriminate; cbn in H.
  - destruct exact.
    + destruct (final_pass _ _ _ _ _ _ _) as [[v tr]|]; [|discriminate]. injection E as <-. exact H.
    + injection E as <-. exact H.
  - injection E as <-. exact H.
Qed.

(** ---- examples ---- *)
Section Ex.
  (** functions (x - a_i)^2 with a = 0, 3, 0, 3, 0, 3 *)
  Definition aim (i : nat) : Q := if Nat.even i then 0%Q else 3%Q.
  Definition sumq (l : list Q) : Q := Qred (fold_right Qplus 0%Q l).
  Definition qf : VFun QNum := {| vf_num := 6;
     vf_eval := fun _ (x : list QNum) i c => sumq (map (fun k => (hd 0%Q x - aim k) * (hd 0%Q x - aim k))%Q (seq i c));
     vf_grad := fun _ (x : list QNum) i c => [sumq (map (fun k => 2 * (hd 0%Q x - aim k))%Q (seq i c))] |}.
  Definition qquiet : BCB QNum := {| bc_stop := fun _ => false; bc_hook := fun _ _ g => g |}.
  Definition bbrun (pol : bpolicy QNum) (ex : bool) (m : nat) (b : nat) (x : Q) :=
    bigbatch (N := QNum) qf qquiet pol m (0%Q : QNum) true ex (fun v => Qabs.Qabs (hd 0%Q v)) (fun b => b / 2) 40 b (1#4) [] [x].
  Definition bt : bpolicy QNum := Backtrack (N := QNum) (1#10).
  Definition ad : bpolicy QNum := Adaptive (N := QNum) (1#2) (1#10).
  Ltac run t := let v := eval vm_compute in t in match v with Ret ?r => exists r end; split; [vm_compute; reflexivity|].
  (** maxIterations = 3, batches of 3 that grow to 4 *)
  Lemma b_plain : exists r, bbrun bt false 3 3 (7#4) = Ret r /\ br_tr r =
    ([@BBegin QNum [7#4]; @BGrad QNum [7#4] 0 [7#2] [7#2]; @BGrad QNum [7#4] 1 [-5#2] [-5#2]; @BGrad QNum [7#4] 2 [7#2] [7#2]; @BGrad QNum [7#4] 2 [7#2] [7#2];
     @BEvalQ QNum [7#4] 0 4 (37#4); @BEvalQ QNum [-9#4] 0 4 (261#4); @BEvalQ QNum [-1#4] 0 4 (85#4); @BEvalQ QNum [3#4] 0 4 (45#4); @BEvalQ QNum [5#4] 0 4 (37#4);
     @BEvalQ QNum [3#2] 0 4 (9#1); @BStep QNum [3#2] (1#32); @BEval QNum [3#2] 0 4 (9#1); @BEnd QNum [3#2]] : list (bev QNum)) /\
    br_bs r = 4 /\ br_val r = (9#1) /\ br_conv r = false.
  Proof. run (bbrun bt false 3 3 (7#4)). repeat split. Qed.
  Lemma b_adaptive : exists r, bbrun ad false 3 2 1%Q = Ret r /\ br_x r = [7#9] /\
    filter (fun e => match e with BStep _ _ => true | _ => false end) (br_tr r) = ([@BStep QNum [3#2] (1#6); @BStep QNum [7#9] (1#9)] : list (bev QNum)) /\
    In (@BEvalQ QNum [1#1] 2 1 (1#1) : bev QNum) (br_tr r).
  Proof. run (bbrun ad false 3 2 1%Q). repeat split. cbn. auto 30. Qed.
  Lemma b_exact : exists r, bbrun bt true 3 2 1%Q = Ret r /\ br_x r = [3#4] /\ br_val r = (135#8).
  Proof. run (bbrun bt true 3 2 1%Q). repeat split. Qed.
  Lemma b_grown : exists r, bbrun bt false 3 3 (7#4) = Ret r /\
    flat_map (fun e => match e with BGrad _ i _ _ => [i] | _ => [] end) (br_tr r) = [0; 1; 2; 2] /\
    In (@BEval QNum [3#2] 0 4 (9#1)) (br_tr r) /\ br_bs r = 4.
  Proof. destruct b_plain as (r & H & E & A & _). exists r. rewrite E. repeat split; try assumption. cbn. auto 20. Qed.
  Lemma b_two : exists r, bbrun bt true 3 2 1%Q = Ret r /\ br_bs r = 2 /\
    exists rest, br_tr r = @BBegin QNum [1%Q] :: @BGrad QNum [1%Q] 0 [2#1] [2#1] :: @BGrad QNum [1%Q] 1 [-4#1] [-4#1] :: rest.
  Proof. run (bbrun bt true 3 2 1%Q). split; [reflexivity|]. eexists. reflexivity. Qed.
End Ex.
