(** Proofs for C59: optimizers whose objects can be used again. *)
From Coq Require Import List Arith Bool Lia ZArith.
From Verif.Base Require Import Num Loop Vec.
From Verif.Model Require Import Common Sgd Schedules Reuse.
From Verif.Spec Require Import CommonSpec ReuseSpec.
Import ListNotations.

(** a property of all objects a new one can become *)
Lemma used_inv {O I V : Type} (call : O -> I -> outc (V * O)) (P : I -> V -> Prop) (Inv : O -> Prop) new :
  Inv new -> (forall o i v o', Inv o -> call o i = Ret (v, o') -> P i v -> Inv o') -> forall o, used call P new o -> Inv o.
Proof. intros H0 H o U. induction U as [|o i v o' U IH E Hp]; [exact H0|]. exact (H _ _ _ _ IH E Hp). Qed.

Section Sgd.
  Context {N : Num} {X G P U D : Type}.
  Variable c : Cfg N X G U D.
  Variable parent : U -> P.
  Hypothesis fixed_decay : forall d x h g, c_dp c d x h g = (d, h).
  Hypothesis fixed_parent : forall u x h g, parent (fst (c_up c u x h g)) = parent u.

  Lemma sgd_keeps f cb fuel u d step x r : optimize_with c f cb fuel u d step x = Return r ->
    parent (r_u r) = parent u /\ r_d r = d /\ r_step r = step.
  Proof.
    unfold optimize_with.
    set (K := fun s : st N X G U D => parent (s_u s) = parent u /\ s_d s = d /\ s_step s = step).
    set (Q := fun e : exit => match e with Xloop s | Xret s => K s | Xub => True end).
    assert (H : match loop (body c f cb) fuel (init cb x u d step) with inl q => K q | inr e => Q e end).
    { apply loop_inv; [|unfold K; cbn; auto]. intros s Hs. unfold body. destruct (negb _); [exact Hs|].
      destruct (sf_evalgrad _ _ _ _ _) as [obj g].
      match goal with |- context [c_up c ?a ?b ?h ?g'] => pose proof (fixed_parent a b h g') as Hu; destruct (c_up c a b h g') as [u' x'] end.
      rewrite fixed_decay. cbn [fst] in Hu. destruct Hs as (A & B & C).
      destruct (_ =? 0); [exact I|]. cbn [s_cf].
      destruct (_ =? 0); [unfold epoch_end; cbn [s_overall s_last s_u s_d s_step s_term s_i s_x s_tr]|];
        repeat match goal with |- context [if ?b then _ else _] => destruct b end; unfold Q, K; cbn [s_u s_d s_step]; rewrite Hu; auto. }
    destruct (loop _ _ _) as [s|[s|s|]]; cbn in H; intros E; try discriminate.
    - destruct (c_exact c).
      + destruct (exact_loop _ _ _ _ _ _ _ _) as [[v tr]|]; [|discriminate]. injection E as <-. exact H.
      + injection E as <-. exact H.
    - injection E as <-. exact H.
  Qed.

  Variable inst : P -> X -> U.
  Hypothesis inst_parent : forall p x, parent (inst p x) = p.

  Lemma sgd_as_new p d (h : N) : as_new (sgd_call true inst parent c) any every (Build_sgd_obj p None d h).
  Proof.
    intros o i Hu _.
    assert (H : so_parent o = p /\ so_decay o = d /\ so_step o = h).
    { revert o Hu. apply used_inv; [cbn; auto|]. intros o i' v o' (A & B & C) E _. unfold sgd_call in E.
      destruct (optimize_with _ _ _ _ _ _ _ _) as [r| |] eqn:Er; [|discriminate|discriminate].
      apply sgd_keeps in Er. destruct Er as (E1 & E2 & E3). injection E as <- <-. cbn [so_parent so_decay so_step].
      rewrite E1, E2, E3. split; [|auto]. unfold sgd_inst. destruct (so_inst o); rewrite inst_parent; exact A. }
    destruct H as (A & B & C). unfold sgd_call. rewrite B, C. cbn [so_decay so_step].
    replace (sgd_inst true inst o (si_x i)) with (sgd_inst true inst {| so_parent := p; so_inst := None; so_decay := d; so_step := h |} (si_x i)).
    2: { unfold sgd_inst. cbn [so_inst so_parent]. rewrite A. destruct (so_inst o); reflexivity. }
    destruct (optimize_with _ _ _ _ _ _ _ _); reflexivity.
  Qed.
End Sgd.

(** ** SVRG, SARAH, Katyusha *)
Section Members.
  Context {N : Num}.
  (** the member innerIterations: 0 becomes the number of functions of the first call *)
  Lemma inner_again (f g : VarRed.VFun N) k : VarRed.vf_num f = VarRed.vf_num g -> SVRG.inner_of f (SVRG.inner_of g k) = SVRG.inner_of f k.
  Proof. unfold SVRG.inner_of. intros <-. destruct k; [|reflexivity]. destruct (VarRed.vf_num f); reflexivity. Qed.
  (** What a call does depends on the member only through [inner_of]. *)
  Variable n : nat.
  Definition with_n (i : vr_in N) : Prop := VarRed.vf_num (vi_f i) = n.
  Definition stands (k0 k : nat) : Prop := forall f : VarRed.VFun N, VarRed.vf_num f = n -> SVRG.inner_of f k = SVRG.inner_of f k0.
  Lemma stands_next k0 k (f : VarRed.VFun N) : VarRed.vf_num f = n -> stands k0 k -> stands k0 (SVRG.inner_of f k).
  Proof. intros Hf H g Hg. rewrite (H f Hf). apply inner_again. congruence. Qed.

  Variables (batch max : nat) (tol : N) (shuffle exact : bool).
  Lemma sarah_as_new eta norm early k0 :
    as_new (sarah_call batch max tol shuffle exact eta norm early) (fun i _ => with_n i) with_n k0.
  Proof.
    intros k i Hu Hi.
    assert (H : stands k0 k).
    { revert k Hu. apply used_inv; [intros f _; reflexivity|]. intros k i' v k' Hk E Hn. unfold sarah_call, Sarah.sarah in E.
      destruct (loop _ _ _) as [s|[s|s| |]]; try discriminate; [destruct exact; [destruct (VarRed.eval_pass _ _ _ _ _ _ _ _ _) as [[[v' t] tr]|]; [|discriminate]|]|];
        injection E as <- <-; apply stands_next; assumption. }
    unfold sarah_call, Sarah.sarah. rewrite (H _ Hi). destruct (loop _ _ _) as [s|[s|s| |]]; reflexivity.
  Qed.
  Lemma katyusha_as_new prox cv lip k0 :
    as_new (katyusha_call batch max tol shuffle exact prox cv lip) (fun i _ => with_n i) with_n k0.
  Proof.
    intros k i Hu Hi.
    assert (H : stands k0 k).
    { revert k Hu. apply used_inv; [intros f _; reflexivity|]. intros k i' v k' Hk E Hn. unfold katyusha_call, Katyusha.katyusha in E.
      destruct (_ =? 0); [discriminate|].
      destruct (loop _ _ _) as [s|[s|s| |]]; try discriminate; [destruct exact; [destruct (VarRed.eval_pass _ _ _ _ _ _ _ _ _) as [[[v' t] tr]|]; [|discriminate]|]|];
        injection E as <- <-; apply stands_next; assumption. }
    unfold katyusha_call, Katyusha.katyusha. rewrite (H _ Hi). destruct (_ =? 0); [reflexivity|]. destruct (loop _ _ _) as [s|[s|s| |]]; reflexivity.
  Qed.

  Context {D : Type}.
  Variable dp : D -> list N -> list N -> list N -> nat -> N -> D * N.
  Hypothesis fixed : forall d x x0 g m h, dp d x x0 g m h = (d, h).
  Lemma svrg_keeps f cb fuel k d h x r : SVRG.svrg f cb batch max tol shuffle exact dp fuel k d h x = Ret r ->
    SVRG.vr_st r = (SVRG.inner_of f k, d, h).
  Proof.
    unfold SVRG.svrg. destruct (_ =? 0); [discriminate|].
    set (K := fun s : SVRG.sst (N := N) (D := D) => SVRG.s_d s = d /\ SVRG.s_eta s = h).
    set (Q := fun e : SVRG.sexit (N := N) (D := D) => match e with SVRG.SDone s | SVRG.SConv s => K s | _ => True end).
    match goal with |- context [loop ?b fuel ?s] => assert (H : match loop b fuel s with inl q => K q | inr e => Q e end) end.
    { apply loop_inv; [|split; reflexivity]. intros s Hs. unfold SVRG.sbody. destruct (negb _); [exact Hs|].
      destruct (VarRed.eval_pass _ _ _ _ _ _ _ _ _) as [[[ov t] tr]|]; [|exact I]. destruct t; [exact Hs|]. destruct (_ || _); [exact Hs|].
      destruct (VarRed.full_gradient _ _ _ _ _ _ _ _ _) as [[[fg t] tr']|]; [|exact I]. destruct t; [exact Hs|].
      destruct (loop _ _ _) as [q|[q|]]; try exact I. rewrite fixed. exact Hs. }
    destruct (loop _ _ _) as [s|[s|s| |]]; intros E; try discriminate; cbn in H; destruct H as [A B].
    - destruct exact; [destruct (VarRed.eval_pass _ _ _ _ _ _ _ _ _) as [[[v' t] tr]|]; [|discriminate]|]; injection E as <-; cbn; congruence.
    - injection E as <-. cbn. congruence.
  Qed.
  Lemma svrg_as_new k0 d h : as_new (svrg_call batch max tol shuffle exact dp) (fun i _ => with_n i) with_n (k0, d, h).
  Proof.
    intros o i Hu Hi.
    assert (H : stands k0 (fst (fst o)) /\ snd (fst o) = d /\ snd o = h).
    { revert o Hu. apply used_inv; [split; [intros f _; reflexivity|auto]|]. intros o i' v o' (A & B & C) E Hn. unfold svrg_call in E.
      destruct (SVRG.svrg _ _ _ _ _ _ _ _ _ _ _ _ _) as [r| |] eqn:Er; try discriminate. apply svrg_keeps in Er.
      injection E as <- <-. rewrite Er. cbn [fst snd]. rewrite B, C. split; [|auto]. apply stands_next; assumption. }
    destruct H as (A & B & C). unfold svrg_call. rewrite B, C. cbn [fst snd].
    unfold SVRG.svrg. rewrite (A _ Hi). destruct (_ =? 0); [reflexivity|]. destruct (loop _ _ _) as [s|[s|s| |]]; reflexivity.
  Qed.
End Members.

(** ** SPALeRASGD without a decay policy *)
Section Spalera.
  Context {N : Num} {D : Type}.
  Variables (npow : N -> nat -> N) (nexp : N -> N) (tiny alpha epsilon rate : N) (batch max : nat) (tol lambda : N)
            (shuffle exact : bool) (decay : D -> list N -> N -> list N -> D * N).
  Hypothesis fixed : forall d x h g, decay d x h g = (d, h).
  Lemma spalera_keeps f cb fuel old h d x r :
    Spalera.spalera npow nexp tiny alpha epsilon rate f cb batch max tol lambda shuffle exact decay fuel old h d x = Ret r ->
    Spalera.pr_eta r = h /\ Spalera.pr_d r = d.
  Proof.
    unfold Spalera.spalera. destruct (Spalera.pass _ _ _ _ _ _ _ _ _) as [[[ov t] tr]|]; [|discriminate].
    destruct (match old with None => _ | Some q => q end) as [pol lam].
    set (K := fun s : Spalera.lst (N := N) (D := D) => Spalera.l_eta s = h /\ Spalera.l_d s = d).
    set (Q := fun e : Spalera.lexit (N := N) (D := D) => match e with Spalera.LDone s | Spalera.LConv s | Spalera.LFail s => K s | _ => True end).
    match goal with |- context [loop ?b fuel ?s] => assert (H : match loop b fuel s with inl q => K q | inr e => Q e end) end.
    { apply loop_inv; [|split; reflexivity]. intros s Hs. unfold Spalera.pbody. destruct (negb _); [exact Hs|].
      destruct (_ =? 0); [exact I|]. destruct (Spalera.pc_stop _ _); [exact Hs|].
      destruct (Spalera.update _ _ _ _ _ _ _ _ _ _ _ _ _ _) as [[[y [|]] pol']|]; [|exact Hs|exact I]. rewrite fixed.
      destruct (negb _); [exact Hs|]. destruct (_ || _); exact Hs. }
    destruct (loop _ _ _) as [s|[s|s|s|]]; intros E; try discriminate; cbn in H; destruct H as [A B].
    - destruct exact; [destruct (Spalera.pass _ _ _ _ _ _ _ _ _) as [[[v' t'] tr']|]; [|discriminate]|]; injection E as <-; auto.
    - injection E as <-. auto.
    - injection E as <-. auto.
  Qed.
  Lemma spalera_as_new h d : as_new (spalera_call npow nexp tiny alpha epsilon rate batch max tol lambda shuffle exact true decay) any every (None, h, d).
  Proof.
    intros o i Hu _.
    assert (H : snd (fst o) = h /\ snd o = d).
    { revert o Hu. apply used_inv; [auto|]. intros o i' v o' (A & B) E _. unfold spalera_call in E.
      destruct (Spalera.spalera _ _ _ _ _ _ _ _ _ _ _ _ _ _ _ _ _ _ _ _) as [r| |] eqn:Er; try discriminate. apply spalera_keeps in Er.
      injection E as <- <-. cbn [fst snd]. destruct Er as [-> ->]. auto. }
    destruct H as (A & B). unfold spalera_call. rewrite A, B. destruct (Spalera.spalera _ _ _ _ _ _ _ _ _ _ _ _ _ _ _ _ _ _ _ _); reflexivity.
  Qed.
End Spalera.
