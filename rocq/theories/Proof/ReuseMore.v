(** Proofs for C59: L-BFGS and the augmented Lagrangian method. *)
From Coq Require Import List Arith Bool Lia ZArith.
From Verif.Base Require Import Num Vec.
From Verif.Model Require Import Common Reuse.
From Verif.Model Require LBFGS AugLag.
From Verif.Spec Require Import CommonSpec ReuseSpec.
From Verif.Spec Require LBFGSSpec AugLagSpec.
From Verif.Proof Require LBFGSRun AugLagProof.
From Verif.Proof Require Import Reuse.
Import ListNotations.

Section Lbfgs.
  Context {N : Num} (L : OrdLaws N).
  Variables (numBasis maxIterations : nat) (armijo minGradientNorm wolfe factr minStep maxStep : N) (maxTrials : nat)
            (tol : N) (norm2 normF : list N -> N).
  Hypothesis NB : 0 < numBasis.
  Lemma lbfgs_as_new :
    as_new (lbfgs_call numBasis maxIterations armijo minGradientNorm wolfe factr minStep maxStep maxTrials tol norm2 normF)
      (fun i v => length (li_s i) = numBasis /\ length (li_y i) = numBasis /\ ~ asked (li_cb i) (o_tr v)) every false.
  Proof.
    intros o i Hu _. replace o with false; [reflexivity|]. symmetry. revert o Hu. apply used_inv; [reflexivity|].
    intros o j v o' -> E (A & B & C).
    pose proof (LBFGSRun.lbfgs_ok L numBasis maxIterations armijo minGradientNorm wolfe factr minStep maxStep maxTrials tol norm2
      normF (li_f j) (li_cb j) NB (li_x j) false (li_fuel j) (li_s j) (li_y j) A B) as P. unfold lbfgs_call in E. rewrite E in P.
    destruct P as (_ & _ & _ & _ & _ & _ & _ & _ & _ & M & _). destruct o'; [|reflexivity]. destruct M as [M _].
    destruct (M eq_refl) as [X|X]; [discriminate|contradiction].
  Qed.
End Lbfgs.

Section AugLag.
  Context {N : Num} {S : Type}.
  Variables (max : nat) (thrFactor sigmaFactor tol : N).
  Lemma al_keeps f cs solve stop : (forall tr (s : S) l sg x, snd (solve tr s l sg x) = s) ->
    forall fuel it x lambda sigma thr last term s tr r,
    AugLag.al_loop max thrFactor sigmaFactor tol f cs solve stop fuel it x lambda sigma thr last term s tr = Ret r -> AugLag.al_inner r = s.
  Proof.
    intros K. unfold AugLag.al_done. induction fuel as [|fuel IH]; intros it x lambda sigma thr last term s tr r; cbn [AugLag.al_loop]; unfold AugLag.al_done;
      (destruct (negb _); [intro E; injection E as <-; reflexivity|]); [discriminate|].
    pose proof (K tr s lambda sigma x) as Ks. destruct (solve tr s lambda sigma x) as [x' s']. cbn [snd] in Ks. subst s'.
    destruct (_ && _); [intro E; injection E as <-; reflexivity|]. destruct (AugLag.penalty_loop _ _ _ _ _ _ _) as [[pen t3] tr3].
    destruct t3; [intro E; injection E as <-; reflexivity|]. destruct (nlt pen thr).
    - destruct (AugLag.lambda_loop _ _ _ _ _ _ _ _) as [[[l' t4] tr4]|]; [|discriminate]. apply IH.
    - destruct (nle _ _); [intro E; injection E as <-; reflexivity|]. apply IH.
  Qed.
  Lemma auglag_as_new l0 (sg0 : N) (s0 : S) :
    as_new (auglag_call max thrFactor sigmaFactor tol)
      (fun j v => length (gi_cs (fst (fst j))) <= length (snd (fst j)) /\ ~ AugLagSpec.a_asked (gi_stop (fst (fst j))) (go_tr v) /\
                  forall tr s l sg x, snd (gi_solve (fst (fst j)) tr s l sg x) = s) every
      {| ao_lambda := l0; ao_sigma := sg0; ao_term := false; ao_inner := s0 |}.
  Proof.
    intros o [[i l] sg] Hu _.
    assert (H : ao_term o = false /\ ao_inner o = s0).
    { revert o Hu. apply used_inv; [auto|]. intros o [[j l'] sg'] v o' (A & B) E (LC & NA & K). cbn [fst snd] in LC, NA, K. unfold auglag_call in E.
      destruct (AugLag.auglag _ _ _ _ _ _ _ _ _ _ _ _ _ _) as [r| |] eqn:Er; try discriminate. injection E as <- <-. cbn [ao_term ao_inner].
      pose proof (AugLagProof.auglag_ok max thrFactor sigmaFactor tol (gi_f j) (gi_cs j) (gi_solve j) (gi_stop j) (gi_fuel j) (ao_term o) (ao_inner o) l' sg' (gi_x j) LC) as P.
      rewrite Er in P. destruct P as (P & _). cbn [go_tr] in NA. split.
      - destruct (AugLag.al_term r); [|reflexivity]. destruct P as [P _]. destruct (P eq_refl) as [X|X]; [congruence|contradiction].
      - rewrite <- B. unfold AugLag.auglag in Er. destruct (AugLag.penalty_loop _ _ _ _ _ _ _) as [[pen t] tr]. exact (al_keeps _ _ _ _ K _ _ _ _ _ _ _ _ _ _ _ Er). }
    destruct H as [A B]. unfold auglag_call. rewrite A, B. cbn [ao_term ao_inner]. destruct (AugLag.auglag _ _ _ _ _ _ _ _ _ _ _ _ _ _); reflexivity.
  Qed.
  Lemma al_members_ret f cs (solve : _ -> S -> _) stop : forall fuel it x lambda sigma thr last term s tr r,
    AugLag.al_loop max thrFactor sigmaFactor tol f cs solve stop fuel it x lambda sigma thr last term s tr = Ret r ->
    AugLag.al_members r = if AugLag.al_ret r then Some (AugLag.al_lambda r, AugLag.al_sigma r) else None.
  Proof.
    unfold AugLag.al_done. induction fuel as [|fuel IH]; intros it x lambda sigma thr last term s tr r; cbn [AugLag.al_loop]; unfold AugLag.al_done;
      (destruct (negb _); [intro E; injection E as <-; reflexivity|]); [discriminate|].
    destruct (solve tr s lambda sigma x) as [x' s'].
    destruct (_ && _); [intro E; injection E as <-; reflexivity|]. destruct (AugLag.penalty_loop _ _ _ _ _ _ _) as [[pen t3] tr3].
    destruct t3; [intro E; injection E as <-; reflexivity|]. destruct (nlt pen thr).
    - destruct (AugLag.lambda_loop _ _ _ _ _ _ _ _) as [[[l' t4] tr4]|]; [|discriminate]. apply IH.
    - destruct (nle _ _); [intro E; injection E as <-; reflexivity|]. apply IH.
  Qed.
  Lemma members_ret f cs (solve : _ -> S -> _) stop fuel term s lambda sigma x r :
    AugLag.auglag max thrFactor sigmaFactor tol f cs solve stop fuel term s lambda sigma x = Ret r ->
    AugLag.al_members r = if AugLag.al_ret r then Some (AugLag.al_lambda r, AugLag.al_sigma r) else None.
  Proof. unfold AugLag.auglag. destruct (AugLag.penalty_loop _ _ _ _ _ _ _) as [[pen t] tr]. apply al_members_ret. Qed.
  (** what a call leaves in the members *)
  Lemma auglag_members (o o' : al_obj N S) i lambda sigma v : auglag_call max thrFactor sigmaFactor tol o (i, lambda, sigma) = Ret (v, o') ->
    if go_ret v then exists r, AugLag.auglag max thrFactor sigmaFactor tol (gi_f i) (gi_cs i) (gi_solve i) (gi_stop i) (gi_fuel i) (ao_term o) (ao_inner o) lambda sigma (gi_x i) = Ret r /\
                               ao_lambda o' = AugLag.al_lambda r /\ ao_sigma o' = AugLag.al_sigma r
    else ao_lambda o' = ao_lambda o /\ ao_sigma o' = ao_sigma o.
  Proof.
    unfold auglag_call. destruct (AugLag.auglag _ _ _ _ _ _ _ _ _ _ _ _ _ _) as [r| |] eqn:E; try discriminate. intro H. injection H as <- <-.
    pose proof (members_ret _ _ _ _ _ _ _ _ _ _ _ E) as M. cbn [go_ret ao_lambda ao_sigma]. rewrite M. destruct (AugLag.al_ret r); [exists r|]; auto.
  Qed.
  Lemma default_is (o : al_obj N S) i : auglag_default_call max thrFactor sigmaFactor tol o i =
    auglag_call max thrFactor sigmaFactor tol o
      (i, match ao_lambda o with [] => repeat n0 (length (gi_cs i)) | l => l end, match ao_lambda o with [] => nofZ 10 | _ => ao_sigma o end).
  Proof. unfold auglag_default_call, AugLag.auglag_default, auglag_call. destruct (ao_lambda o); reflexivity. Qed.
  Lemma default_members (o o' : al_obj N S) i v : auglag_default_call max thrFactor sigmaFactor tol o i = Ret (v, o') ->
    go_ret v = false -> ao_lambda o' = ao_lambda o /\ ao_sigma o' = ao_sigma o.
  Proof. rewrite default_is. intros E F. apply auglag_members in E. rewrite F in E. exact E. Qed.
  Lemma auglag_default_as_new l0 (sg0 : N) (s0 : S) :
    as_new (auglag_default_call max thrFactor sigmaFactor tol)
      (fun i v => (l0 = [] \/ length (gi_cs i) <= length l0) /\ go_ret v = false /\ ~ AugLagSpec.a_asked (gi_stop i) (go_tr v) /\
                  forall tr s l sg x, snd (gi_solve i tr s l sg x) = s) every
      {| ao_lambda := l0; ao_sigma := sg0; ao_term := false; ao_inner := s0 |}.
  Proof.
    intros o i Hu _.
    assert (H : o = {| ao_lambda := l0; ao_sigma := sg0; ao_term := false; ao_inner := s0 |}).
    { revert o Hu. apply used_inv; [auto|]. intros o j v o' -> E (LC & RF & NA & K).
      destruct (default_members _ _ _ _ E RF) as [M1 M2]. cbn [ao_lambda ao_sigma] in M1, M2.
      rewrite default_is in E. unfold auglag_call in E. cbn [ao_lambda ao_sigma ao_term ao_inner] in E.
      destruct (AugLag.auglag _ _ _ _ _ _ _ _ _ _ _ _ _ _) as [r| |] eqn:Er; try discriminate.
      match type of Er with AugLag.auglag _ _ _ _ _ _ _ _ _ _ _ ?l ?sg _ = _ =>
        assert (LC' : length (gi_cs j) <= length l);
        [destruct l0; [rewrite repeat_length; lia|]; destruct LC; [discriminate|assumption]|];
        pose proof (AugLagProof.auglag_ok max thrFactor sigmaFactor tol (gi_f j) (gi_cs j) (gi_solve j) (gi_stop j) (gi_fuel j) false s0 l sg (gi_x j) LC') as P end.
      rewrite Er in P. destruct P as (P & _).
      assert (B : AugLag.al_inner r = s0).
      { unfold AugLag.auglag in Er. destruct (AugLag.penalty_loop _ _ _ _ _ _ _) as [[pen t] tr]. exact (al_keeps _ _ _ _ K _ _ _ _ _ _ _ _ _ _ _ Er). }
      injection E as <- <-. cbn [go_tr] in NA. unfold al_seen in *. cbn [ao_lambda ao_sigma] in M1, M2. rewrite M1, M2, B. f_equal.
      destruct (AugLag.al_term r); [|reflexivity]. destruct P as [P _]. destruct (P eq_refl) as [X|X]; [discriminate|contradiction]. }
    now rewrite H.
  Qed.
End AugLag.
