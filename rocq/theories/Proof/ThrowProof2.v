(** What the caller's variable holds whenever code of the caller runs: L-BFGS and simulated annealing. *)
From Coq Require Import List Arith Bool.
From Verif.Base Require Import Num Vec Size.
From Verif.Model Require Import Common SA LBFGS Throw.
From Verif.Spec Require Import ThrowSpec.
From Verif.Proof Require Import ThrowProof.
Import ListNotations.

Section LBFGS.
  Context {N : Num}.
  Notation vec := (list N).
  Variables (numBasis maxIterations : nat) (armijo minGradientNorm wolfe factr minStep maxStep : N) (maxTrials : nat) (tol : N).
  Variables norm2 normF : vec -> N.
  Variable f : vec -> N * vec.
  Variable cb : CB N vec vec.
  Notation lc := (lb_calls numBasis maxIterations armijo minGradientNorm wolfe factr minStep maxStep maxTrials tol norm2 normF f cb).
  Notation log := (lbfgs_log numBasis maxIterations armijo minGradientNorm wolfe factr minStep maxStep maxTrials tol norm2 normF f cb).
  Notation steps := (map (fun t : N * N * vec => fst (fst t))).
  Definition settled (m s : vec) (c : act vec (ev N vec vec)) : Prop :=
    match c with Cb (End y) => m = y | _ => m = s end.

  Lemma ls_quiet x d s : forall l tr, ok stepped settled x x (ls_calls f cb x d tr l) /\ memory s (ls_calls f cb x d tr l) = s /\
    fold_left stepped (told (ls_calls f cb x d tr l)) s = s.
  Proof.
    induction l as [|st l IH]; intros tr; [cbn; auto|]. cbn [ls_calls]. destruct (f _) as [v g]. cbn [ok settled]. destruct (nisnan v); [cbn; auto|].
    cbn [ok settled stepped]. destruct (IH (EvG (vadd x (vscale st d)) v g (cs_grad cb tr (vadd x (vscale st d)) v g) :: tr)) as (A & B & C). cbn. auto.
  Qed.
  Lemma ls_trace : forall fuel k x d f0 slope lin step best bestObj term trials tr l,
    ls_loop wolfe minStep maxStep maxTrials f cb fuel k x d f0 slope lin step best bestObj term trials tr = Some l ->
    exists new, ls_trials l = trials ++ new /\ rev (ls_tr l) = rev tr ++ told (ls_calls f cb x d tr (steps new)) /\ (ls_ok l = false -> ls_x l = x).
  Proof.
    induction fuel as [|fuel IH]; intros k x d f0 slope lin step best bestObj term trials tr l; cbn [ls_loop]; [discriminate|].
    destruct (f (vadd x (vscale step d))) as [v g] eqn:F. destruct (nisnan v) eqn:NV.
    - intros [= <-]. cbn. exists [(step, v, g)]. cbn. rewrite F, NV. cbn. rewrite app_nil_r. auto.
    - set (e := EvG _ _ _ _).
      assert (D : forall l0 : LS, ls_trials l0 = trials ++ [(step, v, cs_grad cb tr (vadd x (vscale step d)) v g)] -> ls_tr l0 = e :: tr -> ls_ok l0 = true ->
        exists new, ls_trials l0 = trials ++ new /\ rev (ls_tr l0) = rev tr ++ told (ls_calls f cb x d tr (steps new)) /\ (ls_ok l0 = false -> ls_x l0 = x)).
      { intros l0 E1 E2 E3. exists [(step, v, cs_grad cb tr (vadd x (vscale step d)) v g)]. split; [exact E1|]. split; [|rewrite E3; discriminate].
        rewrite E2. cbn. rewrite F, NV. reflexivity. }
      match goal with |- context [match ?ww with None => _ | Some _ => _ end] => destruct ww as [w|] end; [|intros [= <-]; apply D; reflexivity].
      destruct (_ || _ || _); [intros [= <-]; apply D; reflexivity|].
      intros H. apply IH in H as (new & E1 & E2 & E3). exists ((step, v, cs_grad cb tr (vadd x (vscale step d)) v g) :: new).
      rewrite E1, E2. split; [rewrite <- app_assoc; reflexivity|]. split; [|exact E3]. cbn [map fst ls_calls]. rewrite F, NV. cbn. rewrite <- app_assoc. reflexivity.
  Qed.
  Lemma search_trace v0 x g d term tr l : line_search armijo wolfe minStep maxStep maxTrials f cb v0 x g d term tr = Some l ->
    rev (ls_tr l) = rev tr ++ told (ls_calls f cb x d tr (steps (ls_trials l))) /\ (ls_ok l = false -> ls_x l = x).
  Proof.
    unfold line_search. destruct (_ || _).
    - intros [= <-]. cbn. rewrite app_nil_r. auto.
    - intros H. apply ls_trace in H as (new & E1 & E2 & E3). cbn in E1. rewrite E1. auto.
  Qed.

  Lemma lb_ok : forall fuel it s y v x g term tr, ok stepped settled x x (lc fuel it s y v x g term tr).
  Proof.
    induction fuel as [|fuel IH]; intros it s y v x g term tr; cbn [lb_calls]; destruct (negb _); try (cbn; auto; fail).
    destruct (nlt _ _); [cbn; auto|]. destruct (nisnan v); [cbn; auto|].
    destruct (choose_scaling _ _ _ _ _ _ _) as [gamma|]; [|exact I]. destruct (neq gamma n0); [cbn; auto|]. destruct (negb _); [cbn; auto|].
    destruct (search_direction _ _ _ _ _ _) as [d|]; [|exact I].
    destruct (line_search _ _ _ _ _ _ _ _ _ _ _ _ _) as [l|] eqn:LS; [|exact I].
    destruct (search_trace _ _ _ _ _ _ _ LS) as [_ NO].
    destruct (ls_quiet x d x (steps (ls_trials l)) tr) as (A & B & C).
    apply ok_app; [exact A|]. rewrite B, C.
    assert (ST : ok stepped settled x x ((if ls_ok l then [Put (ls_x l)] else []) ++ [Cb (End (ls_x l))])).
    { destruct (ls_ok l); cbn; [auto|]. rewrite NO by reflexivity. auto. }
    destruct (ls_ok l); cbn [negb]; [|exact ST]. destruct (neq _ _); [exact ST|]. destruct (nle _ _); [exact ST|].
    destruct (update_basis _ _ _ _ _ _ _ _) as [[s' y']|]; [|exact I]. cbn [ok stepped settled]. split; [reflexivity|apply IH].
  Qed.
  Lemma lb_same : forall fuel it s y v x g term tr r t,
    lb_loop numBasis maxIterations armijo minGradientNorm wolfe factr minStep maxStep maxTrials tol norm2 normF f cb fuel it s y v x g term tr = Ret (r, t) ->
    o_tr r = rev tr ++ told (lc fuel it s y v x g term tr) /\ o_x r = memory x (lc fuel it s y v x g term tr).
  Proof.
    induction fuel as [|fuel IH]; intros it s y v x g term tr r t; cbn [lb_loop lb_calls]; unfold lb_done; destruct (negb (_ && _)); try discriminate;
      try (intros [= <- _]; auto; fail).
    destruct (nlt _ _); [intros [= <- _]; auto|]. destruct (nisnan v); [intros [= <- _]; auto|].
    destruct (choose_scaling _ _ _ _ _ _ _) as [gamma|]; [|discriminate]. destruct (neq gamma n0); [intros [= <- _]; auto|]. destruct (negb _); [intros [= <- _]; auto|].
    destruct (search_direction _ _ _ _ _ _) as [d|]; [|discriminate].
    destruct (line_search _ _ _ _ _ _ _ _ _ _ _ _ _) as [l|] eqn:LS; [|discriminate].
    destruct (search_trace _ _ _ _ _ _ _ LS) as [TR NO].
    destruct (ls_quiet x d x (steps (ls_trials l)) tr) as (_ & B & _).
    rewrite told_app, memory_app, B.
    assert (ST : forall r0, r0 = {| o_val := ls_val l; o_x := ls_x l; o_tr := rev (End (ls_x l) :: ls_tr l) |} ->
       o_tr r0 = rev tr ++ told (ls_calls f cb x d tr (steps (ls_trials l))) ++ told ((if ls_ok l then [Put (ls_x l)] else []) ++ [Cb (End (ls_x l))]) /\
       o_x r0 = memory x ((if ls_ok l then [Put (ls_x l)] else []) ++ [Cb (End (N := N) (G := vec) (ls_x l))])).
    { intros r0 ->. cbn [o_tr o_x rev]. rewrite TR, <- app_assoc. destruct (ls_ok l); cbn; [auto|]. rewrite NO by reflexivity. auto. }
    destruct (ls_ok l); cbn [negb]; [|intros [= <- _]; apply ST; reflexivity].
    destruct (neq _ _); [intros [= <- _]; apply ST; reflexivity|]. destruct (nle _ _); [intros [= <- _]; apply ST; reflexivity|].
    destruct (update_basis _ _ _ _ _ _ _ _) as [[s' y']|]; [|discriminate]. intros H. apply IH in H as [E1 E2]. rewrite E1, E2. cbn. rewrite TR, <- !app_assoc. auto.
  Qed.
  Theorem lbfgs_throw fuel term0 s0 y0 x : at_every_call x (log fuel term0 s0 y0 x)
    (fun m h c => match c with Cb (End y) => m = y | _ => m = reached x h end).
  Proof.
    intros a c b E C. pose proof (ok_all stepped settled (log fuel term0 s0 y0 x) x x) as H.
    assert (O : ok stepped settled x x (log fuel term0 s0 y0 x)).
    { unfold lbfgs_log. destruct (f x) as [v g]. cbn [ok stepped settled]. split; [auto|]. split; [auto|]. split; [auto|]. apply lb_ok. }
    specialize (H O a c b E C). rewrite reached_fold in H. exact H.
  Qed.
  Theorem lbfgs_log_ok fuel term0 s0 y0 x r t :
    lbfgs numBasis maxIterations armijo minGradientNorm wolfe factr minStep maxStep maxTrials tol norm2 normF f cb fuel term0 s0 y0 x = Ret (r, t) ->
    told (log fuel term0 s0 y0 x) = o_tr r /\ memory x (log fuel term0 s0 y0 x) = o_x r.
  Proof. unfold lbfgs, lbfgs_log. destruct (f x) as [v g]. intros H. apply lb_same in H as [A B]. rewrite A, B. auto. Qed.
End LBFGS.

Section SA.
  Context {N : Num}.
  Notation vec := (list N).
  Variables (maxIterations initMoves moveCtrlSweep maxToleranceSweep : nat).
  Variables (tolerance maxMoveCoef initMoveCoef gain target : N).
  Variable next : N -> N -> N.
  Variables (lg ex : N -> N).
  Variable f : vec -> N.
  Variable rnd : nat -> N * N.
  Variable cb : CB N vec vec.
  Notation generate := (generate_move moveCtrlSweep maxMoveCoef gain target lg ex f rnd cb).
  Notation moves := (move_calls lg ex f rnd).
  Notation log := (sa_log maxIterations initMoves moveCtrlSweep maxToleranceSweep tolerance maxMoveCoef initMoveCoef gain target next lg ex f rnd cb).
  Definition same (m : vec) (s : unit) (c : act vec (ev N vec vec)) : Prop := m = shown c.
  Definition none (s : unit) (e : ev N vec vec) : unit := tt.
  Lemma none_fold h s : fold_left none h s = tt.
  Proof. destruct s. induction h; [reflexivity|exact IHh]. Qed.

  Lemma move_ok (s : sst) : ok none same (sa_x s) tt (moves s).
  Proof.
    unfold move_calls, same. destruct (nth_error (sa_x s) _) as [prev|]; [|exact I]. destruct (nth_error (sa_size s) _) as [size|]; [|exact I].
    destruct (nth_error (sa_acc s) _) as [a|]; [|exact I]. destruct (rnd (sa_j s)) as [u xi]. cbn [ok shown none]. split; [reflexivity|]. split; [reflexivity|].
    destruct (_ || _); exact I.
  Qed.
  Lemma move_same (s s1 : sst) t : generate s = Some (s1, t) -> sa_x s1 = memory (sa_x s) (moves s) /\ rev (sa_tr s1) = rev (sa_tr s) ++ told (moves s).
  Proof.
    unfold generate_move, move_calls. destruct (nth_error (sa_x s) _) as [prev|]; [|discriminate]. destruct (nth_error (sa_size s) _) as [size|]; [|discriminate].
    destruct (nth_error (sa_acc s) _) as [a|]; [|discriminate]. destruct (rnd (sa_j s)) as [u xi].
    intros [= <- _]. cbn [sa_x sa_tr]. destruct (_ || _); cbn; auto.
  Qed.
  Lemma init_ok : forall k s term, ok none same (sa_x s) tt (init_calls moveCtrlSweep maxMoveCoef gain target lg ex f rnd cb k s term).
  Proof.
    induction k as [|k IH]; intros s term; [exact I|]. cbn [init_calls]. apply ok_app; [apply move_ok|]. rewrite none_fold.
    destruct (generate s) as [[s1 t]|] eqn:G; [|exact I]. apply move_same in G as [E _]. destruct (_ || _); [exact I|]. rewrite <- E. apply IH.
  Qed.
  Lemma init_same : forall k s term s1 t, init_moves moveCtrlSweep maxMoveCoef gain target lg ex f rnd cb k s term = Some (s1, t) ->
    let l := init_calls moveCtrlSweep maxMoveCoef gain target lg ex f rnd cb k s term in
    sa_x s1 = memory (sa_x s) l /\ rev (sa_tr s1) = rev (sa_tr s) ++ told l.
  Proof.
    induction k as [|k IH]; intros s term s1 t; cbn [init_moves init_calls]; [intros [= <- _]; cbn; rewrite app_nil_r; auto|].
    destruct (generate s) as [[s2 t2]|] eqn:G; [|discriminate]. apply move_same in G as [E1 E2]. cbn zeta. rewrite told_app, memory_app, <- E1.
    destruct (_ || _); [intros [= <- _]; cbn; rewrite app_nil_r; auto|].
    intros H. apply IH in H as [A B]. cbn zeta in *. rewrite A, B, E2, <- app_assoc. auto.
  Qed.
  Notation cc := (cooling_calls moveCtrlSweep maxToleranceSweep tolerance maxMoveCoef gain target next lg ex f rnd cb).
  Lemma cool_ok : forall k s term fr, ok none same (sa_x s) tt (cc k s term fr).
  Proof.
    induction k as [|k IH]; intros s term fr; cbn [cooling_calls]; [cbn; unfold same; auto|]. destruct term; [cbn; unfold same; auto|].
    apply ok_app; [apply move_ok|]. rewrite none_fold.
    destruct (generate s) as [[s1 t]|] eqn:G; [|exact I]. apply move_same in G as [E _]. rewrite <- E. destruct t; [cbn; unfold same; auto|].
    cbn [ok none]. split; [reflexivity|]. destruct (_ <=? _); [cbn; unfold same; auto|].
    match goal with |- ok _ _ _ _ (cooling_calls _ _ _ _ _ _ _ _ _ _ _ _ _ ?s2 _ _) => exact (IH s2 _ _) end.
  Qed.
  Lemma cool_same : forall k s term fr r t, SA.cooling moveCtrlSweep maxToleranceSweep tolerance maxMoveCoef gain target next lg ex f rnd cb k s term fr = Some (r, t) ->
    o_tr r = rev (sa_tr s) ++ told (cc k s term fr) /\ o_x r = memory (sa_x s) (cc k s term fr).
  Proof.
    induction k as [|k IH]; intros s term fr r t; cbn [SA.cooling cooling_calls]; [intros [= <- _]; auto|]. destruct term; [intros [= <- _]; auto|].
    destruct (generate s) as [[s1 t1]|] eqn:G; [|discriminate]. apply move_same in G as [E1 E2]. rewrite told_app, memory_app, <- E1.
    destruct t1; [intros [= <- _]; cbn; rewrite E2, <- app_assoc; auto|].
    destruct (_ <=? _); [intros [= <- _]; cbn; rewrite E2, <- !app_assoc; auto|].
    intros H. apply IH in H as [A B]. cbn [sa_tr sa_x] in *. rewrite A, B. cbn. rewrite E2, <- !app_assoc. auto.
  Qed.
  Theorem sa_throw t0 x : at_every_call x (log t0 x) (fun m h c => m = shown c).
  Proof.
    intros a c b E C. pose proof (ok_all none same (log t0 x) x tt) as H.
    assert (O : ok none same x tt (log t0 x)).
    { unfold sa_log. cbn [ok none]. split; [reflexivity|]. split; [reflexivity|]. split; [reflexivity|].
      match goal with |- context [init_calls _ _ _ _ _ _ _ _ _ _ ?s0 ?t] => set (s := s0); set (tm := t) end.
      change x with (sa_x s). apply ok_app; [apply init_ok|]. rewrite none_fold.
      destruct (init_moves _ _ _ _ _ _ _ _ _ _ s tm) as [[s1 t1]|] eqn:I0; [|exact I]. apply init_same in I0 as [E1 _]. rewrite <- E1. apply cool_ok. }
    exact (H O a c b E C).
  Qed.
  Theorem sa_log_ok t0 x r t :
    sa_optimize maxIterations initMoves moveCtrlSweep maxToleranceSweep tolerance maxMoveCoef initMoveCoef gain target next lg ex f rnd cb t0 x = Ret (r, t) ->
    told (log t0 x) = o_tr r /\ memory x (log t0 x) = o_x r.
  Proof.
    unfold sa_optimize, sa_log.
    match goal with |- context [init_calls _ _ _ _ _ _ _ _ _ _ ?s0 ?t] => set (s := s0); set (tm := t) end.
    destruct (init_moves _ _ _ _ _ _ _ _ _ _ s tm) as [[s1 t1]|] eqn:I0; [|discriminate]. apply init_same in I0 as [E1 E2]. cbn zeta in *.
    destruct (SA.cooling _ _ _ _ _ _ _ _ _ _ _ _ _ _ _ _) as [[r1 t2]|] eqn:CO; [|discriminate]. intros [= <- <-]. apply cool_same in CO as [A B].
    rewrite A, B, E2, E1. change (told (Fn x :: Cb (Ev x (f x)) :: Cb (Begin x) :: ?z)) with (Ev (N := N) (G := vec) x (f x) :: Begin x :: told z).
    change (memory x (Fn x :: Cb (Ev x (f x)) :: Cb (Begin x) :: ?z)) with (memory x z).
    rewrite told_app, memory_app. cbn. auto.
  Qed.
End SA.
