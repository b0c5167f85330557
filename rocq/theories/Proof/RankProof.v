(** The population optimizers only compare objectives. *)
From Coq Require Import List Arith Bool Lia Permutation.
From Verif.Base Require Import Num Vec SortIdx.
From Verif.Model Require Import Common SA DE CNE PSO CMAES.
From Verif.Model Require GridSearch.
From Verif.Spec Require Import RankSpec.
Import ListNotations.

Section Common.
  Context {N : Num} {X : Type}.
  Variables (inf : N) (f f' : X -> N).
  Hypothesis A : ordered_alike inf f f'.
  Notation R := (corr inf f f').

  Lemma c_lt a a' b b' : R a a' -> R b b' -> nlt a b = nlt a' b'.
  Proof. intros H K. apply (A _ _ _ _ H K). Qed.
  Lemma c_eq a a' b b' : R a a' -> R b b' -> neq a b = neq a' b'.
  Proof. intros H K. apply (A _ _ _ _ H K). Qed.
  Lemma c_nan a a' : R a a' -> nisnan a = nisnan a'.
  Proof. intros H. apply (A _ _ _ _ H H). Qed.
  Lemma c_isinf a a' : R a a' -> nisinf a = nisinf a'.
  Proof. intros H. apply (A _ _ _ _ H H). Qed.

  Lemma c_if (b : bool) a a' c c' : R a a' -> R c c' -> R (if b then a else c) (if b then a' else c').
  Proof. destruct b; auto. Qed.

  Lemma f2_app {U V : Type} (Q : U -> V -> Prop) l l' m m' : Forall2 Q l l' -> Forall2 Q m m' -> Forall2 Q (l ++ m) (l' ++ m').
  Proof. apply Forall2_app. Qed.
  Lemma f2_set {U : Type} (Q : U -> U -> Prop) i a a' l l' : Q a a' -> Forall2 Q l l' -> Forall2 Q (set_nth i a l) (set_nth i a' l').
  Proof. intros H F. revert i. induction F as [|b b' l l' HB F IH]; intros [|i]; simpl; constructor; auto. Qed.
  Lemma f2_map l : Forall2 R (map f l) (map f' l).
  Proof. induction l; simpl; constructor; auto. constructor. Qed.
  Lemma f2_vmin l l' m m' : R m m' -> Forall2 R l l' ->
    R (fold_left (fun m v => if nlt v m then v else m) l m) (fold_left (fun m v => if nlt v m then v else m) l' m').
  Proof.
    intros M F. revert m m' M. induction F as [|a a' l l' H F IH]; intros m m' M; simpl; [exact M|].
    apply IH. rewrite (c_lt _ _ _ _ H M). destruct (nlt a' m'); auto.
  Qed.
  Lemma f2_nth l l' : Forall2 R l l' -> forall i, i < length l -> R (nth i l n0) (nth i l' n0).
  Proof. intros F. induction F; intros [|i] L; simpl in *; try lia; auto. apply IHF. lia. Qed.
  Lemma f2_len {U V : Type} (Q : U -> V -> Prop) l l' : Forall2 Q l l' -> length l = length l'.
  Proof. intros F. induction F; simpl; auto. Qed.
  Lemma f2_nan l l' : Forall2 R l l' -> existsb nisnan l = existsb nisnan l'.
  Proof. intros F. induction F; simpl; auto. rewrite (c_nan _ _ H), IHF. reflexivity. Qed.
  Lemma f2_sort srt l l' : only_compares srt -> Forall2 R l l' -> srt l = srt l'.
  Proof.
    intros S F. apply S; [eapply f2_len; eauto|]. intros i j Hi Hj. apply c_lt; apply f2_nth; auto.
  Qed.
End Common.

Lemma f2_rev {U V : Type} (Q : U -> V -> Prop) l l' : Forall2 Q l l' -> Forall2 Q (rev l) (rev l').
Proof. intros F. induction F; simpl; [constructor|]. apply Forall2_app; auto. Qed.

(** ** DE *)
Section DE.
  Context {N : Num}.
  Notation vec := (list N).
  Variables (populationSize maxGenerations : nat) (crossoverRate weight tolerance inf : N).
  Variables (f f' : vec -> N).
  Variable noise : nat -> vec.
  Variable draws : nat -> nat.
  Variable unif : nat -> vec.
  Variable cb : CB N vec vec.
  Variable fuel : nat.
  Hypothesis A : ordered_alike inf f f'.
  Hypothesis B : value_blind cb.
  Hypothesis T : forall d : N, nlt (nabs d) tolerance = false.
  Notation R := (corr inf f f').
  Notation same := (Forall2 (same_but_value (G := vec))).

  Definition dst_rel (s s' : dst (N := N)) : Prop :=
    d_pop s = d_pop s' /\ Forall2 R (d_fit s) (d_fit s') /\ R (d_last s) (d_last s') /\ d_best s = d_best s' /\
    d_pos s = d_pos s' /\ d_k s = d_k s' /\ same (d_tr s) (d_tr s').

  Lemma de_init_rel x : forall k s s' t, dst_rel s s' ->
    dst_rel (fst (de_init f noise cb x k s t)) (fst (de_init f' noise cb x k s' t)) /\
    snd (de_init f noise cb x k s t) = snd (de_init f' noise cb x k s' t).
  Proof.
    induction k as [|k IH]; intros s s' t H; cbn [de_init]; [split; [exact H|reflexivity]|].
    destruct H as (H1 & H2 & H3 & H4 & H5 & H6 & H7). rewrite <- H1, <- H5, <- H6, <- H4.
    set (y := vadd _ _).
    assert (S7 : same (Ev y (f y) :: d_tr s) (Ev y (f' y) :: d_tr s')) by (constructor; [constructor|exact H7]).
    rewrite <- (B _ _ S7).
    pose proof (corr_at inf f f' y) as CY. rewrite <- (c_lt _ _ _ A _ _ _ _ CY H3).
    apply IH. unfold dst_rel. cbn.
    split; [reflexivity|]. split; [apply Forall2_app; auto|]. split; [apply c_if; auto|]. split; [reflexivity|]. auto.
  Qed.

  Definition orel {U : Type} (Q : U -> U -> Prop) (o o' : outc U) : Prop :=
    match o, o' with Ret a, Ret a' => Q a a' | Bad, Bad => True | More, More => True | _, _ => False end.

  Lemma de_members_rel : forall k i s s' t, dst_rel s s' ->
    orel (fun p p' => dst_rel (fst p) (fst p') /\ snd p = snd p')
      (de_members populationSize crossoverRate weight f draws unif cb fuel k i s t)
      (de_members populationSize crossoverRate weight f' draws unif cb fuel k i s' t).
  Proof.
    induction k as [|k IH]; intros i s s' t H; cbn [de_members]; [split; [exact H|reflexivity]|].
    destruct H as (H1 & H2 & H3 & H4 & H5 & H6 & H7). rewrite <- H1, <- H5, <- H6, <- H4.
    destruct (nth_error (d_pop s) i) as [x|]; [|exact I].
    destruct (draw_until _ _ _ _) as [[l p1]|]; [|exact I].
    destruct (draw_until _ _ _ p1) as [[m p2]|]; [|exact I].
    destruct (d_best s) as [b|] eqn:EB; [|exact I].
    destruct (nth_error (d_pop s) l) as [xl|]; [|exact I].
    destruct (nth_error (d_pop s) m) as [xm|]; [|exact I].
    set (y := crossover _ _ _ _).
    assert (S1 : same (Ev x (f x) :: d_tr s) (Ev x (f' x) :: d_tr s')) by (constructor; [constructor|exact H7]).
    assert (S2 : same (Ev y (f y) :: Ev x (f x) :: d_tr s) (Ev y (f' y) :: Ev x (f' x) :: d_tr s')) by (constructor; [constructor|exact S1]).
    rewrite <- (B _ _ S1), <- (B _ _ S2).
    destruct (t || _ || _).
    - cbn. split; [|reflexivity]. unfold dst_rel; cbn. repeat (split; [assumption || reflexivity|]). exact S2.
    - pose proof (corr_at inf f f' y) as CY. pose proof (corr_at inf f f' x) as CX.
      rewrite <- (c_lt _ _ _ A _ _ _ _ CY CX). destruct (nlt (f y) (f x)).
      + assert (S3 : same (St y :: Ev y (f y) :: Ev x (f x) :: d_tr s) (St y :: Ev y (f' y) :: Ev x (f' x) :: d_tr s')) by (constructor; [constructor|exact S2]).
        rewrite <- (B _ _ S3). apply IH. unfold dst_rel; cbn.
        split; [reflexivity|]. split; [apply f2_set; auto|]. repeat (split; [assumption || reflexivity|]). exact S3.
      + apply IH. unfold dst_rel; cbn.
        split; [reflexivity|]. split; [apply f2_set; auto|]. repeat (split; [assumption || reflexivity|]). exact S2.
  Qed.

  Lemma first_eq_rel m m' : R m m' -> forall fit fit' pop old, Forall2 R fit fit' ->
    first_eq m fit pop old = first_eq m' fit' pop old.
  Proof.
    intros M fit fit' pop old F. revert pop. induction F as [|v v' l l' H F IH]; intros [|x pop]; simpl; auto.
    rewrite (c_eq _ _ _ A _ _ _ _ H M), IH. reflexivity.
  Qed.

  Lemma de_generations_rel : forall k s s' t, dst_rel s s' ->
    orel dst_rel (de_generations populationSize crossoverRate weight tolerance inf f draws unif cb fuel k s t)
                 (de_generations populationSize crossoverRate weight tolerance inf f' draws unif cb fuel k s' t).
  Proof.
    induction k as [|k IH]; intros s s' t H; cbn [de_generations]; [exact H|].
    destruct t; [exact H|].
    pose proof (de_members_rel populationSize 0 s s' false H) as M.
    destruct (de_members _ _ _ f _ _ _ _ _ _ _ _) as [[s1 t1]| |], (de_members _ _ _ f' _ _ _ _ _ _ _ _) as [[s1' t1']| |]; cbn in M; try contradiction; try exact I.
    destruct M as [M E]. cbn in E. subst t1'. rewrite !T.
    destruct M as (H1 & H2 & H3 & H4 & H5 & H6 & H7).
    assert (RM : R (vmin inf (d_fit s1)) (vmin inf (d_fit s1'))) by (apply f2_vmin; auto; constructor).
    apply IH. unfold dst_rel; cbn. rewrite <- H1, <- H4, (first_eq_rel _ _ RM _ _ _ _ H2). auto 10.
  Qed.

  Lemma de_rank x :
    same_call inf f f'
      (de_optimize populationSize maxGenerations crossoverRate weight tolerance inf f noise draws unif cb fuel x)
      (de_optimize populationSize maxGenerations crossoverRate weight tolerance inf f' noise draws unif cb fuel x).
  Proof.
    unfold de_optimize, same_call. destruct (populationSize <? 3); [exact I|].
    set (s0 := Build_dst _ _ _ _ _ _ _).
    assert (I0 : dst_rel s0 s0) by (unfold dst_rel; cbn; repeat split; constructor).
    destruct (de_init_rel x populationSize s0 s0 false I0) as [H E].
    destruct (de_init f _ _ _ _ _ _) as [s t], (de_init f' _ _ _ _ _ _) as [s' t']. cbn in H, E. subst t'.
    destruct H as (H1 & H2 & H3 & H4 & H5 & H6 & H7).
    match goal with |- same_outcome _ _ _ (match de_generations _ _ _ _ _ _ _ _ _ _ _ ?a _ with _ => _ end) (match de_generations _ _ _ _ _ _ _ _ _ _ _ ?b _ with _ => _ end) =>
      assert (D : dst_rel a b) by (unfold dst_rel; cbn; repeat (split; [assumption|]); constructor; [constructor|exact H7]);
      pose proof (de_generations_rel maxGenerations a b t D) as G end.
    destruct (de_generations _ _ _ _ _ f _ _ _ _ _ _ _) as [s2| |], (de_generations _ _ _ _ _ f' _ _ _ _ _ _ _) as [s2'| |]; cbn in G; try contradiction; try exact I.
    destruct G as (G1 & G2 & G3 & G4 & G5 & G6 & G7). cbn. unfold same_run; cbn. rewrite <- G4.
    split; [reflexivity|]. split; [|exact G3]. apply Forall2_app; [apply f2_rev; exact G7|]. repeat constructor.
  Qed.
End DE.

(** ** CNE *)
Section CNE.
  Context {N : Num}.
  Notation vec := (list N).
  Variables (P maxGenerations fl : nat) (mutationProb mutationSize tolerance inf : N).
  Variables (f f' : vec -> N).
  Variable sort_index : list N -> list nat.
  Variable noise : nat -> vec.
  Variable parents : nat -> nat -> nat * nat.
  Variable coin : nat -> nat -> nat -> bool.
  Variables (mu mz : nat -> nat -> vec).
  Variable cb : CB N vec vec.
  Hypothesis A : ordered_alike inf f f'.
  Hypothesis B : value_blind cb.
  Hypothesis T : forall d : N, nlt (nabs d) tolerance = false.
  Hypothesis S : only_compares sort_index.
  Notation same := (Forall2 (same_but_value (G := vec))).

  Lemma cne_evaluate_rel : forall pop tr tr' t, same tr tr' ->
    same (fst (CNE.evaluate f cb pop tr t)) (fst (CNE.evaluate f' cb pop tr' t)) /\
    snd (CNE.evaluate f cb pop tr t) = snd (CNE.evaluate f' cb pop tr' t).
  Proof.
    induction pop as [|y pop IH]; intros tr tr' t H; cbn [CNE.evaluate]; [auto|].
    assert (S1 : same (St y :: tr) (St y :: tr')) by (constructor; [constructor|exact H]).
    assert (S2 : same (Ev y (f y) :: St y :: tr) (Ev y (f' y) :: St y :: tr')) by (constructor; [constructor|exact S1]).
    rewrite <- (B _ _ S1), <- (B _ _ S2). apply IH. exact S2.
  Qed.

  Lemma cne_loop_rel e : forall k g pop idx last last' tr tr' t, same tr tr' ->
    orel (fun q q' => fst q = fst q' /\ same (snd q) (snd q'))
      (cne_loop P mutationProb mutationSize tolerance inf f sort_index parents coin mu mz cb e k g pop idx last tr t)
      (cne_loop P mutationProb mutationSize tolerance inf f' sort_index parents coin mu mz cb e k g pop idx last' tr' t).
  Proof.
    induction k as [|k IH]; intros g pop idx last last' tr tr' t H; cbn [cne_loop]; [cbn; auto|].
    destruct t; [cbn; auto|].
    destruct (cne_evaluate_rel pop tr tr' false H) as [E1 E2].
    destruct (CNE.evaluate f cb pop tr false) as [tr1 t1], (CNE.evaluate f' cb pop tr' false) as [tr1' t1']. cbn in E1, E2. subst t1'.
    pose proof (f2_map inf f f' pop) as F. rewrite <- (f2_nan _ _ _ A _ _ F).
    destruct (existsb nisnan (map f pop)); [exact I|].
    rewrite <- (f2_sort _ _ _ A _ _ _ S F), !T. apply IH. exact E1.
  Qed.

  Lemma cne_rank x :
    same_call inf f f'
      (cne_optimize P maxGenerations fl mutationProb mutationSize tolerance inf f sort_index noise parents coin mu mz cb x)
      (cne_optimize P maxGenerations fl mutationProb mutationSize tolerance inf f' sort_index noise parents coin mu mz cb x).
  Proof.
    unfold cne_optimize, same_call. destruct (cne_elite P fl) as [e|]; [|exact I].
    assert (S0 : same [Ev x (f x)] [Ev x (f' x)]) by (repeat constructor).
    assert (S1 : same (Begin x :: [Ev x (f x)]) (Begin x :: [Ev x (f' x)])) by (repeat constructor).
    rewrite <- (B _ _ S0).
    pose proof (cne_loop_rel e maxGenerations 1 (map (fun i => vadd (noise i) x) (seq 0 P)) None (f x) (f' x) _ _ (cs_stop cb [Ev x (f x)]) S1) as L.
    destruct (cne_loop _ _ _ _ _ f _ _ _ _ _ _ _ _ _ _ _ _ _ _) as [[[pop ix] tr]| |], (cne_loop _ _ _ _ _ f' _ _ _ _ _ _ _ _ _ _ _ _ _ _) as [[[pop' ix'] tr']| |];
      cbn in L; try contradiction; try exact I.
    destruct L as [L1 L2]. injection L1 as <- <-. destruct ix as [[|i0 ix]|]; try exact I.
    cbn. unfold same_run; cbn. split; [reflexivity|]. split; [|constructor].
    repeat apply Forall2_app; [apply f2_rev; exact L2| |]; repeat constructor.
  Qed.
End CNE.

(** ** PSO *)
Section PSO.
  Context {N : Num}.
  Notation vec := (list N).
  Variables (maxIterations horizonSize : nat) (impTolerance inf : N).
  Variables (f f' : vec -> N).
  Variable velocity : nat -> list vec -> list vec -> list vec -> list N -> list vec.
  Variable cb : CB N vec vec.
  Hypothesis A : ordered_alike inf f f'.
  Hypothesis B : value_blind cb.
  Hypothesis O : OrdLaws N.
  (* an improvement, or none, is not less than the tolerance *)
  Hypothesis T : forall a b : N, a = b \/ nlt b a = true -> nlt (nsub a b) impTolerance = false.
  Notation R := (corr inf f f').
  Notation same := (Forall2 (same_but_value (G := vec))).
  Hypothesis V : forall it pos vel pb fit fit', length pos <= length fit -> Forall2 R fit fit' -> velocity it pos vel pb fit = velocity it pos vel pb fit'.

  Lemma pso_first_rel : forall pos tr tr' t, same tr tr' ->
    let '(fit, h, b) := pso_first f cb pos tr t in let '(fit', h', b') := pso_first f' cb pos tr' t in
    Forall2 R fit fit' /\ same h h' /\ b = b'.
  Proof.
    induction pos as [|y pos IH]; intros tr tr' t H; cbn [pso_first]; [auto|].
    destruct t.
    - split; [|auto]. constructor; [constructor|]. clear. induction pos; simpl; constructor; auto; constructor.
    - assert (S1 : same (Ev y (f y) :: tr) (Ev y (f' y) :: tr')) by (constructor; [constructor|exact H]).
      rewrite <- (B _ _ S1). specialize (IH _ _ (cs_stop cb (Ev y (f y) :: tr)) S1).
      destruct (pso_first f cb pos _ _) as [[fit h] b], (pso_first f' cb pos _ _) as [[fit' h'] b'].
      destruct IH as (I1 & I2 & I3). split; [constructor; [constructor|exact I1]|auto].
  Qed.

  Lemma pso_eval_rel brk : forall pos pb fit fit' tr tr' t, Forall2 R fit fit' -> same tr tr' ->
    let '(p, v, h, b) := pso_eval f cb brk pos pb fit tr t in let '(p', v', h', b') := pso_eval f' cb brk pos pb fit' tr' t in
    p = p' /\ Forall2 R v v' /\ same h h' /\ b = b'.
  Proof.
    induction pos as [|y pos IH]; intros pb fit fit' tr tr' t F H; cbn [pso_eval]; [auto|].
    destruct pb as [|b pb]; [auto|]. destruct F as [|v v' fit fit' HV F]; [auto|].
    destruct t; [auto|].
    assert (S1 : same (Ev y (f y) :: tr) (Ev y (f' y) :: tr')) by (constructor; [constructor|exact H]).
    rewrite <- (B _ _ S1). destruct (brk && _); [auto|].
    specialize (IH pb _ _ _ _ (cs_stop cb (Ev y (f y) :: tr)) F S1).
    destruct (pso_eval f cb brk pos _ _ _ _) as [[[p2 v2] h2] b2], (pso_eval f' cb brk pos _ _ _ _) as [[[p2' v2'] h2'] b2'].
    destruct IH as (<- & I2 & I3 & I4).
    pose proof (corr_at inf f f' y) as CY. rewrite <- (c_lt _ _ _ A _ _ _ _ CY HV). destruct (nlt (f y) v); auto.
  Qed.

  Lemma pso_best_rel : forall fit fit' j bp bf bf', Forall2 R fit fit' -> R bf bf' ->
    fst (pso_best j fit bp bf) = fst (pso_best j fit' bp bf') /\ R (snd (pso_best j fit bp bf)) (snd (pso_best j fit' bp bf')).
  Proof.
    intros fit fit' j bp bf bf' F. revert j bp bf bf'. induction F as [|v v' l l' H F IH]; intros j bp bf bf' HB; cbn [pso_best]; [auto|].
    rewrite <- (c_lt _ _ _ A _ _ _ _ H HB). destruct (nlt v bf); apply IH; auto.
  Qed.
  Lemma pso_best_le : forall (fit : list N) j bp bf, bf = snd (pso_best j fit bp bf) \/ nlt (snd (pso_best j fit bp bf)) bf = true.
  Proof.
    induction fit as [|v l IH]; intros j bp bf; cbn [pso_best]; [auto|].
    destruct (nlt v bf) eqn:E; [|apply IH]. right. destruct (IH (S j) j v) as [<-|H]; [exact E|]. eapply (ol_trans _ O); eauto.
  Qed.

  Definition pst_rel (s s' : pst (N := N)) : Prop :=
    p_pos s = p_pos s' /\ p_vel s = p_vel s' /\ p_pb s = p_pb s' /\ Forall2 R (p_fit s) (p_fit s') /\
    p_bp s = p_bp s' /\ R (p_bf s) (p_bf s') /\ same (p_tr s) (p_tr s') /\ length (p_pos s) <= length (p_fit s).

  Definition optrel {U : Type} (Q : U -> U -> Prop) (o o' : option U) : Prop :=
    match o, o' with Some a, Some a' => Q a a' | None, None => True | _, _ => False end.

  Lemma pso_first_len : forall pos tr t, length (fst (fst (pso_first f cb pos tr t))) = length pos.
  Proof.
    induction pos as [|y pos IH]; intros tr t; cbn [pso_first]; [reflexivity|]. destruct t; [cbn; rewrite map_length; reflexivity|].
    specialize (IH (Ev y (f y) :: tr) (cs_stop cb (Ev y (f y) :: tr))). destruct (pso_first f cb pos _ _) as [[fit h] b].
    cbn in *. rewrite IH. reflexivity.
  Qed.
  Lemma pso_eval_len brk : forall pos pb fit tr t, length (snd (fst (fst (pso_eval f cb brk pos pb fit tr t)))) = length fit.
  Proof.
    induction pos as [|y pos IH]; intros pb fit tr t; cbn [pso_eval]; [reflexivity|].
    destruct pb as [|b pb]; [reflexivity|]. destruct fit as [|v fit]; [reflexivity|]. destruct t; [reflexivity|].
    destruct (brk && _); [reflexivity|].
    specialize (IH pb fit (Ev y (f y) :: tr) (cs_stop cb (Ev y (f y) :: tr))). destruct (pso_eval f cb brk pos _ _ _ _) as [[[p2 v2] h2] b2].
    cbn in IH. destruct (nlt _ _); cbn; rewrite IH; reflexivity.
  Qed.
  Lemma map2_le {U W Z : Type} (g : U -> W -> Z) : forall l m, length (map2 g l m) <= length l.
  Proof. induction l as [|a l IH]; intros [|b m]; simpl; try lia. specialize (IH m). lia. Qed.

  Lemma pso_iter_rel brk it s s' : pst_rel s s' ->
    optrel (fun p p' => pst_rel (fst p) (fst p') /\ snd p = snd p') (pso_iter f velocity cb brk it s) (pso_iter f' velocity cb brk it s').
  Proof.
    intros (H1 & H2 & H3 & H4 & H5 & H6 & H7 & H8). unfold pso_iter. rewrite <- H1, <- H2, <- H3, <- H5.
    pose proof (pso_eval_rel brk (p_pos s) (p_pb s) _ _ _ _ false H4 H7) as E.
    pose proof (pso_eval_len brk (p_pos s) (p_pb s) (p_fit s) (p_tr s) false) as LE.
    destruct (pso_eval f _ _ _ _ _ _ _) as [[[pb fit] tr] t], (pso_eval f' _ _ _ _ _ _ _) as [[[pb' fit'] tr'] t'].
    destruct E as (<- & E2 & E3 & <-). cbn in LE. rewrite <- LE in H8. rewrite <- (V it (p_pos s) (p_vel s) pb _ _ H8 E2).
    destruct (pso_best_rel _ _ 0 (p_bp s) _ _ E2 H6) as [B1 B2].
    destruct (pso_best 0 fit _ _) as [bp bf], (pso_best 0 fit' _ _) as [bp' bf']. cbn in B1, B2. subst bp'.
    destruct (nth_error pb bp) as [b|]; [|exact I].
    assert (S1 : same (St b :: tr) (St b :: tr')) by (constructor; [constructor|exact E3]).
    rewrite <- (B _ _ S1). cbn. split; [|reflexivity]. unfold pst_rel; cbn.
    do 3 (split; [reflexivity|]). split; [exact E2|]. split; [reflexivity|]. split; [exact B2|]. split; [exact S1|].
    eapply Nat.le_trans; [apply map2_le|exact H8].
  Qed.
  Lemma pso_iter_le (g : vec -> N) brk it s s1 t : pso_iter g velocity cb brk it s = Some (s1, t) ->
    p_bf s = p_bf s1 \/ nlt (p_bf s1) (p_bf s) = true.
  Proof.
    unfold pso_iter. destruct (pso_eval g _ _ _ _ _ _ _) as [[[pb fit] tr] u].
    pose proof (pso_best_le fit 0 (p_bp s) (p_bf s)) as L. destruct (pso_best 0 fit _ _) as [bp bf]. cbn in L.
    destruct (nth_error pb bp); [|discriminate]. intros E. injection E as <- _. exact L.
  Qed.

  (* every value in the queue is at least the one pushed last, which is the current best *)
  Definition queue_ok (q : list N) (bf : N) : Prop := forall a, In a q -> a = bf \/ nlt bf a = true.
  Lemma queue_nil bf : queue_ok [] bf.
  Proof. intros a []. Qed.
  Lemma queue_step q bf bf1 : queue_ok q bf -> bf = bf1 \/ nlt bf1 bf = true -> queue_ok (q ++ [bf1]) bf1.
  Proof.
    intros Q L a I. apply in_app_iff in I as [I|[<-|[]]]; [|auto].
    destruct (Q _ I) as [->|H]; [exact L|]. destruct L as [<-|L]; [auto|]. right. eapply (ol_trans _ O); eauto.
  Qed.
  Lemma queue_tl q bf : queue_ok q bf -> queue_ok (tl q) bf.
  Proof. intros Q a I. apply Q. destruct q; [exact I|right; exact I]. Qed.

  Lemma pso_horizon_rel : forall k it s s' t q q', pst_rel s s' -> length q = length q' ->
    (forall g : vec -> N, True) ->
    optrel (fun p p' => pst_rel (fst (fst (fst p))) (fst (fst (fst p'))) /\ snd (fst (fst p)) = snd (fst (fst p')) /\
                        snd (fst p) = snd (fst p') /\ length (snd p) = length (snd p'))
      (pso_horizon f velocity cb k it s t q) (pso_horizon f' velocity cb k it s' t q').
  Proof.
    induction k as [|k IH]; intros it s s' t q q' H L _; cbn [pso_horizon]; [cbn; auto|].
    destruct t; [cbn; auto|]. pose proof (pso_iter_rel true it s s' H) as E.
    destruct (pso_iter f _ _ _ _ _) as [[s1 t1]|], (pso_iter f' _ _ _ _ _) as [[s1' t1']|]; cbn in E; try contradiction; [|exact I].
    destruct E as [E <-]. apply IH; auto. rewrite !app_length, L. reflexivity.
  Qed.
  Lemma pso_horizon_queue (g : vec -> N) : forall k it s t q s1 t1 it1 q1, queue_ok q (p_bf s) ->
    (q = [] \/ exists u, q = u ++ [p_bf s]) ->
    pso_horizon g velocity cb k it s t q = Some (s1, t1, it1, q1) ->
    queue_ok q1 (p_bf s1) /\ (q1 = [] \/ exists u, q1 = u ++ [p_bf s1]).
  Proof.
    induction k as [|k IH]; intros it s t q s1 t1 it1 q1 Q U; cbn [pso_horizon].
    - intros E. injection E as <- _ _ <-. auto.
    - destruct t; [intros E; injection E as <- _ _ <-; auto|].
      destruct (pso_iter g _ _ _ _ _) as [[s2 t2]|] eqn:E; [|discriminate]. apply IH.
      + eapply queue_step; [exact Q|]. eapply pso_iter_le; eauto.
      + right. exists q. reflexivity.
  Qed.

  Lemma last_app (u : list N) a d : last (u ++ [a]) d = a.
  Proof. apply last_last. Qed.

  Lemma queue_front_last q bf : queue_ok q bf -> (q = [] \/ exists u, q = u ++ [bf]) ->
    match q with [] => True | front :: _ => nlt (nsub front (last q front)) impTolerance = false end.
  Proof.
    intros Q [->|[u E]]; [exact I|]. destruct q as [|a q]; [exact I|]. rewrite E at 1. rewrite last_app. apply T. apply Q. left. reflexivity.
  Qed.

  Lemma pso_rest_rel : forall k it s s' t q q', pst_rel s s' -> length q = length q' ->
    queue_ok q (p_bf s) -> (q = [] \/ exists u, q = u ++ [p_bf s]) ->
    queue_ok q' (p_bf s') -> (q' = [] \/ exists u, q' = u ++ [p_bf s']) ->
    optrel pst_rel (pso_rest impTolerance f velocity cb k it s t q) (pso_rest impTolerance f' velocity cb k it s' t q').
  Proof.
    induction k as [|k IH]; intros it s s' t q q' H L Q U Q' U'; cbn [pso_rest]; [cbn; auto|].
    destruct t; [exact H|].
    pose proof (queue_front_last _ _ Q U) as G. pose proof (queue_front_last _ _ Q' U') as G'.
    destruct q as [|a q], q' as [|a' q']; try discriminate L; [exact I|].
    rewrite G, G'. pose proof (pso_iter_rel false it s s' H) as E.
    destruct (pso_iter f _ _ _ _ _) as [[s1 t1]|] eqn:E1, (pso_iter f' _ _ _ _ _) as [[s1' t1']|] eqn:E1'; cbn in E; try contradiction; [|exact I].
    destruct E as [E <-]. apply IH; auto.
    - cbn [tl]. rewrite !app_length. simpl in *. lia.
    - eapply queue_step; [apply queue_tl; exact Q|]. eapply pso_iter_le; eauto.
    - right. eexists. reflexivity.
    - eapply queue_step; [apply queue_tl; exact Q'|]. eapply pso_iter_le; eauto.
    - right. eexists. reflexivity.
  Qed.

  Lemma pso_rank pos0 vel0 x :
    same_call inf f f'
      (pso_optimize maxIterations horizonSize impTolerance f velocity cb pos0 vel0 x)
      (pso_optimize maxIterations horizonSize impTolerance f' velocity cb pos0 vel0 x).
  Proof.
    unfold pso_optimize, same_call. destruct (maxIterations <? horizonSize); [exact I|].
    assert (S0 : same [@Begin N vec vec x] [Begin x]) by (repeat constructor).
    pose proof (pso_first_rel pos0 _ _ false S0) as F. pose proof (pso_first_len pos0 [Begin x] false) as LF.
    destruct (pso_first f _ _ _ _) as [[fit tr] t], (pso_first f' _ _ _ _) as [[fit' tr'] t']. destruct F as (F1 & F2 & <-).
    set (s := Build_pst _ _ _ fit _ _ _). set (s' := Build_pst _ _ _ fit' _ _ _).
    assert (H : pst_rel s s') by (unfold pst_rel; cbn; repeat (split; [reflexivity || assumption|]); split; [constructor|split; [exact F2|cbn in LF; lia]]).
    pose proof (pso_horizon_rel horizonSize 0 s s' t [] [] H eq_refl (fun _ => I)) as E.
    destruct (pso_horizon f _ _ _ _ _ _ _) as [[[[s1 t1] it] q]|] eqn:E1, (pso_horizon f' _ _ _ _ _ _ _) as [[[[s1' t1'] it'] q']|] eqn:E1'; cbn in E; try contradiction; [|exact I].
    destruct E as (E & <- & <- & L).
    destruct (pso_horizon_queue f _ _ _ _ _ _ _ _ _ (queue_nil _) (or_introl eq_refl) E1) as [Q U].
    destruct (pso_horizon_queue f' _ _ _ _ _ _ _ _ _ (queue_nil _) (or_introl eq_refl) E1') as [Q' U'].
    pose proof (pso_rest_rel (maxIterations - horizonSize) it s1 s1' t1 q q' E L Q U Q' U') as P.
    destruct (pso_rest _ f _ _ _ _ _ _ _) as [s2|], (pso_rest _ f' _ _ _ _ _ _ _) as [s2'|]; cbn in P; try contradiction; [|exact I].
    destruct P as (P1 & P2 & P3 & P4 & P5 & P6 & P7 & _). rewrite <- P3, <- P5.
    destruct (nth_error _ _) as [b|]; [|exact I]. cbn. unfold same_run; cbn. split; [reflexivity|]. split; [|exact P6].
    apply Forall2_app; [apply f2_rev; exact P7|repeat constructor].
  Qed.
End PSO.

(** ** the velocity of LBestUpdate *)
Lemma lbest_rank {N : Num} (inf : N) (f f' : list N -> N) chi c1 c2 r1 r2 pos vel pb fit fit' :
  ordered_alike inf f f' -> Forall2 (corr inf f f') fit fit' ->
  length pos <= length fit -> lbest_velocity chi c1 c2 r1 r2 pos vel pb fit = lbest_velocity chi c1 c2 r1 r2 pos vel pb fit'.
Proof.
  intros A F L. unfold lbest_velocity. apply map_ext_in. intros i Hi. apply in_seq in Hi.
  replace (local_best fit' i) with (local_best fit i); [reflexivity|]. unfold local_best. rewrite (f2_len _ _ _ F).
  assert (NZ : length fit' <> 0) by (rewrite <- (f2_len _ _ _ F); lia).
  rewrite (c_lt _ _ _ A _ (nth ((i + 1) mod length fit') fit' n0) _ (nth i fit' n0)); [reflexivity| |].
  - apply f2_nth; auto. rewrite (f2_len _ _ _ F). apply Nat.mod_upper_bound. exact NZ.
  - apply f2_nth; auto. lia.
Qed.

(** ** CMA-ES with FullSelection *)
Section CMAES.
  Context {N : Num}.
  Notation vec := (list N).
  Variables (maxIterations lambda patience : nat) (tolerance big inf : N).
  Variables (feval feval' : vec -> nat -> nat -> N).
  Variable cs : list (nat * nat).
  Variable transform : vec -> vec.
  Variable w : list N.
  Variable St0 : Type.
  Variable sample : nat -> St0 -> option (list vec).
  Variable adapt : nat -> St0 -> N -> list vec -> list nat -> vec -> St0 * N.
  Variable sort_index : list N -> list nat.
  Variable cb : CB N vec vec.
  Notation F := (total_over feval cs).
  Notation F' := (total_over feval' cs).
  Hypothesis A : ordered_alike inf F F'.
  Hypothesis B : value_blind cb.
  Hypothesis T : forall d : N, nlt (nabs d) tolerance = false.
  Hypothesis C : only_compares sort_index.
  Hypothesis PM : forall l : list N, no_nan l -> sorted_index l (sort_index l).
  Hypothesis SL : forall i a d, sample i a = Some d -> length d = lambda.
  Notation R := (corr inf F F').
  Notation same := (Forall2 (same_but_value (G := vec))).

  Lemma cma_eval_rel run x : forall l acc acc' tr tr' t, same tr tr' ->
    let '(v, h, b) := CMAES.evaluate feval cb run x l acc tr t in
    let '(v', h', b') := CMAES.evaluate feval' cb run x l acc' tr' t in
    v = fold_left (fun s c => nadd s (feval x (fst c) (snd c))) l acc /\
    v' = fold_left (fun s c => nadd s (feval' x (fst c) (snd c))) l acc' /\ same h h' /\ b = b'.
  Proof.
    induction l as [|[i b] l IH]; intros acc acc' tr tr' t H; cbn [CMAES.evaluate]; [auto|].
    match goal with |- context [cs_stop cb (Ev x ?u :: tr)] => match goal with |- context [cs_stop cb (Ev x ?u' :: tr')] =>
      assert (S1 : same (Ev x u :: tr) (Ev x u' :: tr')) by (constructor; [constructor|exact H]) end end.
    rewrite <- (B _ _ S1). exact (IH _ _ _ _ _ S1).
  Qed.
  Lemma cma_eval_total run x tr tr' t : same tr tr' ->
    let '(v, h, b) := CMAES.evaluate feval cb run x cs n0 tr t in
    let '(v', h', b') := CMAES.evaluate feval' cb run x cs n0 tr' t in
    R v v' /\ same h h' /\ b = b'.
  Proof.
    intros H. pose proof (cma_eval_rel run x cs n0 n0 tr tr' t H) as E.
    destruct (CMAES.evaluate feval _ _ _ _ _ _ _) as [[v h] b], (CMAES.evaluate feval' _ _ _ _ _ _ _) as [[v' h'] b'].
    destruct E as (-> & -> & E). split; [|exact E]. exact (corr_at inf F F' x).
  Qed.

  Definition filled (idx : list nat) (o o' : list N) : Prop :=
    length o = lambda /\ length o' = lambda /\ forall k, k < lambda -> In k idx \/ R (nth k o n0) (nth k o' n0).

  Lemma set_nth_len {U : Type} (a : U) : forall k l, length (set_nth k a l) = length l.
  Proof. intros k l. revert k. induction l; intros [|k]; simpl; auto. Qed.
  Lemma set_nth_hit {U : Type} (a d : U) : forall k l, k < length l -> nth k (set_nth k a l) d = a.
  Proof. intros k l. revert k. induction l; intros [|k] L; simpl in *; try lia; auto. apply IHl. lia. Qed.
  Lemma set_nth_miss {U : Type} (a d : U) : forall k j l, k <> j -> nth j (set_nth k a l) d = nth j l d.
  Proof. intros k j l. revert k j. induction l; intros [|k] [|j] L; simpl; auto; try lia. Qed.

  Lemma cma_population_rel i m sigma : forall draws idx j steps o o' tr tr' t,
    length idx <= length draws -> filled idx o o' -> same tr tr' ->
    let '(s1, o1, h, b) := population feval (fun _ _ => cs) transform cb i j m sigma draws idx steps o tr t in
    let '(s1', o1', h', b') := population feval' (fun _ _ => cs) transform cb i j m sigma draws idx steps o' tr' t in
    s1 = s1' /\ filled [] o1 o1' /\ same h h' /\ b = b'.
  Proof.
    induction draws as [|d draws IH]; intros idx j steps o o' tr tr' t L Fl H.
    - destruct idx; simpl in L; [|lia]. cbn [population]. auto.
    - destruct idx as [|k idx]; cbn [population]; [auto|].
      pose proof (cma_eval_total true (transform (vadd m (vscale sigma d))) tr tr' t H) as E.
      destruct (CMAES.evaluate feval _ _ _ _ _ _ _) as [[v h] b], (CMAES.evaluate feval' _ _ _ _ _ _ _) as [[v' h'] b'].
      destruct E as (E1 & E2 & <-). apply IH; [simpl in L; lia| |exact E2].
      destruct Fl as (L1 & L2 & Fl). split; [rewrite set_nth_len; exact L1|]. split; [rewrite set_nth_len; exact L2|].
      intros q Hq. destruct (Nat.eq_dec k q) as [->|NE].
      + right. rewrite !set_nth_hit by lia. exact E1.
      + rewrite !set_nth_miss by exact NE. destruct (Fl q Hq) as [[->|I]|I]; [lia|auto|auto].
  Qed.

  Lemma filled_f2 o o' : filled [] o o' -> Forall2 R o o'.
  Proof.
    intros (L1 & L2 & Fl). revert o o' L1 L2 Fl. generalize lambda. intros n o. revert n.
    induction o as [|a o IH]; intros n [|a' o'] L1 L2 Fl; simpl in *; try lia; constructor.
    - destruct (Fl 0) as [[]|H]; [lia|exact H].
    - apply (IH (pred n)); try lia. intros k Hk. destruct (Fl (S k)) as [[]|H]; [lia|right; exact H].
  Qed.
  Lemma filled_any idx o o' : length o = lambda -> length o' = lambda -> Permutation idx (seq 0 lambda) -> filled idx o o'.
  Proof.
    intros L1 L2 P. split; [exact L1|]. split; [exact L2|]. intros k Hk. left.
    eapply Permutation_in; [symmetry; exact P|]. apply in_seq. lia.
  Qed.

  Definition cst_rel (s s' : cst (N := N) St0) : Prop :=
    c_mean _ s = c_mean _ s' /\ c_it _ s = c_it _ s' /\ R (c_best _ s) (c_best _ s') /\ c_count _ s = c_count _ s' /\
    c_idx _ s = c_idx _ s' /\ c_steps _ s = c_steps _ s' /\ c_sigma _ s = c_sigma _ s' /\ c_a _ s = c_a _ s' /\ same (c_tr _ s) (c_tr _ s') /\
    length (c_objs _ s) = lambda /\ length (c_objs _ s') = lambda /\ Permutation (c_idx _ s) (seq 0 lambda).

  Lemma cma_finish_rel b v v' tr tr' : R v v' -> same tr tr' ->
    same_run inf F F' (finish transform b v tr) (finish transform b v' tr').
  Proof.
    intros V H. unfold same_run, finish; cbn. split; [reflexivity|]. split; [|exact V].
    apply Forall2_app; [apply f2_rev; exact H|repeat constructor].
  Qed.

  Lemma cma_loop_rel : forall k i s s' t, cst_rel s s' ->
    same_outcome inf F F'
      (cma_loop lambda patience tolerance big feval (fun _ _ => cs) transform w St0 sample adapt sort_index cb k i s t)
      (cma_loop lambda patience tolerance big feval' (fun _ _ => cs) transform w St0 sample adapt sort_index cb k i s' t).
  Proof.
    induction k as [|k IH]; intros i s s' t (H1 & H2 & H3 & H4 & H5 & H6 & H7 & H8 & H9 & H10 & H11 & H12); cbn [cma_loop].
    - cbn. rewrite <- H2. apply cma_finish_rel; assumption.
    - destruct t; [cbn; rewrite <- H2; apply cma_finish_rel; assumption|].
      rewrite <- H8, <- H1, <- H7, <- H5, <- H6, <- H2, <- H4.
      destruct (sample i (c_a _ s)) as [draws|] eqn:ES; [|exact I].
      assert (LD : length (c_idx _ s) <= length draws).
      { rewrite (SL _ _ _ ES), (Permutation_length H12), seq_length. lia. }
      pose proof (cma_population_rel i (c_mean _ s) (c_sigma _ s) draws (c_idx _ s) 0 (c_steps _ s) _ _ _ _ false LD (filled_any _ _ _ H10 H11 H12) H9) as E.
      destruct (population feval _ _ _ _ _ _ _ _ _ _ _ _ _) as [[[st o] h] b], (population feval' _ _ _ _ _ _ _ _ _ _ _ _ _) as [[[st' o'] h'] b'].
      destruct E as (<- & E2 & E3 & <-). pose proof (filled_f2 _ _ E2) as E4.
      rewrite <- (f2_nan _ _ _ A _ _ E4). destruct (existsb nisnan o) eqn:EN; [exact I|].
      rewrite <- (f2_sort _ _ _ A _ _ _ C E4). destruct (recombine w st (sort_index o)) as [step|]; [|exact I].
      pose proof (cma_eval_total true (transform (vadd (c_mean _ s) (vscale (c_sigma _ s) step))) h h' b E3) as V.
      destruct (CMAES.evaluate feval _ _ _ _ _ _ _) as [[v h2] t2], (CMAES.evaluate feval' _ _ _ _ _ _ _) as [[v' h2'] t2'].
      destruct V as (V1 & V2 & <-). rewrite <- (c_lt _ _ _ A _ _ _ _ V1 H3).
      destruct (adapt i (c_a _ s) (c_sigma _ s) st (sort_index o) step) as [a1 sg].
      set (bt := nlt v (c_best _ s)).
      assert (RB : R (if bt then v else c_best _ s) (if bt then v' else c_best _ s')) by (apply c_if; assumption).
      set (x1 := if bt then vadd _ _ else _).
      assert (S3 : same (if bt then St (transform x1) :: h2 else h2) (if bt then St (transform x1) :: h2' else h2'))
        by (destruct bt; [constructor; [constructor|exact V2]|exact V2]).
      rewrite <- (B _ _ S3), <- (c_nan _ _ _ A _ _ RB), <- (c_isinf _ _ _ A _ _ RB), !T.
      destruct (nisnan sg || _); [apply cma_finish_rel; assumption|].
      destruct (nisnan _ || _); [apply cma_finish_rel; assumption|]. cbn [andb].
      apply IH. unfold cst_rel; cbn. destruct E2 as (L1 & L2 & _).
      split; [reflexivity|]. split; [reflexivity|]. split; [exact RB|]. do 5 (split; [reflexivity|]). split; [exact S3|].
      split; [exact L1|]. split; [exact L2|]. rewrite <- L1. apply PM.
      intros u Hu. destruct (nisnan u) eqn:EU; [|reflexivity]. rewrite <- EN. symmetry. apply existsb_exists. eauto.
  Qed.

  Lemma cma_rank a0 sigma0 x :
    same_outcome inf F F'
      (cma_optimize maxIterations lambda patience tolerance big feval cs (fun _ _ => cs) transform w St0 sample adapt sort_index cb a0 sigma0 x)
      (cma_optimize maxIterations lambda patience tolerance big feval' cs (fun _ _ => cs) transform w St0 sample adapt sort_index cb a0 sigma0 x).
  Proof.
    unfold cma_optimize. pose proof (cma_eval_total false (transform x) [] [] false (Forall2_nil _)) as E.
    destruct (CMAES.evaluate feval _ _ _ _ _ _ _) as [[v h] b], (CMAES.evaluate feval' _ _ _ _ _ _ _) as [[v' h'] b'].
    destruct E as (E1 & E2 & <-). apply cma_loop_rel. unfold cst_rel; cbn. rewrite !repeat_length.
    do 2 (split; [reflexivity|]). split; [exact E1|]. do 5 (split; [reflexivity|]).
    split; [constructor; [constructor|exact E2]|]. auto.
  Qed.
End CMAES.

(** ** grid search *)
Section Grid.
  Context {N : Num}.
  Variable inf : N.
  Variables (f f' : list nat -> N).
  Hypothesis A : ordered_alike inf f f'.
  Import GridSearch.

  Definition gst_rel (s s' : gst (N := N)) : Prop :=
    corr inf f f' (g_best s) (g_best s') /\ g_params s = g_params s' /\ g_cur s = g_cur s' /\ g_log s = g_log s'.

  Lemma gs_eval_rel s s' : gst_rel s s' -> gst_rel (gs_eval f s) (gs_eval f' s').
  Proof.
    intros (H1 & H2 & H3 & H4). unfold gs_eval. rewrite <- H3, <- H2, <- H4.
    pose proof (corr_at inf f f' (g_cur s)) as CY. rewrite <- (c_lt _ _ _ A _ _ _ _ CY H1).
    destruct (nlt _ _); unfold gst_rel; cbn; auto.
  Qed.
  Lemma gs_rec_rel : forall cats i s s', gst_rel s s' -> gst_rel (gs_rec f cats i s) (gs_rec f' cats i s').
  Proof.
    induction cats as [|c cats IH]; intros i s s' H; cbn [gs_rec]; [apply gs_eval_rel; exact H|].
    generalize (seq 0 c). intros l. revert s s' H. induction l as [|j l IHl]; intros s s' H; simpl; [exact H|].
    apply IHl. apply IH. destruct H as (H1 & H2 & H3 & H4). unfold gst_rel; cbn. rewrite <- H3. auto.
  Qed.
  Lemma grid_rank categorical cats junk :
    match grid_search f categorical cats junk, grid_search f' categorical cats junk with
    | Some s, Some s' => corr inf f f' (g_best s) (g_best s') /\ g_params s = g_params s' /\ g_log s = g_log s'
    | None, None => True
    | _, _ => False
    end.
  Proof.
    unfold grid_search. destruct (forallb _ _); [|exact I].
    match goal with |- context [gs_rec f cats 0 ?a] => assert (H : gst_rel a a) by (unfold gst_rel; cbn; repeat split; constructor);
      destruct (gs_rec_rel cats 0 a a H) as (H1 & H2 & H3 & H4) end. auto.
  Qed.
End Grid.

(** ** insertion sort only compares *)
Lemma isort_only_compares {N : Num} : only_compares (isort_index (N := N)).
Proof.
  intros l l' L H. unfold isort_index. rewrite <- L.
  assert (K : forall k, incl k (seq 0 (length l)) ->
    fold_right (insert_idx l) [] k = fold_right (insert_idx l') [] k /\ incl (fold_right (insert_idx l) [] k) (seq 0 (length l))).
  { induction k as [|i k IH]; intros I; simpl; [split; [reflexivity|intros a []]|].
    destruct IH as [IH1 IH2]; [intros a J; apply I; right; exact J|]. rewrite <- IH1.
    assert (Hi : i < length l). { specialize (I i (or_introl eq_refl)). apply in_seq in I. lia. }
    split.
    - clear IH1. set (m := fold_right (insert_idx l) [] k) in *. clearbody m. induction m as [|j m IHm]; simpl; [reflexivity|].
      assert (Hj : j < length l). { specialize (IH2 j (or_introl eq_refl)). apply in_seq in IH2. lia. }
      rewrite (H j i Hj Hi), IHm; [reflexivity|]. intros a J. apply IH2. right. exact J.
    - intros a J. apply (Permutation_in _ (insert_perm _ _ _)) in J as [<-|J]; [apply in_seq; lia|apply IH2; exact J]. }
  apply K. intros a J. exact J.
Qed.
