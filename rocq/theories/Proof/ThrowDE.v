(** What the caller's variable holds whenever code of the caller runs: differential evolution. *)
From Coq Require Import List Arith Bool Lia.
From Verif.Base Require Import Num Vec Loop Size.
From Verif.Model Require Import Common SA DE Throw.
From Verif.Spec Require Import ThrowSpec.
From Verif.Proof Require Import ThrowProof.
Import ListNotations.

Section DE.
  Context {N : Num}.
  Notation vec := (list N).
  Notation acts := (list (act vec (ev N vec vec))).
  Variables (populationSize maxGenerations : nat) (crossoverRate weight tolerance inf : N).
  Variable f : vec -> N.
  Variable noise : nat -> vec.
  Variable draws : nat -> nat.
  Variable unif : nat -> vec.
  Variable cb : CB N vec vec.
  Variable fuel : nat.
  Variable x0 : vec.
  Notation mcalls := (de_member_calls populationSize crossoverRate weight f draws unif cb fuel).
  Notation members := (de_members populationSize crossoverRate weight f draws unif cb fuel).
  Notation gcalls := (de_gen_calls populationSize crossoverRate weight tolerance inf f draws unif cb fuel).
  Notation gens := (de_generations populationSize crossoverRate weight tolerance inf f draws unif cb fuel).
  Notation log := (de_log populationSize maxGenerations crossoverRate weight tolerance inf f noise draws unif cb fuel).
  Definition sn (s : list vec) (e : ev N vec vec) : list vec := s ++ evaluated [e].
  Lemma sn_fold : forall h s, fold_left sn h s = s ++ evaluated h.
  Proof.
    induction h as [|e h IH]; intros s; [cbn; rewrite app_nil_r; reflexivity|]. cbn [fold_left]. rewrite IH. unfold sn. rewrite <- app_assoc. f_equal.
    unfold evaluated. cbn [flat_map]. rewrite app_nil_r. reflexivity.
  Qed.
  Definition held (m : vec) (s : list vec) : Prop := m = x0 \/ In m s.
  Definition among (m : vec) (s : list vec) (c : act vec (ev N vec vec)) : Prop := match c with Cb (End y) => m = y | _ => held m s end.
  Lemma held_app m s s' : held m s -> held m (s ++ s').
  Proof. intros [H|H]; [left|right; apply in_or_app; left]; assumption. Qed.
  Lemma set_nth_in {A} (a b : A) : forall l i, In b (set_nth i a l) -> b = a \/ In b l.
  Proof. induction l as [|c l IH]; intros [|i] H; cbn in *; auto; destruct H as [H|H]; auto. destruct (IH _ H); auto. Qed.
  Lemma sn_Ev s p v : sn s (Ev p v) = s ++ [p]. Proof. reflexivity. Qed.
  Lemma sn_St s p : sn s (St p) = s. Proof. unfold sn. cbn. apply app_nil_r. Qed.
  Lemma members_log : forall k i s term m seen, held m seen -> incl (d_pop s) seen ->
    ok sn among m seen (mcalls k i s term) /\
    forall s1 t1, members k i s term = Ret (s1, t1) ->
      held (memory m (mcalls k i s term)) (seen ++ evaluated (told (mcalls k i s term))) /\
      incl (d_pop s1) (seen ++ evaluated (told (mcalls k i s term))) /\ d_best s1 = d_best s /\ rev (d_tr s1) = rev (d_tr s) ++ told (mcalls k i s term).
  Proof.
    induction k as [|k IH]; intros i s term m seen Hm Hp; cbn [de_member_calls de_members].
    { split; [exact I|]. intros s1 t1 [= <- <-]. cbn. rewrite !app_nil_r. auto. }
    destruct (nth_error (d_pop s) i) as [x|] eqn:Ex; [|split; [exact I|discriminate]].
    assert (Hx : In x seen) by (apply Hp; eapply nth_error_In; eassumption).
    destruct (draw_until _ _ _ _) as [[l p1]|]; [|split; [exact I|discriminate]].
    destruct (draw_until _ _ _ _) as [[j p2]|]; [|split; [exact I|discriminate]].
    destruct (d_best s) as [b|] eqn:Eb; [|split; [exact I|discriminate]].
    destruct (nth_error (d_pop s) l) as [xl|]; [|split; [exact I|discriminate]].
    destruct (nth_error (d_pop s) j) as [xm|]; [|split; [exact I|discriminate]].
    set (y := crossover _ _ _ _). cbn zeta.
    assert (B : held x seen) by (right; exact Hx).
    assert (B2 : held x (seen ++ [x])) by (apply held_app; exact B).
    destruct (_ || _ || _).
    { split.
      - cbn [ok]. unfold among. rewrite sn_Ev, sn_Ev. repeat split; auto using held_app.
      - intros s1 t1 [= <- <-]. cbn. rewrite <- !app_assoc. repeat split; auto using held_app.
        intros z Hz. apply in_or_app. left. apply Hp, Hz. }
    match goal with |- context [mcalls k (S i) ?s0 ?t0] => set (s' := s0); set (t' := t0) end.
    assert (Z : forall m' w, held m' (seen ++ [x; y]) -> incl (d_pop s') (seen ++ [x; y]) -> rev (d_tr s') = rev (d_tr s) ++ Ev x (f x) :: Ev y (f y) :: told w ->
      memory x w = m' -> evaluated (told w) = [] -> ok sn among x (seen ++ [x; y]) w ->
      let l := Put x :: Fn x :: Cb (Ev x (f x)) :: Fn y :: Cb (Ev y (f y)) :: w ++ mcalls k (S i) s' t' in
      ok sn among m seen l /\ forall s1 t1, members k (S i) s' t' = Ret (s1, t1) ->
        held (memory m l) (seen ++ evaluated (told l)) /\ incl (d_pop s1) (seen ++ evaluated (told l)) /\ d_best s1 = Some b /\ rev (d_tr s1) = rev (d_tr s) ++ told l).
    { intros m' w Hm' Hs' Ht Hw He Ho l0. destruct (IH (S i) s' t' m' (seen ++ [x; y]) Hm' Hs') as [A C]. split.
      - subst l0. cbn [ok]. unfold among at 1 2 3 4. rewrite !sn_Ev, <- !app_assoc. cbn [app].
        split; [auto|]. split; [auto using held_app|]. split; [auto using held_app|]. split; [auto using held_app|].
        apply ok_app; [exact Ho|]. rewrite Hw, sn_fold, He, app_nil_r. exact A.
      - intros s1 t1 H. destruct (C s1 t1 H) as (C1 & C2 & C3 & C4). subst l0.
        change (memory m (Put x :: Fn x :: Cb (Ev x (f x)) :: Fn y :: Cb (Ev y (f y)) :: ?z)) with (memory x z).
        change (told (Put x :: Fn x :: Cb (Ev x (f x)) :: Fn y :: Cb (Ev y (f y)) :: ?z)) with (Ev (G := vec) x (f x) :: Ev y (f y) :: told z).
        rewrite memory_app, told_app, Hw.
        replace (evaluated (Ev x (f x) :: Ev y (f y) :: told w ++ told (mcalls k (S i) s' t'))) with ([x; y] ++ evaluated (told (mcalls k (S i) s' t'))).
        2:{ unfold evaluated in *. cbn [flat_map app]. rewrite flat_map_app, He. reflexivity. }
        rewrite app_assoc. split; [exact C1|]. split; [exact C2|]. split; [exact C3|]. rewrite C4, Ht, <- app_assoc. cbn. reflexivity. }
    destruct (nlt (f y) (f x)) eqn:LT.
    - subst s'. cbn [app]. apply (Z y [Put y; Cb (St y)]); cbn; auto.
      + right. apply in_or_app. right. cbn. auto.
      + intros z Hz. apply set_nth_in in Hz as [->|Hz]; apply in_or_app; [right; cbn; auto|left; apply Hp, Hz].
      + rewrite <- !app_assoc. reflexivity.
      + split; auto. right. rewrite sn_St. apply in_or_app. right. cbn. auto.
    - subst s'. apply (Z x []); cbn; auto.
      + apply held_app. exact B.
      + intros z Hz. apply set_nth_in in Hz as [->|Hz]; apply in_or_app; [left; exact Hx|left; apply Hp, Hz].
      + rewrite <- !app_assoc. reflexivity.
  Qed.
  Lemma first_eq_in (v : N) : forall fit pop old b, first_eq v fit pop old = Some b -> In b pop \/ old = Some b.
  Proof.
    induction fit as [|a fit IH]; intros [|p pop] old b H; cbn in *; auto. destruct (neq a v); [injection H as <-; auto|]. apply IH in H as [H|H]; auto.
  Qed.
  Lemma gens_log : forall k s term m seen, held m seen -> incl (d_pop s) seen -> (forall b, d_best s = Some b -> In b seen) ->
    ok sn among m seen (gcalls k s term) /\
    forall s1, gens k s term = Ret s1 ->
      held (memory m (gcalls k s term)) (seen ++ evaluated (told (gcalls k s term))) /\
      (forall b, d_best s1 = Some b -> In b (seen ++ evaluated (told (gcalls k s term)))) /\ rev (d_tr s1) = rev (d_tr s) ++ told (gcalls k s term).
  Proof.
    induction k as [|k IH]; intros s term m seen Hm Hp Hb; cbn [de_gen_calls de_generations].
    { split; [exact I|]. intros s1 [= <-]. cbn. rewrite !app_nil_r. auto. }
    destruct term; [split; [exact I|]; intros s1 [= <-]; cbn; rewrite !app_nil_r; auto|].
    destruct (members_log populationSize 0 s false m seen Hm Hp) as [A B]. set (l := mcalls populationSize 0 s false) in *.
    destruct (members populationSize 0 s false) as [[s1 t1]| |]; try (rewrite app_nil_r; split; [exact A|discriminate]).
    destruct (B s1 t1 eq_refl) as (B1 & B2 & B3 & B4). cbn zeta.
    assert (B5 : forall b, d_best s1 = Some b -> In b (seen ++ evaluated (told l))) by (intros b E; apply in_or_app; left; apply Hb; congruence).
    destruct (nlt _ _).
    { rewrite app_nil_r. split; [exact A|]. intros s2 [= <-]. auto. }
    match goal with |- context [gcalls k ?s0 ?t0] => set (s' := s0) in *; destruct (IH s' t0 (memory m l) (seen ++ evaluated (told l))) as [C D] end.
    - exact B1.
    - exact B2.
    - intros b E. apply first_eq_in in E as [E|E]; [apply B2, E|apply B5, E].
    - split.
      + apply ok_app; [exact A|]. rewrite sn_fold. exact C.
      + intros s2 H. destruct (D s2 H) as (D1 & D2 & D3). rewrite memory_app, told_app.
        assert (E : evaluated (told l ++ told (gcalls k s' t1)) = evaluated (told l) ++ evaluated (told (gcalls k s' t1))) by apply flat_map_app.
        rewrite E, app_assoc. split; [exact D1|]. split; [exact D2|]. rewrite D3. change (d_tr s') with (d_tr s1). rewrite B4, <- app_assoc. reflexivity.
  Qed.
  Lemma init_log x : forall k s term s1 t1 seen, incl (d_pop s) seen -> (forall b, d_best s = Some b -> In b seen) -> held x0 seen ->
    de_init f noise cb x k s term = (s1, t1) ->
    let l := de_init_calls f noise x k (length (d_pop s)) in
    ok sn among x0 seen l /\ memory x0 l = x0 /\ incl (d_pop s1) (seen ++ evaluated (told l)) /\
    (forall b, d_best s1 = Some b -> In b (seen ++ evaluated (told l))) /\ rev (d_tr s1) = rev (d_tr s) ++ told l.
  Proof.
    induction k as [|k IH]; intros s term s1 t1 seen Hp Hb H0 H; cbn [de_init de_init_calls] in *.
    { injection H as <- <-. cbn. rewrite !app_nil_r. auto. }
    set (y := vadd _ _) in *. apply (IH _ _ _ _ (seen ++ [y])) in H.
    - cbn [d_pop d_tr] in H. rewrite app_length, Nat.add_1_r in H. destruct H as (A & B & C & D & E). cbn zeta.
      set (l := de_init_calls _ _ _ _ _) in *. cbn [ok]. rewrite sn_Ev.
      change (memory x0 (Fn y :: Cb (Ev y (f y)) :: l)) with (memory x0 l).
      change (evaluated (told (Fn y :: Cb (Ev y (f y)) :: l))) with ([y] ++ evaluated (told l)).
      change (told (Fn y :: Cb (Ev y (f y)) :: l)) with (Ev (G := vec) y (f y) :: told l).
      rewrite app_assoc. repeat split; auto; try (left; reflexivity). rewrite E. cbn. rewrite <- app_assoc. reflexivity.
    - cbn. intros z Hz. apply in_or_app. apply in_app_or in Hz as [Hz|Hz]; auto.
    - cbn. intros b Eb. apply in_or_app. destruct (nlt _ _); [injection Eb as <-; right; cbn; auto|left; auto].
    - left. reflexivity.
  Qed.
  Lemma log_parts : ok sn among x0 [] (log x0) /\ forall r, de_optimize populationSize maxGenerations crossoverRate weight tolerance inf f noise draws unif cb fuel x0 = Some (Ret r) ->
    told (log x0) = o_tr r /\ memory x0 (log x0) = o_x r.
  Proof.
    unfold de_log, de_optimize. destruct (populationSize <? 3); [split; [exact I|discriminate]|].
    destruct (de_init _ _ _ _ _ _ _) as [s t] eqn:EI. apply (init_log _ _ _ _ _ _ []) in EI; [|intros z []|discriminate|left; reflexivity].
    cbn [d_pop length d_tr rev app] in EI. destruct EI as (A & B & C & D & E). set (li := de_init_calls _ _ _ _ _) in *. cbn [app] in C, D.
    match goal with |- context [gcalls maxGenerations ?s0 t] => set (s1 := s0) end.
    destruct (gens_log maxGenerations s1 t x0 (evaluated (told li))) as [G1 G2]; [left; reflexivity|exact C|exact D|].
    set (lg := gcalls maxGenerations s1 t) in *.
    assert (SB : sn (evaluated (told li)) (Begin x0) = evaluated (told li)) by (unfold sn; cbn; apply app_nil_r).
    split.
    - apply ok_app; [exact A|]. rewrite sn_fold, B. cbn [app]. cbn [ok]. rewrite SB. split; [left; reflexivity|].
      apply ok_app; [exact G1|]. destruct (gens maxGenerations s1 t) as [s2| |]; try exact I. cbn. auto.
    - intros r H. destruct (gens maxGenerations s1 t) as [s2| |]; try discriminate. destruct (G2 s2 eq_refl) as (_ & _ & G5). injection H as <-. cbn [o_tr o_x rev].
      rewrite told_app, memory_app, B. change (told (Cb (Begin x0) :: ?z)) with (Begin (N := N) (G := vec) x0 :: told z).
      change (memory x0 (Cb (Begin x0) :: ?z)) with (memory x0 z). rewrite told_app, memory_app, G5. cbn. rewrite E, <- !app_assoc. auto.
  Qed.
  Theorem de_throw : at_every_call x0 (log x0) (fun m h c => match c with Cb (End y) => m = y | _ => m = x0 \/ In m (evaluated h) end).
  Proof.
    intros a c b E C. destruct log_parts as [H _]. pose proof (ok_all sn among _ x0 [] H a c b E C) as K. rewrite sn_fold in K. exact K.
  Qed.
  Theorem de_log_ok r : de_optimize populationSize maxGenerations crossoverRate weight tolerance inf f noise draws unif cb fuel x0 = Some (Ret r) ->
    told (log x0) = o_tr r /\ memory x0 (log x0) = o_x r.
  Proof. apply log_parts. Qed.
End DE.
