(** BeginOptimization and EndOptimization: optimizers whose loops are recursive functions. *)
From Coq Require Import List Arith Bool Lia.
From Verif.Base Require Import Num Vec Loop.
From Verif.Model Require Import Common.
From Verif.Spec Require Import BracketSpec.
From Verif.Model Require Pareto GradientDescent CD SPSA FrankWolfe PSO SA DE CNE CMAES LBFGS AugLag ParallelSgd NSGA2 MOEAD PrimalDual.
Import ListNotations.

Section Grown.
  Context {E : Type}.
  Variable mark : E -> bool.

  (** [tr] is [t0] with plain events on top *)
  Definition grown (t0 tr : list E) : Prop := exists body, tr = body ++ t0 /\ plain mark body.
  Lemma plain_nil : plain mark [].
  Proof. intros e []. Qed.
  Lemma plain_cons e l : mark e = false -> plain mark l -> plain mark (e :: l).
  Proof. intros A B x [<-|I]; auto. Qed.
  Lemma plain_app l1 l2 : plain mark l1 -> plain mark l2 -> plain mark (l1 ++ l2).
  Proof. intros A B x I. apply in_app_or in I. destruct I; auto. Qed.
  Lemma plain_rev l : plain mark l -> plain mark (rev l).
  Proof. intros A x I. apply A, in_rev, I. Qed.
  Lemma grown_refl t : grown t t.
  Proof. exists []. split; [reflexivity|apply plain_nil]. Qed.
  Lemma grown_cons t0 e tr : mark e = false -> grown t0 tr -> grown t0 (e :: tr).
  Proof. intros M (b & -> & P). exists (e :: b). split; [reflexivity|apply plain_cons; auto]. Qed.
  Lemma grown_trans t0 t1 t2 : grown t0 t1 -> grown t1 t2 -> grown t0 t2.
  Proof. intros (b & -> & P) (c & -> & Q). exists (c ++ b). rewrite app_assoc. split; [reflexivity|apply plain_app; auto]. Qed.
  Lemma grown_plain t : grown [] t -> plain mark t.
  Proof. intros (b & -> & P). rewrite app_nil_r. exact P. Qed.

  Lemma frame first final tr : grown [first] tr -> framed mark first final (rev (final :: tr)).
  Proof.
    intros (b & -> & P). exists (rev b). cbn [rev]. rewrite rev_app_distr. cbn. split; [reflexivity|apply plain_rev, P].
  Qed.
  Lemma frame_after pre first final tr : plain mark pre -> grown (first :: pre) tr ->
    framed_after mark (rev pre) first final (rev (final :: tr)).
  Proof.
    intros Q (b & -> & P). exists (rev b). cbn [rev]. rewrite rev_app_distr. cbn. rewrite <- !app_assoc. cbn.
    split; [reflexivity|]. split; apply plain_rev; auto.
  Qed.
End Grown.

Ltac grow := repeat first [eassumption | apply grown_refl | apply grown_cons; [reflexivity|]].
Ltac cases H := repeat (match type of H with context [match ?x with _ => _ end] => destruct x eqn:? end; try discriminate).
Lemma Ret_inj {A} (a b : A) : Ret a = Ret b -> b = a.
Proof. congruence. Qed.
Lemma Some_inj {A} (a b : A) : Some a = Some b -> b = a.
Proof. congruence. Qed.
Lemma NRet_inj {A} (a b : A) : NSGA2.NRet a = NSGA2.NRet b -> b = a.
Proof. congruence. Qed.
Lemma Ret3_inj {A B C} (a a' : A) (b b' : B) (c c' : C) : Ret (a, b, c) = Ret (a', b', c') -> b' = b /\ c' = c.
Proof. intros H. injection H as _ -> ->. auto. Qed.
Ltac inj H := first [apply Ret_inj in H | apply Some_inj in H; try apply Ret_inj in H | apply NRet_inj in H]; first [subst | rewrite H].

Section Common.
  Context {N : Num}.
  Notation vec := (list N).
  Notation G := (grown (@ev_mark N vec vec)).

  Lemma gd_frame max step tol f cb fuel (x : vec) r :
    GradientDescent.gd max step tol f cb fuel x = Some r -> framed ev_mark (Begin x) (End (o_x r)) (o_tr r).
  Proof.
    unfold GradientDescent.gd.
    enough (K : forall fuel i ov last term y tr, GradientDescent.gd_loop max step tol f cb fuel i ov last term y tr = Some r ->
      G [Begin x] tr -> framed ev_mark (Begin x) (End (o_x r)) (o_tr r)) by (intros H; apply (K _ _ _ _ _ _ _ H); grow).
    induction fuel0 as [|k IH]; intros i ov last term y tr H P; cbn [GradientDescent.gd_loop] in H; cases H;
      try (inj H; unfold GradientDescent.gd_done, CD.cd_final, SPSA.spsa_final, SPSA.spsa_done, FrankWolfe.fw_done; cbn [o_x o_tr]; apply frame; grow; fail); apply (IH _ _ _ _ _ _ H); grow.
  Qed.

  Lemma spsa_frame al ga st ak ev_ max tol f pw coin cb fuel (x : vec) r :
    SPSA.spsa al ga st ak ev_ max tol f pw coin cb fuel x = Some r -> framed ev_mark (Begin x) (End (o_x r)) (o_tr r).
  Proof.
    unfold SPSA.spsa.
    enough (K : forall fuel i ov last term y tr, SPSA.spsa_loop al ga st ak ev_ max tol f pw coin cb fuel i ov last term y tr = Some r ->
      G [Begin x] tr -> framed ev_mark (Begin x) (End (o_x r)) (o_tr r)) by (intros H; apply (K _ _ _ _ _ _ _ H); grow).
    induction fuel0 as [|k IH]; intros i ov last term y tr H P; cbn [SPSA.spsa_loop] in H; cases H;
      try (inj H; unfold GradientDescent.gd_done, CD.cd_final, SPSA.spsa_final, SPSA.spsa_done, FrankWolfe.fw_done; cbn [o_x o_tr]; apply frame; grow; fail); apply (IH _ _ _ _ _ _ H); grow.
  Qed.

  Lemma fw_frame max tol f lmo rule cb fuel (x : vec) r :
    FrankWolfe.frank_wolfe max tol f lmo rule cb fuel x = Ret r -> framed ev_mark (Begin x) (End (o_x r)) (o_tr r).
  Proof.
    unfold FrankWolfe.frank_wolfe.
    enough (K : forall fuel i ov term y h tr, FrankWolfe.fw_loop max tol f lmo rule cb fuel i ov term y h tr = Ret r ->
      G [Begin x] tr -> framed ev_mark (Begin x) (End (o_x r)) (o_tr r)) by (intros H; apply (K _ _ _ _ _ _ _ H); grow).
    induction fuel0 as [|k IH]; intros i ov term y h tr H P; cbn [FrankWolfe.fw_loop] in H; cases H;
      try (inj H; unfold GradientDescent.gd_done, CD.cd_final, SPSA.spsa_final, SPSA.spsa_done, FrankWolfe.fw_done; cbn [o_x o_tr]; apply frame; grow; fail); apply (IH _ _ _ _ _ _ H); grow.
  Qed.

  Lemma cd_frame step max tol ui f pg policy (cb : CB N (list vec) (list vec)) fuel (x : list vec) r :
    CD.cd step max tol ui f pg policy cb fuel x = Ret r -> framed ev_mark (Begin x) (End (o_x r)) (o_tr r).
  Proof.
    unfold CD.cd.
    enough (K : forall fuel i ov last term y tr, CD.cd_loop step max tol ui f pg policy cb fuel i ov last term y tr = Ret r ->
      grown ev_mark [Begin x] tr -> framed ev_mark (Begin x) (End (o_x r)) (o_tr r)) by (intros H; apply (K _ _ _ _ _ _ _ H); grow).
    induction fuel0 as [|k IH]; intros i ov last term y tr H P; cbn [CD.cd_loop] in H; cases H;
      try (inj H; unfold GradientDescent.gd_done, CD.cd_final, SPSA.spsa_final, SPSA.spsa_done, FrankWolfe.fw_done; cbn [o_x o_tr]; apply frame; grow; fail); apply (IH _ _ _ _ _ _ H); grow.
  Qed.

  Section PSO.
    Variables (max hor : nat) (tol : N) (f : vec -> N) (vel : nat -> list vec -> list vec -> list vec -> list N -> list vec) (cb : CB N vec vec).
    Lemma pso_first_grown pos : forall tr t fit tr' t' t0,
      PSO.pso_first f cb pos tr t = (fit, tr', t') -> G t0 tr -> G t0 tr'.
    Proof.
      induction pos as [|y pos IH]; intros tr t fit tr' t' t0 H P; cbn [PSO.pso_first] in H.
      - injection H as <- <- <-. exact P.
      - destruct t; [injection H as <- <- <-; exact P|].
        destruct (PSO.pso_first f cb pos (Ev y (f y) :: tr) (cs_stop cb (Ev y (f y) :: tr))) as [[fit2 tr2] t2] eqn:F.
        injection H as <- <- <-. apply (IH _ _ _ _ _ _ F). grow.
    Qed.
    Lemma pso_eval_grown brk pos : forall pb fit tr t pb' fit' tr' t' t0,
      PSO.pso_eval f cb brk pos pb fit tr t = (pb', fit', tr', t') -> G t0 tr -> G t0 tr'.
    Proof.
      induction pos as [|y pos IH]; intros pb fit tr t pb' fit' tr' t' t0 H P; cbn [PSO.pso_eval] in H.
      - injection H as <- <- <- <-. exact P.
      - destruct pb as [|b pb]; [injection H as <- <- <- <-; exact P|].
        destruct fit as [|v fit]; [injection H as <- <- <- <-; exact P|].
        destruct t; [injection H as <- <- <- <-; exact P|].
        destruct (brk && cs_stop cb (Ev y (f y) :: tr)); [injection H as <- <- <- <-; grow|].
        destruct (PSO.pso_eval f cb brk pos pb fit (Ev y (f y) :: tr) (cs_stop cb (Ev y (f y) :: tr))) as [[[pb2 fit2] tr2] t2] eqn:F.
        assert (K : G t0 tr2) by (apply (IH _ _ _ _ _ _ _ _ _ F); grow).
        destruct (nlt (f y) v); injection H as <- <- <- <-; exact K.
    Qed.
    Lemma pso_iter_grown brk it s s' t t0 : PSO.pso_iter f vel cb brk it s = Some (s', t) -> G t0 (PSO.p_tr s) -> G t0 (PSO.p_tr s').
    Proof.
      unfold PSO.pso_iter. intros H P.
      destruct (PSO.pso_eval f cb brk (PSO.p_pos s) (PSO.p_pb s) (PSO.p_fit s) (PSO.p_tr s) false) as [[[pb fit] tr] t1] eqn:F.
      pose proof (pso_eval_grown _ _ _ _ _ _ _ _ _ _ t0 F P) as K.
      destruct (PSO.pso_best 0 fit (PSO.p_bp s) (PSO.p_bf s)) as [bp bf]. destruct (nth_error pb bp); [|discriminate].
      injection H as <- _. cbn. grow.
    Qed.
    Lemma pso_horizon_grown t0 k : forall it s t q s' t' it' q',
      PSO.pso_horizon f vel cb k it s t q = Some (s', t', it', q') -> G t0 (PSO.p_tr s) -> G t0 (PSO.p_tr s').
    Proof.
      induction k as [|k IH]; intros it s t q s' t' it' q' H P; cbn [PSO.pso_horizon] in H.
      - injection H as <- _ _ _. exact P.
      - destruct t; [injection H as <- _ _ _; exact P|].
        destruct (PSO.pso_iter f vel cb true it s) as [[s1 t1]|] eqn:F; [|discriminate].
        apply (IH _ _ _ _ _ _ _ _ H). exact (pso_iter_grown _ _ _ _ _ _ F P).
    Qed.
    Lemma pso_rest_grown t0 k : forall it s t q s',
      PSO.pso_rest tol f vel cb k it s t q = Some s' -> G t0 (PSO.p_tr s) -> G t0 (PSO.p_tr s').
    Proof.
      induction k as [|k IH]; intros it s t q s' H P; cbn [PSO.pso_rest] in H.
      - injection H as <-. exact P.
      - destruct t; [injection H as <-; exact P|]. destruct q as [|a q]; [discriminate|].
        destruct (nlt _ tol); [injection H as <-; exact P|].
        destruct (PSO.pso_iter f vel cb false it s) as [[s1 t1]|] eqn:F; [|discriminate].
        apply (IH _ _ _ _ _ H). exact (pso_iter_grown _ _ _ _ _ _ F P).
    Qed.
    Lemma pso_frame pos0 vel0 x r :
      PSO.pso_optimize max hor tol f vel cb pos0 vel0 x = Some (Ret r) -> framed ev_mark (Begin x) (End (o_x r)) (o_tr r).
    Proof.
      unfold PSO.pso_optimize. intros H. destruct (max <? hor); [discriminate|].
      destruct (PSO.pso_first f cb pos0 [Begin x] false) as [[fit tr] t] eqn:F.
      pose proof (pso_first_grown _ _ _ _ _ _ [Begin x] F (grown_refl _ _)) as K.
      match type of H with context [PSO.pso_horizon f vel cb hor 0 ?s t []] => set (s0 := s) in H; assert (P0 : G [Begin x] (PSO.p_tr s0)) by exact K end.
      destruct (PSO.pso_horizon f vel cb hor 0 s0 t []) as [[[[s1 t1] it] q]|] eqn:E1; [|discriminate].
      pose proof (pso_horizon_grown _ _ _ _ _ _ _ _ _ _ E1 P0) as P1.
      destruct (PSO.pso_rest tol f vel cb (max - hor) it s1 t1 q) as [s2|] eqn:E2; [|discriminate].
      pose proof (pso_rest_grown _ _ _ _ _ _ _ E2 P1) as P2.
      destruct (nth_error (PSO.p_pb s2) (PSO.p_bp s2)) as [b|]; [|discriminate]. inj H. apply frame. exact P2.
    Qed.
  End PSO.

  Section SA.
    Variables (max im mc mt : nat) (tol mm imc gain target : N) (next : N -> N -> N) (lg ex : N -> N) (f : vec -> N)
      (rnd : nat -> N * N) (cb : CB N vec vec).
    Notation move := (SA.generate_move mc mm gain target lg ex f rnd cb).
    Lemma sa_move_grown s s' t t0 : move s = Some (s', t) -> G t0 (SA.sa_tr s) -> G t0 (SA.sa_tr s').
    Proof.
      unfold SA.generate_move. intros H P.
      destruct (nth_error (SA.sa_x s) (SA.sa_idx s)); [|discriminate].
      destruct (nth_error (SA.sa_size s) (SA.sa_idx s)); [|discriminate].
      destruct (nth_error (SA.sa_acc s) (SA.sa_idx s)); [|discriminate].
      destruct (rnd (SA.sa_j s)) as [u xi]. injection H as <- _. cbn [SA.sa_tr]. grow.
    Qed.
    Lemma sa_init_grown t0 k : forall s t s' t', SA.init_moves mc mm gain target lg ex f rnd cb k s t = Some (s', t') ->
      G t0 (SA.sa_tr s) -> G t0 (SA.sa_tr s').
    Proof.
      induction k as [|k IH]; intros s t s' t' H P; cbn [SA.init_moves] in H; [injection H as <- _; exact P|].
      destruct (move s) as [[s1 t1]|] eqn:F; [|discriminate]. pose proof (sa_move_grown _ _ _ _ F P) as K.
      destruct (t || t1); [injection H as <- _; exact K|]. exact (IH _ _ _ _ H K).
    Qed.
    Lemma sa_cool_frame t0 k : forall s t fr r, SA.cooling mc mt tol mm gain target next lg ex f rnd cb k s t fr = Some r ->
      G t0 (SA.sa_tr s) -> exists tr, o_tr (fst r) = rev (End (o_x (fst r)) :: tr) /\ G t0 tr.
    Proof.
      induction k as [|k IH]; intros s t fr r H P; cbn [SA.cooling] in H; [inj H; eexists; split; [reflexivity|exact P]|].
      destruct t; [inj H; eexists; split; [reflexivity|exact P]|].
      destruct (move s) as [[s1 t1]|] eqn:F; [|discriminate]. pose proof (sa_move_grown _ _ _ _ F P) as K.
      destruct t1; [inj H; eexists; split; [reflexivity|exact K]|].
      destruct (_ <=? _).
      - inj H. eexists; split; [reflexivity|]. cbn [SA.sa_tr]. grow.
      - apply (IH _ _ _ _ H). cbn [SA.sa_tr]. grow.
    Qed.
    Lemma sa_frame temp x r : SA.sa_optimize max im mc mt tol mm imc gain target next lg ex f rnd cb temp x = Ret r ->
      framed_after ev_mark [Ev x (f x)] (Begin x) (End (o_x (fst r))) (o_tr (fst r)).
    Proof.
      unfold SA.sa_optimize. intros H.
      match type of H with context [SA.init_moves _ _ _ _ _ _ _ _ _ im ?s ?t] => set (s0 := s) in H; set (b := t) in H end.
      destruct (SA.init_moves mc mm gain target lg ex f rnd cb im s0 b) as [[s1 t1]|] eqn:E1; [|discriminate].
      pose proof (sa_init_grown [Begin x; Ev x (f x)] _ _ _ _ _ E1 (grown_refl _ _)) as K.
      destruct (SA.cooling _ _ _ _ _ _ _ _ _ _ _ _ max s1 t1 0) as [r'|] eqn:E2; [|discriminate]. inj H.
      destruct (sa_cool_frame _ _ _ _ _ _ E2 K) as (tr & -> & P).
      apply (frame_after ev_mark [Ev x (f x)]); [|exact P]. apply plain_cons; [reflexivity|apply plain_nil].
    Qed.
  End SA.

  Section DE.
    Variables (ps mg : nat) (cr w tol inf : N) (f : vec -> N) (noise : nat -> vec) (draws : nat -> nat) (unif : nat -> vec)
      (cb : CB N vec vec) (fuel : nat).
    Lemma de_init_grown x k : forall s t s' t' t0, DE.de_init f noise cb x k s t = (s', t') -> G t0 (DE.d_tr s) ->
      G t0 (DE.d_tr s').
    Proof.
      induction k as [|k IH]; intros s t s' t' t0 H P; cbn [DE.de_init] in H; [injection H as <- _; exact P|].
      apply (IH _ _ _ _ _ H). cbn [DE.d_tr]. grow.
    Qed.
    Lemma de_members_grown k : forall i s t s' t' t0, DE.de_members ps cr w f draws unif cb fuel k i s t = Ret (s', t') ->
      G t0 (DE.d_tr s) -> G t0 (DE.d_tr s').
    Proof.
      induction k as [|k IH]; intros i s t s' t' t0 H P; cbn [DE.de_members] in H; [injection H as <- _; exact P|].
      destruct (nth_error (DE.d_pop s) i) as [x|]; [|discriminate].
      destruct (DE.draw_until _ _ _ (DE.d_pos s)) as [[l p1]|]; [|discriminate].
      destruct (DE.draw_until _ _ _ p1) as [[m p2]|]; [|discriminate].
      destruct (DE.d_best s) as [b|]; [|discriminate].
      destruct (nth_error (DE.d_pop s) l) as [xl|]; [|discriminate].
      destruct (nth_error (DE.d_pop s) m) as [xm|]; [|discriminate].
      cbv zeta in H. destruct (t || _ || _); [injection H as <- _; cbn [DE.d_tr]; grow|].
      apply (IH _ _ _ _ _ _ H). cbn [DE.d_tr]. destruct (nlt _ _); grow.
    Qed.
    Lemma de_gen_grown k : forall s t s' t0, DE.de_generations ps cr w tol inf f draws unif cb fuel k s t = Ret s' ->
      G t0 (DE.d_tr s) -> G t0 (DE.d_tr s').
    Proof.
      induction k as [|k IH]; intros s t s' t0 H P; cbn [DE.de_generations] in H; [inj H; exact P|].
      destruct t; [inj H; exact P|].
      destruct (DE.de_members _ _ _ _ _ _ _ _ ps 0 s false) as [[s1 t1]| |] eqn:F; try discriminate.
      pose proof (de_members_grown _ _ _ _ _ _ _ F P) as K. cbv zeta in H.
      destruct (nlt _ tol); [inj H; exact K|]. apply (IH _ _ _ _ H). exact K.
    Qed.
    Lemma de_frame x r : DE.de_optimize ps mg cr w tol inf f noise draws unif cb fuel x = Some (Ret r) ->
      exists pre, framed_after ev_mark pre (Begin x) (End (o_x r)) (o_tr r).
    Proof.
      unfold DE.de_optimize. intros H. destruct (ps <? 3); [discriminate|].
      destruct (DE.de_init f noise cb x ps _ false) as [s t] eqn:F.
      assert (K : G [] (DE.d_tr s)) by (apply (de_init_grown _ _ _ _ _ _ [] F); apply grown_refl).
      match type of H with context [DE.de_generations _ _ _ _ _ _ _ _ _ _ mg ?s t] => set (s1 := s) in H end.
      destruct (DE.de_generations _ _ _ _ _ _ _ _ _ _ mg s1 t) as [s2| |] eqn:E; try discriminate. inj H.
      exists (rev (DE.d_tr s)). apply frame_after; [apply grown_plain, K|].
      exact (de_gen_grown _ _ _ _ (Begin x :: DE.d_tr s) E (grown_refl _ _)).
    Qed.
  End DE.

  Section CNE.
    Variables (P mg fl : nat) (mp ms tol inf : N) (f : vec -> N) (si : list N -> list nat) (noise : nat -> vec)
      (parents : nat -> nat -> nat * nat) (coin : nat -> nat -> nat -> bool) (mu mz : nat -> nat -> vec) (cb : CB N vec vec).
    Lemma cne_eval_grown pop : forall tr t tr' t' t0, CNE.evaluate f cb pop tr t = (tr', t') -> G t0 tr -> G t0 tr'.
    Proof.
      induction pop as [|y pop IH]; intros tr t tr' t' t0 H K; cbn [CNE.evaluate] in H; [injection H as <- _; exact K|].
      apply (IH _ _ _ _ _ H). grow.
    Qed.
    Lemma cne_loop_grown e k : forall g pop idx last tr t pop' idx' tr' t0,
      CNE.cne_loop P mp ms tol inf f si parents coin mu mz cb e k g pop idx last tr t = Ret (pop', idx', tr') -> G t0 tr -> G t0 tr'.
    Proof.
      induction k as [|k IH]; intros g pop idx last tr t pop' idx' tr' t0 H K; cbn [CNE.cne_loop] in H.
      - injection H as _ _ <-. exact K.
      - destruct t; [injection H as _ _ <-; exact K|].
        destruct (CNE.evaluate f cb pop tr false) as [tr1 t1] eqn:F. pose proof (cne_eval_grown _ _ _ _ _ _ F K) as K1.
        destruct (existsb nisnan (map f pop)); [discriminate|]. cbv zeta in H.
        destruct (nlt _ tol); [injection H as _ _ <-; exact K1|]. exact (IH _ _ _ _ _ _ _ _ _ _ H K1).
    Qed.
    Lemma cne_frame x r : CNE.cne_optimize P mg fl mp ms tol inf f si noise parents coin mu mz cb x = Some (Ret r) ->
      framed_after ev_mark [Ev x (f x)] (Begin x) (End (o_x r)) (o_tr r).
    Proof.
      unfold CNE.cne_optimize. intros H. destruct (CNE.cne_elite P fl) as [e|]; [|discriminate].
      destruct (CNE.cne_loop _ _ _ _ _ _ _ _ _ _ _ _ e mg 1 _ None (f x) _ _) as [[[pop' [[|i0 ix]|]] tr]| |] eqn:E; try discriminate.
      inj H. pose proof (cne_loop_grown _ _ _ _ _ _ _ _ _ _ _ [Begin x; Ev x (f x)] E (grown_refl _ _)) as K.
      apply (frame_after ev_mark [Ev x (f x)]); [apply plain_cons; [reflexivity|apply plain_nil]|]. grow.
    Qed.
  End CNE.

  Section CMAES.
    Variables (max lam pat : nat) (tol big : N) (fe : vec -> nat -> nat -> N) (ic : list (nat * nat))
      (select : nat -> nat -> list (nat * nat)) (tf : vec -> vec) (w : list N) (A : Type)
      (sample : nat -> A -> option (list vec)) (adapt : nat -> A -> N -> list vec -> list nat -> vec -> A * N)
      (si : list N -> list nat) (cb : CB N vec vec).
    Lemma cma_eval_grown b x cs : forall acc tr t v tr' t' t0,
      CMAES.evaluate fe cb b x cs acc tr t = (v, tr', t') -> G t0 tr -> G t0 tr'.
    Proof.
      induction cs as [|[c d] cs IH]; intros acc tr t v tr' t' t0 H K; cbn [CMAES.evaluate] in H; [injection H as _ <- _; exact K|].
      apply (IH _ _ _ _ _ _ _ H). grow.
    Qed.
    Lemma cma_pop_grown ds : forall i j m sg ix steps objs tr t steps' objs' tr' t' t0,
      CMAES.population fe select tf cb i j m sg ds ix steps objs tr t = (steps', objs', tr', t') -> G t0 tr -> G t0 tr'.
    Proof.
      induction ds as [|s ds IH]; intros i j m sg ix steps objs tr t steps' objs' tr' t' t0 H K; cbn [CMAES.population] in H.
      - injection H as _ _ <- _. exact K.
      - destruct ix as [|k ix]; [injection H as _ _ <- _; exact K|].
        destruct (CMAES.evaluate fe cb true _ _ n0 tr t) as [[o tr1] t1] eqn:F.
        apply (IH _ _ _ _ _ _ _ _ _ _ _ _ _ _ H). exact (cma_eval_grown _ _ _ _ _ _ _ _ _ _ F K).
    Qed.
    Lemma cma_loop_frame k : forall i s t r t0,
      CMAES.cma_loop lam pat tol big fe select tf w A sample adapt si cb k i s t = Ret r -> G t0 (CMAES.c_tr _ s) ->
      exists tr, o_tr r = rev (End (o_x r) :: tr) /\ G t0 tr.
    Proof.
      induction k as [|k IH]; intros i s t r t0 H K; cbn [CMAES.cma_loop] in H; [inj H; eexists; split; [reflexivity|exact K]|].
      destruct t; [inj H; eexists; split; [reflexivity|exact K]|].
      destruct (sample i (CMAES.c_a _ s)) as [draws|]; [|discriminate].
      destruct (CMAES.population _ _ _ _ _ _ _ _ _ _ _ _ _ _) as [[[steps objs] tr1] t1] eqn:F.
      pose proof (cma_pop_grown _ _ _ _ _ _ _ _ _ _ _ _ _ _ _ F K) as K1.
      destruct (existsb nisnan objs); [discriminate|]. cbv zeta in H.
      destruct (CMAES.recombine w steps (si objs)) as [st|]; [|discriminate].
      destruct (CMAES.evaluate fe cb true _ _ n0 tr1 t1) as [[cur tr2] t2] eqn:F2.
      pose proof (cma_eval_grown _ _ _ _ _ _ _ _ _ _ F2 K1) as K2.
      destruct (adapt i _ _ steps (si objs) st) as [a sg].
      assert (K3 : forall y, G t0 (if nlt cur (CMAES.c_best _ s) then St y :: tr2 else tr2)) by (intros y; match goal with |- grown _ _ (if ?b then _ else _) => destruct b end; grow).
      destruct (nisnan sg || nlt big sg); [inj H; eexists; split; [reflexivity|apply K3]|].
      destruct (nisnan _ || nisinf _); [inj H; eexists; split; [reflexivity|apply K3]|].
      destruct (_ && (pat <? _)); [inj H; eexists; split; [reflexivity|apply K3]|].
      apply (IH _ _ _ _ _ H). cbn [CMAES.c_tr]. apply K3.
    Qed.
    Lemma cma_frame a0 s0 x r : CMAES.cma_optimize max lam pat tol big fe ic select tf w A sample adapt si cb a0 s0 x = Ret r ->
      exists pre, framed_after ev_mark pre (Begin (tf x)) (End (o_x r)) (o_tr r).
    Proof.
      unfold CMAES.cma_optimize. intros H.
      destruct (CMAES.evaluate fe cb false (tf x) ic n0 [] false) as [[cur tr] t] eqn:F.
      pose proof (cma_eval_grown _ _ _ _ _ _ _ _ _ [] F (grown_refl _ _)) as K.
      destruct (cma_loop_frame _ _ _ _ _ (Begin (tf x) :: tr) H (grown_refl _ _)) as (tr' & -> & K').
      exists (rev tr). apply frame_after; [apply grown_plain, K|exact K'].
    Qed.
  End CMAES.

  Section LBFGS.
    Variables (nb max : nat) (arm mgn wolfe factr mins maxs : N) (mt : nat) (tol : N) (norm2 normF : vec -> N)
      (f : vec -> N * vec) (cb : CB N vec vec).
    Lemma ls_loop_grown k : forall i x d f0 sl li st be bo t trials tr l t0,
      LBFGS.ls_loop wolfe mins maxs mt f cb k i x d f0 sl li st be bo t trials tr = Some l -> G t0 tr -> G t0 (LBFGS.ls_tr l).
    Proof.
      induction k as [|k IH]; intros i x d f0 sl li st be bo t trials tr l t0 H K; cbn [LBFGS.ls_loop] in H; [discriminate|].
      destruct (f (vadd x (vscale st d))) as [v g]. destruct (nisnan v); [inj H; exact K|]. cbv zeta in H.
      cases H; try (inj H; cbn [LBFGS.ls_tr]; grow); apply (IH _ _ _ _ _ _ _ _ _ _ _ _ _ _ H); grow.
    Qed.
    Lemma ls_grown v x g d t tr l t0 :
      LBFGS.line_search arm wolfe mins maxs mt f cb v x g d t tr = Some l -> G t0 tr -> G t0 (LBFGS.ls_tr l).
    Proof.
      unfold LBFGS.line_search. intros H K. destruct (nlt n0 _ || _); [inj H; exact K|]. exact (ls_loop_grown _ _ _ _ _ _ _ _ _ _ _ _ _ _ _ H K).
    Qed.
    Lemma lb_loop_frame k : forall i s y v x g t tr r t0,
      LBFGS.lb_loop nb max arm mgn wolfe factr mins maxs mt tol norm2 normF f cb k i s y v x g t tr = Ret r -> G t0 tr ->
      exists tr', o_tr (fst r) = rev (End (o_x (fst r)) :: tr') /\ G t0 tr'.
    Proof.
      induction k as [|k IH]; intros i s y v x g t tr r t0 H K; cbn [LBFGS.lb_loop] in H.
      - destruct (negb _); [|discriminate]. inj H. eexists; split; [reflexivity|exact K].
      - destruct (negb _); [inj H; eexists; split; [reflexivity|exact K]|].
        destruct (nlt _ mgn); [inj H; eexists; split; [reflexivity|exact K]|].
        destruct (nisnan v); [inj H; eexists; split; [reflexivity|exact K]|].
        destruct (LBFGS.choose_scaling _ _ _ _ _ _ _) as [ga|]; [|discriminate].
        destruct (neq ga n0); [inj H; eexists; split; [reflexivity|exact K]|].
        destruct (negb (LBFGS.nfinite ga)); [inj H; eexists; split; [reflexivity|exact K]|].
        destruct (LBFGS.search_direction _ _ _ _ _ _) as [d|]; [|discriminate].
        destruct (LBFGS.line_search _ _ _ _ _ _ _ v x g d t tr) as [l|] eqn:F; [|discriminate].
        pose proof (ls_grown _ _ _ _ _ _ _ t0 F K) as K1. cbv zeta in H.
        destruct (negb (LBFGS.ls_ok l)); [inj H; eexists; split; [reflexivity|exact K1]|].
        destruct (neq (LBFGS.ls_step l) n0); [inj H; eexists; split; [reflexivity|exact K1]|].
        destruct (nle _ factr); [inj H; eexists; split; [reflexivity|exact K1]|].
        destruct (LBFGS.update_basis _ _ _ _ _ _ _ _) as [[s' y']|]; [|discriminate].
        apply (IH _ _ _ _ _ _ _ _ _ _ H). grow.
    Qed.
    Lemma lbfgs_frame fuel t s0 y0 x r : LBFGS.lbfgs nb max arm mgn wolfe factr mins maxs mt tol norm2 normF f cb fuel t s0 y0 x = Ret r ->
      let '(v, g) := f x in framed_after ev_mark [EvG x v g (cs_grad cb [] x v g)] (Begin x) (End (o_x (fst r))) (o_tr (fst r)).
    Proof.
      unfold LBFGS.lbfgs. destruct (f x) as [v g]. intros H.
      destruct (lb_loop_frame _ _ _ _ _ _ _ _ _ _ _ H (grown_refl _ _)) as (tr & -> & K).
      apply (frame_after ev_mark [EvG x v g (cs_grad cb [] x v g)]); [apply plain_cons; [reflexivity|apply plain_nil]|exact K].
    Qed.
  End LBFGS.
End Common.

Section AugLag.
  Context {N : Num} {S : Type}.
  Notation vec := (list N).
  Variables (max : nat) (tf sf tol : N) (f : vec -> N) (cs : list (vec -> N))
    (solve : list (AugLag.aev N) -> S -> vec -> N -> vec -> vec * S) (stop : list (AugLag.aev N) -> bool).
  Notation G := (grown (@a_mark N)).
  Lemma penalty_grown x k : forall i p t tr p' t' tr' t0, AugLag.penalty_loop stop k i x p t tr = (p', t', tr') -> G t0 tr -> G t0 tr'.
  Proof.
    induction k as [|c k IH]; intros i p t tr p' t' tr' t0 H K; cbn [AugLag.penalty_loop] in H; [injection H as _ _ <-; exact K|].
    apply (IH _ _ _ _ _ _ _ _ H). grow.
  Qed.
  Lemma lambda_grown x sg k : forall i l t tr l' t' tr' t0, AugLag.lambda_loop stop k i x l sg t tr = Some (l', t', tr') -> G t0 tr -> G t0 tr'.
  Proof.
    induction k as [|c k IH]; intros i l t tr l' t' tr' t0 H K; cbn [AugLag.lambda_loop] in H; [injection H as _ _ <-; exact K|].
    destruct (nth_error l i); [|discriminate]. apply (IH _ _ _ _ _ _ _ _ H). grow.
  Qed.
  Lemma al_loop_frame k : forall it x l sg thr last t s tr r t0,
    AugLag.al_loop max tf sf tol f cs solve stop k it x l sg thr last t s tr = Ret r -> G t0 tr ->
    exists tr', AugLag.al_tr r = rev (AugLag.AEnd (AugLag.al_x r) :: tr') /\ G t0 tr'.
  Proof.
    induction k as [|k IH]; intros it x l sg thr last t s tr r t0 H K; cbn [AugLag.al_loop] in H.
    - destruct (negb _); [|discriminate]. inj H. eexists; split; [reflexivity|exact K].
    - destruct (negb _); [inj H; eexists; split; [reflexivity|exact K]|].
      destruct (solve tr s l sg x) as [x' s']. cbv zeta in H.
      destruct (nlt _ tol && _); [inj H; eexists; split; [reflexivity|]; grow|].
      destruct (AugLag.penalty_loop stop cs 0 x' n0 _ _) as [[pen t3] tr3] eqn:F.
      assert (K3 : G t0 tr3) by (apply (penalty_grown _ _ _ _ _ _ _ _ _ _ F); grow).
      destruct t3; [inj H; eexists; split; [reflexivity|exact K3]|].
      destruct (nlt pen thr).
      + destruct (AugLag.lambda_loop stop cs 0 x' l sg false tr3) as [[[l' t4] tr4]|] eqn:F2; [|discriminate].
        pose proof (lambda_grown _ _ _ _ _ _ _ _ _ _ t0 F2 K3) as K4. apply (IH _ _ _ _ _ _ _ _ _ _ _ H). grow.
      + destruct (nle _ _); [inj H; eexists; split; [reflexivity|exact K3]|]. apply (IH _ _ _ _ _ _ _ _ _ _ _ H). grow.
  Qed.
  Lemma auglag_frame fuel t s l sg x r : AugLag.auglag max tf sf tol f cs solve stop fuel t s l sg x = Ret r ->
    exists pre, framed_after a_mark pre (AugLag.ABegin x) (AugLag.AEnd (AugLag.al_x r)) (AugLag.al_tr r).
  Proof.
    unfold AugLag.auglag. intros H. destruct (AugLag.penalty_loop stop cs 0 x n0 t []) as [[p t1] tr1] eqn:F.
    pose proof (penalty_grown _ _ _ _ _ _ _ _ _ [] F (grown_refl _ _)) as K.
    destruct (al_loop_frame _ _ _ _ _ _ _ _ _ _ _ _ H (grown_refl _ _)) as (tr & -> & K').
    exists (rev tr1). apply frame_after; [apply grown_plain, K|exact K'].
  Qed.
End AugLag.

Section Other.
  Context {N : Num}.
  Notation vec := (list N).

  Lemma psgd_frame max tol shuf T share f step perm cbE grad cbG cbS sched n fuel (x0 : vec) v x tr :
    ParallelSgd.psgd max tol shuf T share f step perm cbE grad cbG cbS sched n fuel x0 = Ret (v, x, tr) ->
    framed (@o_mark N) (ParallelSgd.OBegin x0) (ParallelSgd.OEnd x) tr.
  Proof.
    unfold ParallelSgd.psgd.
    enough (K : forall fuel i order y last t h, ParallelSgd.psgd_loop max tol shuf T share f step perm cbE grad cbG cbS sched fuel i order y last t h = Ret (v, x, tr) ->
      grown o_mark [ParallelSgd.OBegin x0] h -> framed (@o_mark N) (ParallelSgd.OBegin x0) (ParallelSgd.OEnd x) tr)
      by (intros H; apply (K _ _ _ _ _ _ _ H); grow).
    induction fuel0 as [|k IH]; intros i order y last t h H P; cbn [ParallelSgd.psgd_loop] in H; [discriminate|].
    destruct (_ || t); [apply Ret3_inj in H; destruct H as [-> ->]; apply frame; exact P|]. cbv zeta in H.
    destruct (nisnan _ || _); [apply Ret3_inj in H; destruct H as [-> ->]; apply frame; grow|].
    destruct (nlt _ tol); [apply Ret3_inj in H; destruct H as [-> ->]; apply frame; grow|].
    destruct (ParallelSgd.pexec _ _ _ _ _ _ _ _ _) as [s ls].
    destruct (ParallelSgd.finished _ _ ls); [|discriminate]. apply (IH _ _ _ _ _ _ H). grow.
  Qed.

  Section NSGA2.
    Variables (ps mg : nat) (cp mp ms eps : N) (lb ub : vec) (fs : list (vec -> N)) (stop : list (NSGA2.nev N) -> bool)
      (init : nat -> vec) (rnd : nat -> nat -> @NSGA2.draws N) (sortp : (vec -> vec -> bool) -> list vec -> list vec)
      (sorti : (nat -> nat -> bool) -> list nat -> list nat).
    Lemma nsga2_gens_grown t0 k : forall fuel gen lo hi x t s s',
      NSGA2.generations ps cp mp ms eps fs stop rnd sortp sorti k fuel gen lo hi x t s = NSGA2.NRet s' ->
      grown n_mark t0 (NSGA2.n_tr s) -> grown n_mark t0 (NSGA2.n_tr s').
    Proof.
      induction k as [|k IH]; intros fuel gen lo hi x t s s' H P; cbn [NSGA2.generations] in H; [inj H; exact P|].
      destruct t; [inj H; exact P|].
      destruct (NSGA2.generation _ _ _ _ _ _ _ _ _ fuel gen lo hi x s) as [s1| | |] eqn:F; try discriminate.
      apply (IH _ _ _ _ _ _ _ _ H). unfold NSGA2.generation in F.
      destruct (NSGA2.children _ _ _ _ _ _ _ _ _ _ _) as [cs| | |]; try discriminate. cbv zeta in F.
      destruct (Pareto.fnds _ _ _ _) as [[fr rk]|]; [|discriminate]. inj F. cbn [NSGA2.n_tr]. grow.
    Qed.
    Lemma nsga2_frame fuel x r : NSGA2.optimize ps mg cp mp ms eps lb ub fs stop init rnd sortp sorti fuel x = NSGA2.NRet r ->
      framed n_mark (NSGA2.NBegin x) (NSGA2.NEnd (NSGA2.r_x r)) (NSGA2.r_tr r).
    Proof.
      unfold NSGA2.optimize. intros H. destruct (_ && _); [discriminate|]. cbv zeta in H.
      destruct (NSGA2.generations _ _ _ _ _ _ _ _ _ _ _ _ _ _ _ _ _ _) as [s| | |] eqn:F; try discriminate.
      pose proof (nsga2_gens_grown [NSGA2.NBegin x] _ _ _ _ _ _ _ _ _ F (grown_refl _ _)) as K.
      destruct (NSGA2.n_fronts s) as [|[|i q] fr]; try discriminate.
      destruct (NSGA2.take_all (NSGA2.n_pop s) (i :: q)); [|discriminate].
      destruct (NSGA2.take_all (NSGA2.n_objs s) (i :: q)); [|discriminate]. inj H. apply frame. exact K.
    Qed.
  End NSGA2.

  Section MOEAD.
    Variables (ps mg : nat) (cp np : N) (ns : nat) (di dw : N) (mr : nat) (lb ub : vec) (app : vec -> vec -> vec -> N)
      (ws : list vec) (fs : list (vec -> N)) (stop : list (NSGA2.nev N) -> bool) (npow : N -> N -> N) (ssort : vec -> list nat)
      (init : nat -> vec) (shuf shuff : nat -> list nat) (rnd : nat -> nat -> @MOEAD.mdraws N).
    Lemma moead_child_tr rows lo hi nbr w sub s s' :
      MOEAD.one_child ps cp np ns di dw mr app ws fs npow rows lo hi nbr w sub s = Some s' -> MOEAD.m_tr s' = MOEAD.m_tr s.
    Proof.
      unfold MOEAD.one_child. intros H. cases H; inj H; reflexivity.
    Qed.
    Lemma moead_pass_tr rows lo hi nbr gen subs : forall j s s',
      MOEAD.pass ps cp np ns di dw mr app ws fs npow rnd rows lo hi nbr gen j subs s = Some s' -> MOEAD.m_tr s' = MOEAD.m_tr s.
    Proof.
      induction subs as [|a subs IH]; intros j s s' H; cbn [MOEAD.pass] in H; [inj H; reflexivity|].
      destruct (MOEAD.one_child _ _ _ _ _ _ _ _ _ _ _ _ _ _ _ _ _ _) as [s1|] eqn:F; [|discriminate].
      rewrite (IH _ _ _ H). exact (moead_child_tr _ _ _ _ _ _ _ _ F).
    Qed.
    Lemma moead_gens_grown t0 rows lo hi nbr x k : forall gen t s s',
      MOEAD.mgenerations ps cp np ns di dw mr app ws fs stop npow shuf shuff rnd k gen rows lo hi nbr x t s = Some s' ->
      grown n_mark t0 (MOEAD.m_tr s) -> grown n_mark t0 (MOEAD.m_tr s').
    Proof.
      induction k as [|k IH]; intros gen t s s' H P; cbn [MOEAD.mgenerations] in H; [inj H; exact P|].
      destruct t; [inj H; exact P|].
      destruct (MOEAD.pass _ _ _ _ _ _ _ _ _ _ _ _ _ _ _ _ _ _ _ _) as [s1|] eqn:F; [|discriminate].
      apply (IH _ _ _ _ H). cbn [MOEAD.m_tr]. rewrite (moead_pass_tr _ _ _ _ _ _ _ _ _ F). grow.
    Qed.
    Lemma moead_frame rows x r :
      MOEAD.moead ps mg cp np ns di dw mr lb ub app ws fs stop npow ssort init shuf shuff rnd rows x = NSGA2.NRet r ->
      framed n_mark (NSGA2.NBegin x) (NSGA2.NEnd (MOEAD.q_x r)) (MOEAD.q_tr r).
    Proof.
      unfold MOEAD.moead. intros H.
      do 3 (destruct (_ <? _); [discriminate|]). cbv zeta in H.
      destruct (MOEAD.all_some _) as [nbr|]; [|discriminate].
      destruct (MOEAD.mgenerations _ _ _ _ _ _ _ _ _ _ _ _ _ _ _ _ _ _ _ _ _ _ _ _) as [s|] eqn:F; [|discriminate].
      pose proof (moead_gens_grown [NSGA2.NBegin x] _ _ _ _ _ _ _ _ _ _ F (grown_refl _ _)) as K.
      destruct (MOEAD.m_pop s) as [|p0 pp]; [discriminate|].
      destruct (MOEAD.mperformance fs (MOEAD.m_fits s)); [|discriminate]. inj H. apply frame. exact K.
    Qed.
  End MOEAD.
End Other.
