(** BeginOptimization and EndOptimization: optimizers whose loops are iterated steps. *)
From Coq Require Import List Arith Bool Lia.
From Verif.Base Require Import Num Vec Loop.
From Verif.Model Require Import Common.
From Verif.Spec Require Import BracketSpec.
From Verif.Proof Require Import Bracket.
From Verif.Model Require Sgd Eve VarRed SVRG Sarah Katyusha BigBatch Spalera Lookahead IQN PrimalDual.
Import ListNotations.

Lemma Return_inj {A} (a b : A) : Sgd.Return a = Sgd.Return b -> b = a.
Proof. congruence. Qed.
Ltac inj H := first [apply Ret_inj in H | apply Some_inj in H | apply Return_inj in H]; first [subst | rewrite H].
Ltac if_cases := repeat match goal with |- grown _ _ (if ?b then _ else _) => destruct b end.

Section SGD.
  Import Sgd.
  Context {N : Num} {X G U D : Type}.
  Variables (c : Cfg N X G U D) (f : SepFun N X G) (cb : Callbacks N X G).
  Notation K := (grown (@sgd_mark N X G)).
  Definition sgd_exit t0 (e : exit) : Prop := match e with Xloop s | Xret s => K t0 (s_tr (U := U) (D := D) s) | Xub => True end.
  Lemma sgd_body_grown t0 s : K t0 (s_tr s) -> match body c f cb s with inl s' => K t0 (s_tr s') | inr e => sgd_exit t0 e end.
  Proof.
    intros P. unfold body. destruct (negb _); [exact P|].
    destruct (sf_evalgrad f _ _ _ _) as [obj g]. destruct (c_up c _ _ _ _) as [u' x']. destruct (c_dp c _ _ _ _) as [d' step'].
    cbv zeta. destruct (sf_num f =? 0); [exact I|].
    destruct (_ =? 0); [|cbn; grow]. unfold epoch_end. cbv zeta. cbn [s_tr s_x s_epoch s_overall s_last].
    destruct (nisnan _ || _); [cbn; grow|]. destruct (nlt _ _); [cbn; grow|]. cbn. if_cases; grow.
  Qed.
  Lemma sgd_exact_grown t0 k : forall sh x i acc tr v tr', exact_loop c f k sh x i acc tr = Some (v, tr') -> K t0 tr -> K t0 tr'.
  Proof.
    induction k as [|k IH]; intros sh x i acc tr v tr' H P; cbn [exact_loop] in H; destruct (i <? sf_num f); try discriminate.
    - injection H as _ <-. exact P.
    - apply (IH _ _ _ _ _ _ _ H). grow.
    - injection H as _ <-. exact P.
  Qed.
  Lemma sgd_frame fuel u d step x r : optimize_with c f cb fuel u d step x = Return r ->
    framed sgd_mark (BeginOpt x) (EndOpt (r_x r)) (r_trace r).
  Proof.
    unfold optimize_with. intros H.
    assert (P0 : K [BeginOpt x] (s_tr (init (U := U) (D := D) cb x u d step))) by (cbn; grow).
    pose proof (loop_inv (body c f cb) (fun s => K [BeginOpt x] (s_tr s)) (sgd_exit [BeginOpt x])
      (fun s => sgd_body_grown _ s) fuel _ P0) as L.
    destruct (loop (body c f cb) fuel _) as [s|[s|s|]]; try discriminate; cbn [sgd_exit] in L.
    - destruct (c_exact c).
      + destruct (exact_loop c f fuel (s_shuf s) (s_x s) 0 n0 (s_tr s)) as [[v tr]|] eqn:E; [|discriminate].
        inj H. apply frame. exact (sgd_exact_grown _ _ _ _ _ _ _ _ _ E L).
      + inj H. apply frame. exact L.
    - inj H. apply frame. exact L.
  Qed.
End SGD.

Section Eve.
  Import Sgd Eve.
  Context {N : Num}.
  Variables (pw : N -> nat -> N) (c : @ecfg N) (f : SepFun N (list N) (list N)) (cb : Callbacks N (list N) (list N)).
  Notation K := (grown (@sgd_mark N (list N) (list N))).
  Definition eve_exit t0 (e : eexit) : Prop := match e with Eloop s | Eret s => K t0 (v_tr s) | Eub => True end.
  Lemma eve_body_grown t0 s : K t0 (v_tr s) -> match eve_body pw c f cb s with inl s' => K t0 (v_tr s') | inr e => eve_exit t0 e end.
  Proof.
    intros P. unfold eve_body. destruct (negb _); [exact P|].
    destruct (sf_evalgrad f _ _ _ _) as [obj g]. cbv zeta.
    destruct (v_term s || _); [cbn; grow|]. destruct (sf_num f =? 0); [exact I|].
    destruct (_ =? 0); [|cbn; grow]. unfold eve_epoch_end. cbv zeta. cbn [v_tr v_x v_epoch v_overall v_lastall v_term v_i].
    destruct (nisnan _ || _); [cbn; grow|]. destruct (nlt _ _); [cbn; grow|]. cbn. if_cases; grow.
  Qed.
  Lemma eve_exact_grown t0 k : forall sh x i acc tr v tr', eve_exact c f k sh x i acc tr = Some (v, tr') -> K t0 tr -> K t0 tr'.
  Proof.
    induction k as [|k IH]; intros sh x i acc tr v tr' H P; cbn [eve_exact] in H; destruct (i <? sf_num f); try discriminate.
    - injection H as _ <-. exact P.
    - apply (IH _ _ _ _ _ _ _ H). grow.
    - injection H as _ <-. exact P.
  Qed.
  Lemma eve_frame fuel x r : eve_optimize pw c f cb fuel x = Return r ->
    framed sgd_mark (BeginOpt x) (EndOpt (er_x r)) (er_trace r).
  Proof.
    unfold eve_optimize. intros H.
    assert (P0 : K [BeginOpt x] (v_tr (eve_init x))) by (cbn; grow).
    pose proof (loop_inv (eve_body pw c f cb) (fun s => K [BeginOpt x] (v_tr s)) (eve_exit [BeginOpt x])
      (fun s => eve_body_grown _ s) fuel _ P0) as L.
    destruct (loop (eve_body pw c f cb) fuel _) as [s|[s|s|]]; try discriminate; cbn [eve_exit] in L.
    - destruct (e_exact c).
      + destruct (eve_exact c f fuel (v_shuf s) (v_x s) 0 n0 (v_tr s)) as [[v tr]|] eqn:E; [|discriminate].
        inj H. cbn [er_x er_trace]. apply frame. exact (eve_exact_grown _ _ _ _ _ _ _ _ _ E L).
      + inj H. cbn [er_x er_trace]. apply frame. exact L.
    - inj H. cbn [er_x er_trace]. apply frame. exact L.
  Qed.
End Eve.

Section VR.
  Import VarRed SVRG.
  Context {N : Num}.
  Variables (f : VFun N) (cb : VCB N) (b : nat).
  Notation K := (grown (@v_mark N)).
  Lemma eval_pass_grown t0 k : forall x i acc t tr v t' tr', eval_pass f cb b k x i acc t tr = Some (v, t', tr') -> K t0 tr -> K t0 tr'.
  Proof.
    induction k as [|k IH]; intros x i acc t tr v t' tr' H P; cbn [eval_pass] in H; destruct (i <? vf_num f); try discriminate.
    - injection H as _ _ <-. exact P.
    - apply (IH _ _ _ _ _ _ _ _ H). grow.
    - injection H as _ _ <-. exact P.
  Qed.
  Lemma grad_at_grown t0 x i c t tr g g' t' tr' : grad_at f cb x i c t tr = (g, g', t', tr') -> K t0 tr -> K t0 tr'.
  Proof. unfold grad_at. intros H P. injection H as _ _ _ <-. grow. Qed.
  Lemma grad_pass_grown t0 m k : forall x i acc t tr v t' tr', grad_pass f cb b m k x i acc t tr = Some (v, t', tr') -> K t0 tr -> K t0 tr'.
  Proof.
    induction k as [|k IH]; intros x i acc t tr v t' tr' H P; cbn [grad_pass] in H; destruct (i <? vf_num f); try discriminate.
    - injection H as _ _ <-. exact P.
    - destruct m.
      + destruct (grad_at f cb x i _ t tr) as [[[g g'] t1] tr1] eqn:E. apply (IH _ _ _ _ _ _ _ _ H). exact (grad_at_grown _ _ _ _ _ _ _ _ _ _ E P).
      + destruct (grad_at f cb x i _ t tr) as [[[g g'] t1] tr1] eqn:E. apply (IH _ _ _ _ _ _ _ _ H). exact (grad_at_grown _ _ _ _ _ _ _ _ _ _ E P).
      + apply (IH _ _ _ _ _ _ _ _ H). grow.
    - injection H as _ _ <-. exact P.
  Qed.
  Lemma full_gradient_grown t0 m k x1 x t tr v t' tr' : full_gradient f cb b m k x1 x t tr = Some (v, t', tr') -> K t0 tr -> K t0 tr'.
  Proof.
    unfold full_gradient. intros H P. destruct (grad_at f cb x1 0 _ t tr) as [[[g g'] t1] tr1] eqn:E.
    destruct (grad_pass f cb b m k x _ g' t1 tr1) as [[[s t2] tr2]|] eqn:F; [|discriminate]. injection H as _ _ <-.
    exact (grad_pass_grown _ _ _ _ _ _ _ _ _ _ _ F (grad_at_grown _ _ _ _ _ _ _ _ _ _ E P)).
  Qed.

  Section SVRG.
    Context {D : Type}.
    Variables (max : nat) (tol : N) (shuffle exactO : bool) (dp : D -> list N -> list N -> list N -> nat -> N -> D * N).
    Definition svrg_iexit t0 (o : option (@ist N)) : Prop := match o with Some s => K t0 (i_tr s) | None => True end.
    Lemma svrg_ibody_grown t0 inner x0 full eta s : K t0 (i_tr s) ->
      match ibody f cb b shuffle inner x0 full eta s with inl s' => K t0 (i_tr s') | inr e => svrg_iexit t0 e end.
    Proof.
      intros P. unfold ibody. destruct (negb _); [exact P|]. destruct (vf_num f =? 0); [exact I|].
      destruct (if i_cur s mod vf_num f =? 0 then _ else _) as [cur tr] eqn:E.
      assert (P1 : K t0 tr) by (destruct (_ =? 0); injection E as _ <-; [destruct shuffle; grow|exact P]). cbv zeta.
      destruct (grad_at f cb (i_x s) cur _ (i_term s) tr) as [[[g0 g] t1] tr1] eqn:E1.
      pose proof (grad_at_grown t0 _ _ _ _ _ _ _ _ _ E1 P1) as P2.
      destruct (grad_at f cb x0 cur _ t1 tr1) as [[[g0' g'] t2] tr2] eqn:E2.
      pose proof (grad_at_grown t0 _ _ _ _ _ _ _ _ _ E2 P2) as P3.
      destruct t2; [exact P3|]. cbn. grow.
    Qed.
    Definition svrg_exit t0 (e : @sexit N D) : Prop := match e with SDone s | SConv s => K t0 (s_tr s) | _ => True end.
    Lemma svrg_body_grown t0 fuel inner s : K t0 (s_tr s) ->
      match sbody f cb b max tol shuffle dp fuel inner s with inl s' => K t0 (s_tr s') | inr e => svrg_exit t0 e end.
    Proof.
      intros P. unfold sbody. destruct (negb _); [exact P|].
      destruct (eval_pass f cb b fuel (s_x s) 0 n0 (s_term s) (s_tr s)) as [[[ov t] tr]|] eqn:E; [|exact I].
      pose proof (eval_pass_grown t0 _ _ _ _ _ _ _ _ _ E P) as P1. cbv zeta.
      destruct t; [exact P1|]. destruct (nisnan ov || _ || _); [exact P1|].
      destruct (full_gradient f cb b Hooked fuel (s_x s) (s_x s) false tr) as [[[full t] tr1]|] eqn:F; [|exact I].
      pose proof (full_gradient_grown t0 _ _ _ _ _ _ _ _ _ F P1) as P2.
      destruct t; [exact P2|].
      match goal with |- context [loop ?bd fuel ?s0] =>
        pose proof (loop_inv bd (fun s => K t0 (i_tr s)) (svrg_iexit t0) (fun s => svrg_ibody_grown t0 inner _ _ _ s) fuel s0 P2) as L;
        destruct (loop bd fuel s0) as [|[t|]]; try exact I end.
      cbn in L. destruct (dp _ _ _ _ _ _) as [d eta]. exact L.
    Qed.
    Lemma svrg_frame fuel inner d eta x r : svrg f cb b max tol shuffle exactO dp fuel inner d eta x = Ret r ->
      framed v_mark (VBegin x) (VEnd (vr_x r)) (vr_tr r).
    Proof.
      unfold svrg. intros H. destruct (b =? 0); [discriminate|].
      match type of H with context [loop ?bd fuel ?s0] =>
        pose proof (loop_inv bd (fun s => K [VBegin x] (s_tr s)) (svrg_exit [VBegin x]) (fun s => svrg_body_grown _ fuel _ s) fuel s0 (grown_refl _ _)) as L;
        destruct (loop bd fuel s0) as [|[s|s| |]]; try discriminate; cbn [svrg_exit] in L end.
      - destruct exactO.
        + destruct (eval_pass f cb b fuel (s_x s) 0 n0 false (s_tr s)) as [[[v t] tr]|] eqn:E; [|discriminate].
          inj H. cbn [vr_x vr_tr]. apply frame. exact (eval_pass_grown _ _ _ _ _ _ _ _ _ _ E L).
        + inj H. cbn [vr_x vr_tr]. apply frame. exact L.
      - inj H. cbn [vr_x vr_tr]. apply frame. exact L.
    Qed.
  End SVRG.

  Section SARAH.
    Import Sarah.
    Variables (max : nat) (tol : N) (shuffle exactO : bool) (eta : N) (norm : list N -> N) (early : list N -> N -> bool).
    Definition sarah_iexit t0 (o : option (@qst N)) : Prop := match o with Some s => K t0 (q_tr s) | None => True end.
    Lemma sarah_qbody_grown t0 inner vn s : K t0 (q_tr s) ->
      match qbody f cb b shuffle eta early inner vn s with inl s' => K t0 (q_tr s') | inr e => sarah_iexit t0 e end.
    Proof.
      intros P. unfold qbody. destruct (negb _); [exact P|]. destruct (vf_num f =? 0); [exact I|].
      destruct (if q_cur s mod vf_num f =? 0 then _ else _) as [cur tr] eqn:E.
      assert (P1 : K t0 tr) by (destruct (_ =? 0); injection E as _ <-; [destruct shuffle; grow|exact P]). cbv zeta.
      destruct (grad_at f cb (q_x s) cur _ (q_term s) tr) as [[[g0 g] t1] tr1] eqn:E1.
      pose proof (grad_at_grown t0 _ _ _ _ _ _ _ _ _ E1 P1) as P2.
      destruct (if 0 <? q_f s then _ else _) as [[[g0' g'] t2] tr2] eqn:E2.
      assert (P3 : K t0 tr2).
      { destruct (0 <? q_f s); [exact (grad_at_grown t0 _ _ _ _ _ _ _ _ _ E2 P2)|]. injection E2 as _ _ _ <-. exact P2. }
      destruct t2; [exact P3|]. destruct (early _ _); [exact P3|]. cbn. grow.
    Qed.
    Definition sarah_exit t0 (e : @aexit N) : Prop := match e with ADone s | AConv s => K t0 (a_tr s) | _ => True end.
    Lemma sarah_body_grown t0 fuel inner s : K t0 (a_tr s) ->
      match abody f cb b max tol shuffle eta norm early fuel inner s with inl s' => K t0 (a_tr s') | inr e => sarah_exit t0 e end.
    Proof.
      intros P. unfold abody. destruct (negb _); [exact P|].
      destruct (eval_pass f cb b fuel (a_x s) 0 n0 (a_term s) (a_tr s)) as [[[ov t] tr]|] eqn:E; [|exact I].
      pose proof (eval_pass_grown t0 _ _ _ _ _ _ _ _ _ E P) as P1. cbv zeta.
      destruct (nisnan ov || _ || _); [exact P1|].
      destruct (full_gradient f cb b Quiet fuel (a_x s) (a_x s) t tr) as [[[full t1] tr1]|] eqn:F; [|exact I].
      pose proof (full_gradient_grown t0 _ _ _ _ _ _ _ _ _ F P1) as P2.
      destruct t1; [exact P2|].
      match goal with |- context [loop ?bd fuel ?s0] =>
        pose proof (loop_inv bd (fun s => K t0 (q_tr s)) (sarah_iexit t0) (fun s => sarah_qbody_grown t0 inner _ s) fuel s0 P2) as L;
        destruct (loop bd fuel s0) as [|[t2|]]; try exact I end.
      exact L.
    Qed.
    Lemma sarah_frame fuel inner x r : sarah f cb b max tol shuffle exactO eta norm early fuel inner x = Ret r ->
      framed v_mark (VBegin x) (VEnd (vr_x r)) (vr_tr r).
    Proof.
      unfold sarah. intros H.
      match type of H with context [loop ?bd fuel ?s0] =>
        pose proof (loop_inv bd (fun s => K [VBegin x] (a_tr s)) (sarah_exit [VBegin x]) (fun s => sarah_body_grown _ fuel _ s) fuel s0 (grown_refl _ _)) as L;
        destruct (loop bd fuel s0) as [|[s|s| |]]; try discriminate; cbn [sarah_exit] in L end.
      - destruct exactO.
        + destruct (eval_pass f cb b fuel (a_x s) 0 n0 false (a_tr s)) as [[[v t] tr]|] eqn:E; [|discriminate].
          inj H. cbn [vr_x vr_tr]. apply frame. exact (eval_pass_grown _ _ _ _ _ _ _ _ _ _ E L).
        + inj H. cbn [vr_x vr_tr]. apply frame. exact L.
      - inj H. cbn [vr_x vr_tr]. apply frame. exact L.
    Qed.
  End SARAH.

  Section Katyusha.
    Import Katyusha.
    Variables (prox : bool) (cv lip : N) (max : nat) (tol : N) (shuffle exactO : bool).
    Definition kat_iexit t0 (o : option (@kst N)) : Prop := match o with Some s => K t0 (k_tr s) | None => True end.
    Lemma kat_kbody_grown t0 inner x0 full s : K t0 (k_tr s) ->
      match kbody f cb prox cv lip b shuffle inner x0 full s with inl s' => K t0 (k_tr s') | inr e => kat_iexit t0 e end.
    Proof.
      intros P. unfold kbody. destruct (negb _); [exact P|]. destruct (vf_num f =? 0); [exact I|].
      destruct (if k_cur s mod vf_num f =? 0 then _ else _) as [cur tr] eqn:E.
      assert (P1 : K t0 tr) by (destruct (_ =? 0); injection E as _ <-; [destruct shuffle; grow|exact P]). cbv zeta.
      match goal with |- context [grad_at f cb ?x cur ?c ?t ?h] => destruct (grad_at f cb x cur c t h) as [[[g0 g] t1] tr1] eqn:E1 end.
      assert (P2 : K t0 tr1) by (apply (grad_at_grown t0 _ _ _ _ _ _ _ _ _ E1); grow).
      destruct (grad_at f cb x0 cur _ t1 tr1) as [[[g0' g'] t2] tr2] eqn:E2.
      exact (grad_at_grown t0 _ _ _ _ _ _ _ _ _ E2 P2).
    Qed.
    Definition kat_exit t0 (e : @hexit N) : Prop := match e with HDone s | HConv s => K t0 (h_tr s) | _ => True end.
    Lemma kat_body_grown t0 fuel inner s : K t0 (h_tr s) ->
      match hbody f cb prox cv lip b max tol shuffle fuel inner s with inl s' => K t0 (h_tr s') | inr e => kat_exit t0 e end.
    Proof.
      intros P. unfold hbody. destruct (negb _); [exact P|].
      destruct (eval_pass f cb b fuel (h_x0 s) 0 n0 (h_term s) (h_tr s)) as [[[ov t] tr]|] eqn:E; [|exact I].
      pose proof (eval_pass_grown t0 _ _ _ _ _ _ _ _ _ E P) as P1. cbv zeta.
      destruct (nisnan ov || _ || _); [exact P1|].
      destruct (full_gradient f cb b Before fuel (h_x s) (h_x0 s) t tr) as [[[full t1] tr1]|] eqn:F; [|exact I].
      pose proof (full_gradient_grown t0 _ _ _ _ _ _ _ _ _ F P1) as P2.
      match goal with |- context [loop ?bd fuel ?s0] =>
        pose proof (loop_inv bd (fun s => K t0 (k_tr s)) (kat_iexit t0) (fun s => kat_kbody_grown t0 inner _ _ s) fuel s0 P2) as L;
        destruct (loop bd fuel s0) as [|[t2|]]; try exact I end.
      exact L.
    Qed.
    Lemma kat_frame fuel inner x r : katyusha f cb prox cv lip b max tol shuffle exactO fuel inner x = Ret r ->
      framed v_mark (VBegin x) (VEnd (vr_x r)) (vr_tr r).
    Proof.
      unfold katyusha. intros H. destruct (b =? 0); [discriminate|].
      match type of H with context [loop ?bd fuel ?s0] =>
        pose proof (loop_inv bd (fun s => K [VBegin x] (h_tr s)) (kat_exit [VBegin x]) (fun s => kat_body_grown _ fuel _ s) fuel s0 (grown_refl _ _)) as L;
        destruct (loop bd fuel s0) as [|[s|s| |]]; try discriminate; cbn [kat_exit] in L end.
      - destruct exactO.
        + destruct (eval_pass f cb b fuel (h_x s) 0 n0 false (h_tr s)) as [[[v t] tr]|] eqn:E; [|discriminate].
          inj H. cbn [vr_x vr_tr]. apply frame. exact (eval_pass_grown _ _ _ _ _ _ _ _ _ _ E L).
        + inj H. cbn [vr_x vr_tr]. apply frame. exact L.
      - inj H. cbn [vr_x vr_tr]. apply frame. exact L.
    Qed.
  End Katyusha.

  Section IQN.
    Variables (solve : nat -> (nat -> nat -> N) -> list N -> option (list N)) (norm : list N -> N) (eta : N) (max : nat) (tol : N) (rows : nat).
    Lemma iqn_init_grown t0 k : forall x i gs t tr ys gs' t' tr',
      IQN.init_pass f cb b k x i gs t tr = Ret (ys, gs', t', tr') -> K t0 tr -> K t0 tr'.
    Proof.
      induction k as [|k IH]; intros x i gs t tr ys gs' t' tr' H P; cbn [IQN.init_pass] in H; destruct (i <? vf_num f); try discriminate.
      - injection H as _ _ _ <-. exact P.
      - cbv zeta in H. destruct (negb _); [discriminate|].
        destruct (IQN.init_pass f cb b k x _ _ _ _) as [[[[ys1 gs1] t1] tr1]| |] eqn:E; try discriminate. injection H as _ _ _ <-.
        apply (IH _ _ _ _ _ _ _ _ _ E). grow.
      - injection H as _ _ _ <-. exact P.
    Qed.
    Lemma iqn_inner_grown t0 k : forall j d x st t tr x' st' t' tr',
      IQN.inner solve norm f cb eta b rows k j d x st t tr = Ret (x', st', t', tr') -> K t0 tr -> K t0 tr'.
    Proof.
      induction k as [|k IH]; intros j d x st t tr x' st' t' tr' H P; cbn [IQN.inner] in H; destruct (d <? vf_num f); try discriminate.
      - injection H as _ _ _ <-. exact P.
      - cbv zeta in H. destruct (IQN.still _ _ _ _); [exact (IH _ _ _ _ _ _ _ _ _ _ H P)|].
        destruct (negb _); [discriminate|].
        destruct (IQN.move _ _ _ _ _ _ _ _ _) as [[x1 st1]|]; [|discriminate]. apply (IH _ _ _ _ _ _ _ _ _ _ H). grow.
      - injection H as _ _ _ <-. exact P.
    Qed.
    Definition iqn_exit t0 (e : @IQN.iexit N) : Prop := match e with IQN.IDone s | IQN.IEnd s => K t0 (IQN.v_tr s) | _ => True end.
    Lemma iqn_body_grown t0 fuel s : K t0 (IQN.v_tr s) ->
      match IQN.ibody solve norm f cb eta b max tol rows fuel s with inl s' => K t0 (IQN.v_tr s') | inr e => iqn_exit t0 e end.
    Proof.
      intros P. unfold IQN.ibody. destruct (negb _); [exact P|].
      destruct (IQN.inner _ _ _ _ _ _ _ fuel 0 0 _ _ _ _) as [[[[x st] t] tr]| |] eqn:E; try exact I.
      pose proof (iqn_inner_grown t0 _ _ _ _ _ _ _ _ _ _ _ E P) as P1.
      destruct (eval_pass f cb b fuel x 0 n0 t tr) as [[[ov t1] tr1]|] eqn:F; [|exact I].
      pose proof (eval_pass_grown t0 _ _ _ _ _ _ _ _ _ F P1) as P2. cbv zeta.
      destruct (nisnan _ || _ || _); exact P2.
    Qed.
    Lemma iqn_frame fuel init x r : IQN.iqn solve norm f cb eta b max tol rows fuel init x = Ret r ->
      exists pre, framed_after v_mark pre (VBegin x) (VEnd (IQN.ir_x r)) (IQN.ir_tr r).
    Proof.
      unfold IQN.iqn. intros H. destruct (_ || _); [discriminate|].
      destruct (IQN.init_pass f cb b fuel init 0 _ false []) as [[[[ys gs] t] tr]| |] eqn:E; try discriminate.
      pose proof (iqn_init_grown [] _ _ _ _ _ _ _ _ _ _ E (grown_refl _ _)) as P. cbv zeta in H. exists (rev tr).
      match type of H with context [loop ?bd fuel ?s0] =>
        pose proof (loop_inv bd (fun s => K (VBegin x :: tr) (IQN.v_tr s)) (iqn_exit (VBegin x :: tr)) (fun s => iqn_body_grown _ fuel s) fuel s0 (grown_refl _ _)) as L;
        destruct (loop bd fuel s0) as [|[s|s| |]]; try discriminate; cbn [iqn_exit] in L end;
      inj H; cbn [IQN.ir_x IQN.ir_tr]; apply frame_after; try exact L; apply grown_plain, P.
    Qed.
  End IQN.
End VR.

Section BB.
  Import VarRed BigBatch.
  Context {N : Num}.
  Variables (f : VFun N) (cb : BCB N) (pol : bpolicy N) (max : nat) (tol : N) (shuffle exactO : bool) (norm : list N -> N) (offset : nat -> nat).
  Notation K := (grown (@b_mark N)).
  Lemma bb_sample_grown t0 x i k s : K t0 (e_tr s) -> K t0 (e_tr (sample f cb norm x i k s)).
  Proof. intros P. unfold sample, bgrad. cbn [e_tr]. grow. Qed.
  Lemma bb_samples_grown t0 x c : forall i k s, K t0 (e_tr s) -> K t0 (e_tr (samples f cb norm x i k c s)).
  Proof. induction c as [|c IH]; intros i k s P; cbn [samples]; [exact P|]. apply IH, bb_sample_grown, P. Qed.
  Lemma bb_grow_grown t0 x cf k : forall bs c j gB r s bs' c' gB' r' s',
    grow f cb norm offset k x cf bs c j gB r s = Some (bs', c', gB', r', s') -> K t0 (e_tr s) -> K t0 (e_tr s').
  Proof.
    induction k as [|k IH]; intros bs c j gB r s bs' c' gB' r' s' H P; cbn [BigBatch.grow] in H; cbv zeta in H.
    - destruct (noisy _ _ _); [destruct (_ <=? _); [|discriminate]|]; injection H as _ _ _ _ <-; exact P.
    - destruct (noisy _ _ _); [destruct (_ <=? _)|].
      + injection H as _ _ _ _ <-; exact P.
      + apply (IH _ _ _ _ _ _ _ _ _ _ _ H). apply bb_samples_grown, P.
      + injection H as _ _ _ _ <-; exact P.
  Qed.
  Lemma bb_search_grown t0 sh sp x g gB cf c obj k : forall eta tr eta' tr', search f k sh sp x g gB cf c obj eta tr = Some (eta', tr') -> K t0 tr -> K t0 tr'.
  Proof.
    induction k as [|k IH]; intros eta tr eta' tr' H P; cbn [search] in H; unfold quiet in H.
    - destruct (nlt _ _); [discriminate|]. injection H as _ <-. grow.
    - destruct (nlt _ _); [apply (IH _ _ _ _ H); grow|]. injection H as _ <-. grow.
  Qed.
  Lemma bb_backtrack_grown t0 k sh sp x g gB cf c eta tr eta' tr' : backtrack f k sh sp x g gB cf c eta tr = Some (eta', tr') -> K t0 tr -> K t0 tr'.
  Proof. unfold backtrack, quiet. intros H P. apply (bb_search_grown _ _ _ _ _ _ _ _ _ _ _ _ _ _ H). grow. Qed.
  Lemma bb_regrad_grown t0 x prev c : forall i k s, K t0 (o_tr s) -> K t0 (o_tr (regrad f norm x prev i k c s)).
  Proof. induction c as [|c IH]; intros i k s P; cbn [regrad]; [exact P|]. unfold bgradq. apply IH. cbn [o_tr]. grow. Qed.
  Lemma bb_update_grown t0 fuel prev eta x g gB cf bs c reset tr prev' eta' x' g' tr' :
    update f pol norm fuel prev eta x g gB cf bs c reset tr = Some (prev', eta', x', g', tr') -> K t0 tr -> K t0 tr'.
  Proof.
    unfold update. intros H P. destruct pol as [sp|bts sp].
    - destruct (backtrack _ _ _ _ _ _ _ _ _ _ tr) as [[e t]|] eqn:E; [|discriminate]. injection H as _ _ _ _ <-.
      exact (bb_backtrack_grown _ _ _ _ _ _ _ _ _ _ _ _ _ E P).
    - destruct (backtrack _ _ _ _ _ _ _ _ _ _ tr) as [[e t]|] eqn:E; [|discriminate].
      pose proof (bb_backtrack_grown t0 _ _ _ _ _ _ _ _ _ _ _ _ E P) as P1. unfold bgradq in H. cbv zeta in H.
      match type of H with context [regrad f norm ?x ?p ?i ?k ?c ?s] => assert (P2 : K t0 (o_tr (regrad f norm x p i k c s))) by (apply bb_regrad_grown; cbn [o_tr]; grow) end.
      destruct (backtrack _ _ _ _ _ _ _ _ _ _ (o_tr _)) as [[e2 t2]|] eqn:E2; [|discriminate]. injection H as _ _ _ _ <-.
      exact (bb_backtrack_grown _ _ _ _ _ _ _ _ _ _ _ _ _ E2 P2).
  Qed.
  Definition bb_exit t0 (e : @bexit N) : Prop := match e with BDone s | BConv s => K t0 (b_tr s) | _ => True end.
  Lemma bb_body_grown t0 fuel s : K t0 (b_tr s) ->
    match bbody f cb pol max tol shuffle norm offset fuel s with inl s' => K t0 (b_tr s') | inr e => bb_exit t0 e end.
  Proof.
    intros P. unfold bbody. destruct (negb _); [exact P|]. destruct (vf_num f =? 0); [exact I|]. unfold bgrad. cbv zeta.
    match goal with |- context [samples f cb norm ?x ?i ?k ?c ?s1] =>
      assert (P1 : K t0 (e_tr (samples f cb norm x i k c s1))) by (apply bb_samples_grown; cbn [e_tr]; grow) end.
    match goal with |- match (match ?m with Some _ => _ | None => _ end) with _ => _ end => destruct m as [[[[[bs c] gB] reset] e]|] eqn:E; [|exact I] end.
    assert (P2 : K t0 (e_tr e)).
    { destruct (_ =? b_bs s); [exact (bb_grow_grown _ _ _ _ _ _ _ _ _ _ _ _ _ _ _ E P1)|]. injection E as _ _ _ _ <-. exact P1. }
    destruct (e_term e); [exact P2|].
    destruct (update _ _ _ _ _ _ _ _ _ _ _ _ _ _) as [[[[[prev eta] x] g] tr]|] eqn:F; [|exact I].
    pose proof (bb_update_grown t0 _ _ _ _ _ _ _ _ _ _ _ _ _ _ _ _ F P2) as P3.
    destruct (negb _); [cbn; grow|]. destruct (nisnan _ || _ || _); [cbn; grow|]. cbn. if_cases; grow.
  Qed.
  Lemma bb_final_grown t0 x bs k : forall i acc tr v tr', final_pass f k x bs i acc tr = Some (v, tr') -> K t0 tr -> K t0 tr'.
  Proof.
    induction k as [|k IH]; intros i acc tr v tr' H P; cbn [final_pass] in H; destruct (i <? vf_num f); try discriminate.
    - injection H as _ <-. exact P.
    - apply (IH _ _ _ _ _ H). grow.
    - injection H as _ <-. exact P.
  Qed.
  Lemma bb_frame fuel bs eta prev x r : bigbatch f cb pol max tol shuffle exactO norm offset fuel bs eta prev x = Ret r ->
    framed b_mark (BBegin x) (BEnd (br_x r)) (br_tr r).
  Proof.
    unfold bigbatch. intros H.
    match type of H with context [loop ?bd fuel ?s0] =>
      pose proof (loop_inv bd (fun s => K [BBegin x] (b_tr s)) (bb_exit [BBegin x]) (fun s => bb_body_grown _ fuel s) fuel s0 (grown_refl _ _)) as L;
      destruct (loop bd fuel s0) as [|[s|s| |]]; try discriminate; cbn [bb_exit] in L end.
    - destruct exactO.
      + destruct (final_pass f fuel (b_x s) (b_bs s) 0 n0 (b_tr s)) as [[v tr]|] eqn:E; [|discriminate].
        inj H. cbn [br_x br_tr]. apply frame. exact (bb_final_grown _ _ _ _ _ _ _ _ _ E L).
      + inj H. cbn [br_x br_tr]. apply frame. exact L.
    - inj H. cbn [br_x br_tr]. apply frame. exact L.
  Qed.
End BB.

Section SP.
  Import VarRed Spalera.
  Context {N : Num} {D : Type}.
  Variables (npow : N -> nat -> N) (nexp : N -> N) (tiny alpha epsilon rate : N) (f : VFun N) (cb : PCB N) (b max : nat) (tol lambda : N)
    (shuffle exactO : bool) (decay : D -> list N -> N -> list N -> D * N).
  Notation K := (grown (@p_mark N)).
  Lemma sp_pass_grown t0 k : forall x i acc t tr v t' tr', pass f cb b k x i acc t tr = Some (v, t', tr') -> K t0 tr -> K t0 tr'.
  Proof.
    induction k as [|k IH]; intros x i acc t tr v t' tr' H P; cbn [pass] in H; destruct (i <? vf_num f); try discriminate.
    - injection H as _ _ <-. exact P.
    - apply (IH _ _ _ _ _ _ _ _ H). grow.
    - injection H as _ _ <-. exact P.
  Qed.
  Definition sp_exit t0 (e : @lexit N D) : Prop := match e with LDone s | LConv s | LFail s => K t0 (l_tr s) | LBad => True end.
  Lemma sp_body_grown t0 lam s : K t0 (l_tr s) ->
    match pbody npow nexp tiny alpha epsilon rate f cb b max tol shuffle decay lam s with inl s' => K t0 (l_tr s') | inr e => sp_exit t0 e end.
  Proof.
    intros P. unfold pbody. destruct (negb _); [exact P|]. destruct (vf_num f =? 0); [exact I|]. cbv zeta.
    destruct (pc_stop cb _); [cbn; grow|].
    destruct (update _ _ _ _ _ _ _ _ _ _ _ _ _ _) as [[[x [|]] pol]|]; [| cbn; grow | exact I].
    destruct (decay _ _ _ _) as [d eta].
    destruct (negb _); [cbn; grow|]. destruct (nisnan _ || _ || _); [cbn; grow|]. cbn. if_cases; grow.
  Qed.
  Lemma sp_frame fuel old eta d x r : spalera npow nexp tiny alpha epsilon rate f cb b max tol lambda shuffle exactO decay fuel old eta d x = Ret r ->
    framed p_mark (PBegin x) (PEnd (pr_x r)) (pr_tr r).
  Proof.
    unfold spalera. intros H.
    destruct (pass f cb b fuel x 0 n0 false [PBegin x]) as [[[ov t] tr]|] eqn:E; [|discriminate].
    pose proof (sp_pass_grown [PBegin x] _ _ _ _ _ _ _ _ _ E (grown_refl _ _)) as P.
    destruct (match old with None => _ | Some q => q end) as [pol lam]. cbv zeta in H.
    match type of H with context [loop ?bd fuel ?s0] =>
      assert (P0 : K [PBegin x] (l_tr s0)) by (cbn [l_tr]; grow);
      pose proof (loop_inv bd (fun s => K [PBegin x] (l_tr s)) (sp_exit [PBegin x]) (fun s => sp_body_grown _ lam s) fuel s0 P0) as L;
      destruct (loop bd fuel s0) as [|[s|s|s|]]; try discriminate; cbn [sp_exit] in L end.
    - destruct exactO.
      + destruct (pass f cb b fuel (l_x s) 0 n0 false (l_tr s)) as [[[v t1] tr1]|] eqn:F; [|discriminate].
        inj H. cbn [pr_x pr_tr]. apply frame. exact (sp_pass_grown _ _ _ _ _ _ _ _ _ _ F L).
      + inj H. cbn [pr_x pr_tr]. apply frame. exact L.
    - inj H. cbn [pr_x pr_tr]. apply frame. exact L.
    - inj H. cbn [pr_x pr_tr]. apply frame. exact L.
  Qed.
End SP.

Section LA.
  Import Lookahead.
  Context {N : Num} {B D E : Type}.
  Variables (base : nat -> B -> list (lev N E) -> list N -> option (B * list N * N * list E)) (has_max : bool) (base_max k max : nat) (tol : N)
    (exactO : bool) (dp : D -> list N -> N -> list N -> D * N) (nf bs : nat) (feval : list (lev N E) -> list N -> nat -> nat -> N)
    (stop : list (lev N E) -> bool).
  Notation K := (grown (@l_mark N E)).
  Definition la_exit t0 (e : @lexit N B D E) : Prop := match e with LDone s | LConv s => K t0 (l_tr s) | LHang => True end.
  Lemma la_body_grown t0 s : K t0 (l_tr s) ->
    match lbody base has_max base_max k max tol dp stop s with inl s' => K t0 (l_tr s') | inr e => la_exit t0 e end.
  Proof.
    intros P. unfold lbody. destruct (negb _); [exact P|].
    destruct (base _ _ _ _) as [[[[b fast] obj] inner]|]; [|exact I]. destruct (dp _ _ _ _) as [d step]. cbv zeta.
    destruct (nisnan _ || _ || _); cbn; grow.
  Qed.
  Lemma la_exact_grown t0 q : forall x i acc tr v tr', lexact nf bs feval q x i acc tr = Some (v, tr') -> K t0 tr -> K t0 tr'.
  Proof.
    induction q as [|q IH]; intros x i acc tr v tr' H P; cbn [lexact] in H; destruct (i <? nf); try discriminate.
    - injection H as _ <-. exact P.
    - apply (IH _ _ _ _ _ _ H). grow.
    - injection H as _ <-. exact P.
  Qed.
  Lemma la_frame fuel b d step x r : lookahead base has_max base_max k max tol exactO dp nf bs feval stop fuel b d step x = Ret r ->
    framed l_mark (LBegin x) (LEnd (lr_x r)) (lr_tr r).
  Proof.
    unfold lookahead. intros H.
    match type of H with context [loop ?bd fuel ?s0] =>
      pose proof (loop_inv bd (fun s => K [LBegin x] (l_tr s)) (la_exit [LBegin x]) (fun s => la_body_grown _ s) fuel s0 (grown_refl _ _)) as L;
      destruct (loop bd fuel s0) as [|[s|s|]]; try discriminate; cbn [la_exit] in L end.
    - destruct exactO.
      + destruct (lexact nf bs feval fuel (l_x s) 0 n0 (l_tr s)) as [[v tr]|] eqn:F; [|discriminate].
        inj H. apply frame. exact (la_exact_grown _ _ _ _ _ _ _ _ F L).
      + inj H. apply frame. exact L.
    - inj H. apply frame. exact L.
  Qed.
End LA.
