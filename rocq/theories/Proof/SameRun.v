(** SGD runs whose update policies agree cannot be told apart. *)
From Coq Require Import List Arith Bool Lia Reals Lra.
From Verif.Base Require Import Num Vec Loop Instances.
From Verif.Model Require Import Sgd Updates SgdPolicies.
From Verif.Spec Require Import SameSpec.
Import ListNotations.

Section Sim.
  Context {N : Num} {X G U U' D D' : Type}.
  Variables (RU : U -> U' -> Prop) (RD : D -> N -> D' -> N -> Prop).
  Variables (c : Cfg N X G U D) (c' : Cfg N X G U' D').
  Variables (f : SepFun N X G) (cb : Callbacks N X G).
  Hypothesis HS : same_settings c c'.
  Hypothesis Hup : forall u u' d d' h h' x g, RU u u' -> RD d h d' h' ->
    snd (c_up c' u' x h' g) = snd (c_up c u x h g) /\ RU (fst (c_up c u x h g)) (fst (c_up c' u' x h' g)).
  Hypothesis Hdp : forall d d' x h h' g, RD d h d' h' ->
    RD (fst (c_dp c d x h g)) (snd (c_dp c d x h g)) (fst (c_dp c' d' x h' g)) (snd (c_dp c' d' x h' g)).

  Record rel (s : st N X G U D) (s' : st N X G U' D') : Prop := {
    rl_i : s_i s' = s_i s; rl_cf : s_cf s' = s_cf s; rl_ep : s_epoch s' = s_epoch s;
    rl_ov : s_overall s' = s_overall s; rl_last : s_last s' = s_last s;
    rl_term : s_term s' = s_term s; rl_x : s_x s' = s_x s;
    rl_u : RU (s_u s) (s_u s'); rl_d : RD (s_d s) (s_step s) (s_d s') (s_step s');
    rl_shuf : s_shuf s' = s_shuf s; rl_tr : s_tr s' = s_tr s }.
  Definition rel_exit (e : exit (N := N) (X := X) (G := G) (U := U) (D := D))
      (e' : exit (N := N) (X := X) (G := G) (U := U') (D := D')) : Prop :=
    match e, e' with Xloop s, Xloop s' => rel s s' | Xret s, Xret s' => rel s s' | Xub, Xub => True | _, _ => False end.
  Definition rel_sum (a : st N X G U D + exit) (a' : st N X G U' D' + exit) : Prop :=
    match a, a' with inl s, inl s' => rel s s' | inr e, inr e' => rel_exit e e' | _, _ => False end.

  Lemma am_eq : actual_max c' = actual_max c.
  Proof. unfold actual_max. destruct HS as (_ & -> & _). reflexivity. Qed.
  Lemma epoch_sim s s' : rel s s' -> rel_sum (epoch_end c f cb s) (epoch_end c' f cb s').
  Proof.
    intros [Hi Hcf Hep Hov Hl Hte Hx Hu Hd Hsh Htr]. unfold epoch_end. cbv zeta. destruct HS as (_ & _ & Ht & Hs & _).
    rewrite Hi, Hcf, Hep, Hov, Hl, Hte, Hx, Hsh, Htr, Ht, Hs, am_eq.
    destruct (nisnan (s_overall s) || nisinf (s_overall s)); [constructor; auto|].
    destruct (nlt (nabs (nsub (s_last s) (s_overall s))) (c_tol c)); constructor; auto.
  Qed.
  Lemma body_sim s s' : rel s s' -> rel_sum (body c f cb s) (body c' f cb s').
  Proof.
    intros R0. pose proof R0 as [Hi Hcf Hep Hov Hl Hte Hx Hu Hd Hsh Htr]. unfold body.
    rewrite am_eq, Hi, Hte. destruct (negb ((s_i s <? actual_max c) && negb (s_term s))); [exact R0|].
    assert (EB : effective_batch c' f s' = effective_batch c f s).
    { unfold effective_batch. rewrite am_eq, Hi, Hcf. now rewrite (proj1 HS). }
    rewrite EB. set (k := effective_batch c f s). rewrite Hsh, Hx, Hcf, Htr.
    destruct (sf_evalgrad f (s_shuf s) (s_x s) (s_cf s) k) as [obj g].
    set (t1 := EvalGrad (s_x s) _ _ _ _ :: s_tr s). set (g1 := cb_grad cb t1 g) in *.
    destruct (Hup (s_u s) (s_u s') (s_d s) (s_d s') (s_step s) (s_step s') (s_x s) g1 Hu Hd) as (E1 & U1).
    destruct (c_up c (s_u s) (s_x s) (s_step s) g1) as [u1 x1]. destruct (c_up c' (s_u s') (s_x s) (s_step s') g1) as [u1' x1'].
    cbn [fst snd] in *. subst x1'. pose proof (Hdp _ _ x1 _ _ g1 Hd) as D1.
    destruct (c_dp c (s_d s) x1 (s_step s) g1) as [d1 h1]. destruct (c_dp c' (s_d s') x1 (s_step s') g1) as [d1' h1'].
    cbn [fst snd] in *. destruct (sf_num f =? 0); [exact I|].
    cbn [s_cf]. destruct (((s_cf s + k) mod sf_num f) =? 0).
    - apply epoch_sim. constructor; cbn; auto. now rewrite Hov.
    - constructor; cbn; auto. now rewrite Hov.
  Qed.
  Lemma loop_sim fuel s s' : rel s s' ->
    match loop (body c f cb) fuel s, loop (body c' f cb) fuel s' with
    | inl a, inl a' => rel a a' | inr e, inr e' => rel_exit e e' | _, _ => False end.
  Proof.
    revert s s'. induction fuel as [|n IH]; intros s s' H; cbn [loop]; [exact H|].
    pose proof (body_sim s s' H) as B. unfold rel_sum in B.
    destruct (body c f cb s) as [a|e], (body c' f cb s') as [a'|e']; try contradiction; [apply IH; exact B|exact B].
  Qed.
  Lemma exact_sim shuf x : forall fuel i acc tr, exact_loop c' f fuel shuf x i acc tr = exact_loop c f fuel shuf x i acc tr.
  Proof.
    induction fuel as [|n IH]; intros i acc tr; cbn [exact_loop]; destruct (i <? sf_num f); try reflexivity.
    rewrite (proj1 HS). apply IH.
  Qed.
  Lemma sgd_same fuel x u u' d d' h h' : RU u u' -> RD d h d' h' ->
    same_run (optimize_with c f cb fuel u d h x) (optimize_with c' f cb fuel u' d' h' x).
  Proof.
    intros Hu Hd. unfold optimize_with.
    assert (R0 : rel (init cb x u d h) (init cb x u' d' h')) by (constructor; cbn; auto).
    pose proof (loop_sim fuel _ _ R0) as L.
    destruct (loop (body c f cb) fuel (init cb x u d h)) as [a|[s|s|]], (loop (body c' f cb) fuel (init cb x u' d' h')) as [a'|[s'|s'|]];
      cbn [rel_exit] in L; try contradiction; try exact I.
    - destruct HS as (_ & _ & _ & _ & He). rewrite He. pose proof L as [Hi Hcf Hep Hov Hl Hte Hx _ _ Hsh Htr]. destruct (c_exact c).
      + rewrite Hsh, Hx, Htr, exact_sim. destruct (exact_loop c f fuel (s_shuf s) (s_x s) 0 n0 (s_tr s)) as [[v tr]|]; [|exact I].
        cbn. rewrite Hx. auto.
      + cbn. rewrite Hx, Hov, Htr. auto.
    - pose proof L as [Hi Hcf Hep Hov Hl Hte Hx _ _ Hsh Htr]. cbn. rewrite Hx, Hov, Htr. auto.
  Qed.
End Sim.

(** ** Policies coordinate by coordinate *)
Section Vec.
  Context {N : Num} {S S' : Type}.
  Variables (Rs : S -> S' -> Prop) (up : S -> N -> N -> N -> S * N) (up' : S' -> N -> N -> N -> S' * N) (h h' : N).
  Hypothesis H : forall s s' x g, Rs s s' -> snd (up' s' x h' g) = snd (up s x h g) /\ Rs (fst (up s x h g)) (fst (up' s' x h' g)).
  Lemma vec_sim : forall u u' x g, Forall2 Rs u u' ->
    snd (vec_up up' u' x h' g) = snd (vec_up up u x h g) /\ Forall2 Rs (fst (vec_up up u x h g)) (fst (vec_up up' u' x h' g)).
  Proof.
    intros u u' x g Fs. revert x g. induction Fs as [|s s' u u' R1 Fs IH]; intros [|a x] [|b g]; cbn; auto.
    destruct (H s s' a b R1) as [E1 E2]. destruct (IH x g) as [E3 E4].
    destruct (up s a h b), (up' s' a h' b), (vec_up up u x h g), (vec_up up' u' x h' g). cbn in *. subst. auto.
  Qed.
  Lemma vec_same (batch max : nat) (tol : N) (shuffle exact : bool) f cb fuel x u u' :
    Forall2 Rs u u' ->
    same_run (optimize_with (sgd_with (vec_up up) batch max tol shuffle exact) f cb fuel u tt h x)
             (optimize_with (sgd_with (vec_up up') batch max tol shuffle exact) f cb fuel u' tt h' x).
  Proof.
    intros Fs. apply (sgd_same (Forall2 Rs) (fun _ k _ k' => k = h /\ k' = h')).
    - repeat split.
    - intros v v' _ _ k k' y g Fv [-> ->]. apply vec_sim, Fv.
    - intros d1 d2 y k k' g E. exact E.
    - exact Fs.
    - auto.
  Qed.
  Lemma init_rel (s0 : S) (s0' : S') (x : list N) : Rs s0 s0' -> Forall2 Rs (map (fun _ => s0) x) (map (fun _ => s0') x).
  Proof. intros R0. induction x; cbn; constructor; auto. Qed.
End Vec.

Local Open Scope R_scope.
Section Real.
  Variable mx : R.
  Notation RN := (RNum mx).
  Variables (batch max : nat) (tol : RN) (shuffle exact : bool) (f : SepFun RN (list RN) (list RN)) (cb : Callbacks RN (list RN) (list RN)) (fuel : nat) (x : list RN) (h : RN).
  Notation sgd up u step := (optimize_with (sgd_with up batch max tol shuffle exact) f cb fuel u tt step x).

  Lemma momentum_zero : same_run (sgd sgd_vanilla (sgd_vanilla_init x) h) (sgd (sgd_momentum (0 : RN)) (sgd_velocity_init x) h).
  Proof.
    apply (vec_same (fun _ _ => True)); [|apply init_rel; exact I]. intros s v a g _. split; [|exact I]. cbn. ring.
  Qed.
  Lemma nesterov_zero : same_run (sgd sgd_vanilla (sgd_vanilla_init x) h) (sgd (sgd_nesterov (0 : RN)) (sgd_velocity_init x) h).
  Proof.
    apply (vec_same (fun _ _ => True)); [|apply init_rel; exact I]. intros s v a g _. split; [|exact I]. cbn. ring.
  Qed.
  Lemma qh_zero (mu nu : R) : nu = 0 \/ mu = 0 ->
    same_run (sgd sgd_vanilla (sgd_vanilla_init x) h) (sgd (sgd_qh (mu : RN) (nu : RN)) (sgd_velocity_init x) h).
  Proof.
    intros E. apply (vec_same (fun _ _ => True)); [|apply init_rel; exact I]. intros s v a g _. split; [|exact I]. cbn.
    destruct E as [-> | ->]; ring.
  Qed.
  Lemma qh_one (mu : R) :
    same_run (sgd (sgd_momentum (mu : RN)) (sgd_velocity_init x) ((1 - mu) * h)) (sgd (sgd_qh (mu : RN) (1 : RN)) (sgd_velocity_init x) h).
  Proof.
    apply (vec_same (fun u v : R => u = - (h * v))); [|apply init_rel; cbn; ring].
    intros u v a g ->. cbn. split; ring.
  Qed.

  Lemma pow_lt1 b k : 0 < b < 1 -> 0 < 1 - b ^ (S k).
  Proof. intros H. pose proof (pow_lt_1_compat b (S k) ltac:(lra) ltac:(lia)). lra. Qed.
  Lemma qhadam_adam (b1 b2 : R) : 0 < b2 < 1 ->
    same_run (sgd (vec_up (adam_up (N := RN) rpow 0 b1 b2)) (map (fun _ => adam_init) x) h)
             (sgd (vec_up (qhadam_up (N := RN) rpow 0 b1 b2 1 1)) (map (fun _ => adam_init) x) h).
  Proof.
    intros B. apply (vec_same (fun s s' : @adam_st RN => s' = s /\ 0 <= a_v s /\ (a_v s = 0 -> a_m s = 0))); [|apply init_rel; cbn; repeat split; lra].
    intros s s' a g (-> & V0 & VM). cbn. change (T RN) with R in *.
    assert (G2 : 0 <= g * g) by apply Rle_0_sqr. pose proof (pow_lt1 b2 (a_t s) B) as P. unfold rpow.
    set (v := a_v s * b2 + (1 - b2) * (g * g)). set (m := a_m s * b1 + (1 - b1) * g).
    assert (Pv : 0 <= a_v s * b2 /\ 0 <= (1 - b2) * (g * g)) by (split; apply Rmult_le_pos; lra).
    assert (VZ : v = 0 -> m = 0).
    { unfold v, m. intros Z. assert (a_v s = 0) by nra. assert (g * g = 0) by nra.
      assert (g = 0) by (apply Rsqr_0_uniq; exact H0). rewrite (VM H), H1. ring. }
    split; [|split; [reflexivity|split; [unfold v; lra|exact VZ]]].
    set (c1 := 1 - b1 * b1 ^ a_t s). set (c2 := 1 - b2 * b2 ^ a_t s). change (0 < c2) in P.
    destruct (Req_dec v 0) as [Z|NZ].
    - rewrite (VZ Z). unfold Rdiv. ring.
    - assert (0 < v) by (unfold v in *; lra).
      replace ((1 - 1) * (g * g) + 1 * (v / c2)) with (v / c2) by ring.
      rewrite sqrt_div_alt by exact P. rewrite !Rplus_0_r.
      assert (0 < sqrt v) by (apply sqrt_lt_R0; assumption). assert (0 < sqrt c2) by (apply sqrt_lt_R0; exact P).
      unfold Rdiv. rewrite (Rinv_mult (sqrt v)), Rinv_inv. ring.
  Qed.
  Lemma padam_amsgrad (pw : RN -> nat -> RN) (rpw : RN -> RN -> RN) (b1 b2 : R) : (forall a : R, 0 <= a -> rpw a (1 / 2) = sqrt a) -> 0 <= b2 <= 1 ->
    same_run (sgd (vec_up (amsgrad_up (N := RN) pw 0 b1 b2)) (map (fun _ => adam_init) x) h)
             (sgd (vec_up (padam_up (N := RN) pw rpw 0 b1 b2 (1 / 2))) (map (fun _ => adam_init) x) h).
  Proof.
    intros P B. apply (vec_same (fun u v : @adam_st RN => u = v /\ 0 <= a_v u /\ 0 <= a_w u)); [|apply init_rel; cbn; repeat split; lra].
    intros s v a g (<- & V & W). cbn -[Rdiv]. change (T RN) with R in *.
    assert (G2 : 0 <= g * g) by apply Rle_0_sqr.
    assert (V' : 0 <= a_v s * b2 + (1 - b2) * (g * g)) by (apply Rplus_le_le_0_compat; apply Rmult_le_pos; lra).
    assert (W' : 0 <= emax (N := RN) (a_w s) (a_v s * b2 + (1 - b2) * (g * g))) by (unfold emax; destruct (nlt _ _); assumption).
    rewrite !Rplus_0_r. change (IPR 2) with 2. rewrite P by exact W'. auto.
  Qed.
End Real.
