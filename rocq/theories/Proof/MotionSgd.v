(** SGD on the image of a function does the image of what it does on the function. *)
From Coq Require Import List Arith Bool Lia.
From Verif.Base Require Import Num Loop.
From Verif.Model Require Import Sgd.
From Verif.Spec Require Import MotionSpec.
Import ListNotations.

Section Sim.
  Context {N : Num} {X G X' G' U U' D D' : Type}.
  Variables (M : X -> X') (Q : G -> G') (PX : X -> Prop) (PG : G -> Prop).
  Variables (RU : X -> U -> U' -> Prop) (RD : D -> D' -> Prop).
  Variables (c : Cfg N X G U D) (c' : Cfg N X' G' U' D').
  Variables (f : SepFun N X G) (f' : SepFun N X' G') (cb : Callbacks N X G) (cb' : Callbacks N X' G').
  Hypothesis Hb : c_batch c' = c_batch c.
  Hypothesis Hm : c_max c' = c_max c.
  Hypothesis Ht : c_tol c' = c_tol c.
  Hypothesis Hs : c_shuffle c' = c_shuffle c.
  Hypothesis He : c_exact c' = c_exact c.
  Hypothesis Hup : forall u u' x h g, PX x -> PG g -> RU x u u' ->
    PX (snd (c_up c u x h g)) /\
    snd (c_up c' u' (M x) h (Q g)) = M (snd (c_up c u x h g)) /\
    RU (snd (c_up c u x h g)) (fst (c_up c u x h g)) (fst (c_up c' u' (M x) h (Q g))).
  Hypothesis Hdp : forall d d' x h g, PX x -> PG g -> RD d d' ->
    snd (c_dp c' d' (M x) h (Q g)) = snd (c_dp c d x h g) /\ RD (fst (c_dp c d x h g)) (fst (c_dp c' d' (M x) h (Q g))).
  Hypothesis Hf : image_function M Q PX PG f f'.
  Hypothesis Hcb : image_callbacks M Q PG cb cb'.
  Notation E := (image_event M Q).

  Record rel (s : st N X G U D) (s' : st N X' G' U' D') : Prop := {
    rl_i : s_i s' = s_i s; rl_cf : s_cf s' = s_cf s; rl_ep : s_epoch s' = s_epoch s;
    rl_ov : s_overall s' = s_overall s; rl_last : s_last s' = s_last s;
    rl_term : s_term s' = s_term s; rl_x : s_x s' = M (s_x s); rl_px : PX (s_x s);
    rl_u : RU (s_x s) (s_u s) (s_u s'); rl_d : RD (s_d s) (s_d s');
    rl_step : s_step s' = s_step s; rl_shuf : s_shuf s' = s_shuf s;
    rl_tr : s_tr s' = map E (s_tr s) }.
  Definition rel_exit (e : exit (N := N) (X := X) (G := G) (U := U) (D := D))
      (e' : exit (N := N) (X := X') (G := G') (U := U') (D := D')) : Prop :=
    match e, e' with Xloop s, Xloop s' => rel s s' | Xret s, Xret s' => rel s s' | Xub, Xub => True | _, _ => False end.
  Definition rel_sum (a : st N X G U D + exit) (a' : st N X' G' U' D' + exit) : Prop :=
    match a, a' with inl s, inl s' => rel s s' | inr e, inr e' => rel_exit e e' | _, _ => False end.

  Lemma am_eq : actual_max c' = actual_max c.
  Proof. unfold actual_max. now rewrite Hm. Qed.
  Lemma ask_eq t tr : ask cb' t (map E tr) = ask cb t tr.
  Proof. unfold ask. now rewrite (proj1 Hcb). Qed.

  Lemma epoch_sim s s' : rel s s' -> rel_sum (epoch_end c f cb s) (epoch_end c' f' cb' s').
  Proof.
    intros [Hi Hcf Hep Hov Hl Hte Hx Hpx Hu Hd Hst Hsh Htr]. unfold epoch_end. cbv zeta. destruct Hf as [Fn _].
    rewrite Hi, Hcf, Hep, Hov, Hl, Hte, Hx, Hst, Hsh, Htr, Fn, Ht, Hs, am_eq.
    change (EndEpoch (M (s_x s)) (s_epoch s) (ndiv (s_overall s) (nofnat (sf_num f))) :: map E (s_tr s))
      with (map E (EndEpoch (s_x s) (s_epoch s) (ndiv (s_overall s) (nofnat (sf_num f))) :: s_tr s)).
    set (t1 := EndEpoch (s_x s) _ _ :: s_tr s). rewrite ask_eq.
    change (BeginEpoch (M (s_x s)) (S (s_epoch s)) (s_overall s) :: map E t1)
      with (map E (BeginEpoch (s_x s) (S (s_epoch s)) (s_overall s) :: t1)).
    rewrite ask_eq.
    destruct (nisnan (s_overall s) || nisinf (s_overall s)); [constructor; auto|].
    destruct (nlt (nabs (nsub (s_last s) (s_overall s))) (c_tol c)); [constructor; auto|].
    constructor; auto. cbn [s_tr]. destruct (c_shuffle c); reflexivity.
  Qed.

  Lemma body_sim s s' : rel s s' -> rel_sum (body c f cb s) (body c' f' cb' s').
  Proof.
    intros R0. pose proof R0 as [Hi Hcf Hep Hov Hl Hte Hx Hpx Hu Hd Hst Hsh Htr]. unfold body. pose proof Hf as [Fn Fe].
    rewrite am_eq, Hi, Hte. destruct (negb ((s_i s <? actual_max c) && negb (s_term s))); [exact R0|].
    assert (EB : effective_batch c' f' s' = effective_batch c f s).
    { unfold effective_batch. now rewrite am_eq, Hb, Fn, Hi, Hcf. }
    rewrite EB. set (k := effective_batch c f s). rewrite Hsh, Hx, Hcf.
    destruct (Fe (s_shuf s) (s_x s) (s_cf s) k Hpx) as (_ & Pg & Eg). rewrite Eg.
    destruct (sf_evalgrad f (s_shuf s) (s_x s) (s_cf s) k) as [obj g]. cbn [fst snd] in *.
    rewrite Htr.
    change (EvalGrad (M (s_x s)) (s_cf s) k obj (Q g) :: map E (s_tr s)) with (map E (EvalGrad (s_x s) (s_cf s) k obj g :: s_tr s)).
    set (t1 := EvalGrad (s_x s) _ _ _ _ :: s_tr s). rewrite ask_eq.
    destruct (proj2 Hcb t1 g Pg) as [Pg1 Eg1]. rewrite Eg1. set (g1 := cb_grad cb t1 g) in *.
    rewrite Hst. destruct (Hup (s_u s) (s_u s') (s_x s) (s_step s) g1 Hpx Pg1 Hu) as (P1 & E1 & U1).
    destruct (c_up c (s_u s) (s_x s) (s_step s) g1) as [u1 x1]. destruct (c_up c' (s_u s') (M (s_x s)) (s_step s) (Q g1)) as [u1' x1'].
    cbn [fst snd] in *. subst x1'.
    change (Step (M x1) :: map E t1) with (map E (Step x1 :: t1)). rewrite ask_eq.
    destruct (Hdp (s_d s) (s_d s') x1 (s_step s) g1 P1 Pg1 Hd) as (S1 & D1).
    destruct (c_dp c (s_d s) x1 (s_step s) g1) as [d1 h1]. destruct (c_dp c' (s_d s') (M x1) (s_step s) (Q g1)) as [d1' h1'].
    cbn [fst snd] in *. subst h1'. rewrite Fn. destruct (sf_num f =? 0); [exact I|].
    cbn [s_cf]. destruct (((s_cf s + k) mod sf_num f) =? 0).
    - apply epoch_sim. constructor; cbn; auto. now rewrite Hov.
    - constructor; cbn; auto. now rewrite Hov.
  Qed.

  Lemma loop_sim fuel s s' : rel s s' ->
    match loop (body c f cb) fuel s, loop (body c' f' cb') fuel s' with
    | inl a, inl a' => rel a a' | inr e, inr e' => rel_exit e e' | _, _ => False end.
  Proof.
    revert s s'. induction fuel as [|n IH]; intros s s' H; cbn [loop]; [exact H|].
    pose proof (body_sim s s' H) as B. unfold rel_sum in B.
    destruct (body c f cb s) as [a|e], (body c' f' cb' s') as [a'|e']; try contradiction; [apply IH; exact B|exact B].
  Qed.

  Lemma exact_sim shuf x (Px : PX x) : forall fuel i acc tr,
    exact_loop c' f' fuel shuf (M x) i acc (map E tr)
    = option_map (fun p => (fst p, map E (snd p))) (exact_loop c f fuel shuf x i acc tr).
  Proof.
    destruct Hf as [Fn Fe]. induction fuel as [|n IH]; intros i acc tr; cbn [exact_loop]; rewrite Fn; destruct (i <? sf_num f); try reflexivity.
    rewrite Hb. destruct (Fe shuf x i (Nat.min (c_batch c) (sf_num f - i)) Px) as (Ev & _ & _). rewrite Ev.
    apply (IH _ _ (Eval x i (Nat.min (c_batch c) (sf_num f - i)) (sf_eval f shuf x i (Nat.min (c_batch c) (sf_num f - i))) :: tr)).
  Qed.

  Lemma sgd_image fuel x u u' d d' h : PX x -> RU x u u' -> RD d d' ->
    image_outcome M Q (optimize_with c f cb fuel u d h x) (optimize_with c' f' cb' fuel u' d' h (M x)).
  Proof.
    intros Px Hu Hd. unfold optimize_with.
    assert (R0 : rel (init (G := G) cb x u d h) (init (G := G') cb' (M x) u' d' h)).
    { constructor; cbn; auto. exact (proj1 Hcb [BeginEpoch x 1 n0; BeginOpt x]). }
    pose proof (loop_sim fuel _ _ R0) as L.
    destruct (loop (body c f cb) fuel (init cb x u d h)) as [a|[s|s|]], (loop (body c' f' cb') fuel (init cb' (M x) u' d' h)) as [a'|[s'|s'|]];
      cbn [rel_exit] in L; try contradiction; try exact I.
    - rewrite He. pose proof L as [Hi Hcf Hep Hov Hl Hte Hx Hpx _ _ Hst Hsh Htr]. destruct (c_exact c).
      + rewrite Hsh, Hx, Htr, (exact_sim _ _ Hpx). destruct (exact_loop c f fuel (s_shuf s) (s_x s) 0 n0 (s_tr s)) as [[v tr]|]; [|exact I].
        cbn. split; [reflexivity|]. split; [exact Hx|]. rewrite map_app, map_rev. cbn. now rewrite Hx.
      + cbn. split; [exact Hov|]. split; [exact Hx|]. rewrite map_app, map_rev, Htr. cbn. now rewrite Hx.
    - pose proof L as [Hi Hcf Hep Hov Hl Hte Hx Hpx _ _ Hst Hsh Htr]. cbn. split; [exact Hov|]. split; [exact Hx|].
      rewrite map_app, map_rev, Htr. cbn. now rewrite Hx.
  Qed.
End Sim.
