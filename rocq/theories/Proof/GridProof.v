From Coq Require Import List Arith Bool Lia.
From Verif.Base Require Import Num.
From Verif.Model Require Import GridSearch Callbacks.
From Verif.Spec Require Import GridSpec.
From Verif.Proof Require Import CallbacksProof.
Import ListNotations.

Lemma grid_spec : forall cats p, In p (grid cats) <-> Forall2 (fun x c => x < c) p cats.
Proof.
  induction cats as [|c cats IH]; intros p; cbn.
  - split; [intros [<-|[]]; constructor|]. intros H; inversion H. auto.
  - rewrite in_flat_map. split.
    + intros (j & Hj & Hp). apply in_map_iff in Hp as (q & <- & Hq). apply in_seq in Hj.
      constructor; [lia|]. apply IH; exact Hq.
    + intros H. inversion H as [|x ? q ? Hx Hq]; subst. exists x. split; [apply in_seq; lia|].
      apply in_map. apply IH; exact Hq.
Qed.
Lemma NoDup_app' {A} (a b : list A) : NoDup a -> NoDup b -> (forall x, In x a -> ~ In x b) -> NoDup (a ++ b).
Proof.
  induction a as [|x a IH]; intros Ha Hb Hd; [exact Hb|]. inversion Ha; subst. cbn. constructor.
  - rewrite in_app_iff. intros [H|H]; [contradiction|]. apply (Hd x); [left; reflexivity|exact H].
  - apply IH; auto. intros y Hy. apply Hd. right; exact Hy.
Qed.
Lemma NoDup_map_cons {A} (x : A) l : NoDup l -> NoDup (map (cons x) l).
Proof.
  induction 1 as [|y l Hn Hd IH]; cbn; constructor; auto. rewrite in_map_iff. intros (z & E & Hz). injection E as <-. contradiction.
Qed.
Lemma grid_nodup : forall cats, NoDup (grid cats).
Proof.
  induction cats as [|c cats IH]; cbn; [constructor; [tauto|constructor]|].
  generalize (seq_NoDup c 0). generalize (seq 0 c). intros l Hl. induction Hl as [|j l Hn Hd IHl]; cbn; [constructor|].
  apply NoDup_app'; [apply NoDup_map_cons; exact IH|exact IHl|].
  intros p Hp Hq. apply in_map_iff in Hp as (q & <- & _). apply in_flat_map in Hq as (k & Hk & Hq).
  apply in_map_iff in Hq as (q' & E & _). injection E as -> _. contradiction.
Qed.

Section G.
  Context {N : Num}.
  Variable f : list nat -> N.
  Notation gst := (gst (N := N)).

  Definition upd (s : gst) (p : list nat) : gst :=
    {| g_best := if nlt (f p) (g_best s) then f p else g_best s;
       g_params := if nlt (f p) (g_best s) then p else g_params s;
       g_cur := p; g_log := g_log s ++ [p] |}.
  Definition same (s t : gst) : Prop :=
    g_best s = g_best t /\ g_params s = g_params t /\ g_log s = g_log t.

  Lemma upd_same s t p : same s t -> same (upd s p) (upd t p).
  Proof. intros (A & B & C). unfold upd, same; cbn. rewrite A, B, C. auto. Qed.
  Lemma fold_same : forall l s t, same s t -> same (fold_left upd l s) (fold_left upd l t).
  Proof. induction l as [|p l IH]; intros s t H; [exact H|]. cbn. apply IH. apply upd_same; exact H. Qed.

  Lemma set_nth_split i j : forall pre x post, length pre = i ->
    set_nth i j (pre ++ x :: post) = pre ++ j :: post.
  Proof.
    revert j; induction i as [|i IH]; intros j [|a pre] x post H; try discriminate; cbn; [reflexivity|].
    f_equal. apply IH. cbn in H; lia.
  Qed.

  (* the recursion visits  pre ++ p  for p in the grid of the remaining dimensions *)
  Lemma gs_rec_spec : forall cats i s pre post, g_cur s = pre ++ post -> length pre = i -> length post = length cats ->
    same (gs_rec f cats i s) (fold_left upd (map (app pre) (grid cats)) s) /\
    (exists post', g_cur (gs_rec f cats i s) = pre ++ post' /\ length post' = length cats).
  Proof.
    induction cats as [|c cats IH]; intros i s pre post Hc Hi Hl.
    - destruct post; [|discriminate]. rewrite app_nil_r in Hc. cbn. rewrite app_nil_r.
      unfold gs_eval, upd, same; cbn. rewrite Hc. destruct (nlt (f pre) (g_best s)); cbn;
      (split; [auto|]; exists []; rewrite app_nil_r; auto).
    - destruct post as [|x post]; [discriminate|]. cbn [gs_rec grid].
      generalize (seq 0 c). intros l. revert s x post Hc Hl.
      induction l as [|j l IHl]; intros s x post Hc Hl; cbn [fold_left flat_map map].
      + split; [repeat split|]. exists (x :: post). auto.
      + set (s1 := {| g_best := g_best s; g_params := g_params s; g_cur := set_nth i j (g_cur s); g_log := g_log s |}).
        destruct (IH (S i) s1 (pre ++ [j]) post) as [H1 (post' & H2 & H3)].
        { cbn. rewrite Hc, set_nth_split by exact Hi. rewrite <- app_assoc. reflexivity. }
        { rewrite app_length; cbn; lia. }
        { cbn in Hl; lia. }
        set (s2 := gs_rec f cats (S i) s1) in *.
        destruct (IHl s2 j post') as [H4 H5].
        { rewrite H2, <- app_assoc. reflexivity. }
        { cbn. lia. }
        split; [|exact H5].
        rewrite map_app, fold_left_app.
        assert (E : map (app pre) (map (cons j) (grid cats)) = map (app (pre ++ [j])) (grid cats)).
        { rewrite map_map. apply map_ext. intros p. rewrite <- app_assoc. reflexivity. }
        rewrite E.
        assert (K : same s2 (fold_left upd (map (app (pre ++ [j])) (grid cats)) s)).
        { destruct H1 as (A & B & C).
          assert (same s1 s) as Hs by (repeat split).
          destruct (fold_same (map (app (pre ++ [j])) (grid cats)) _ _ Hs) as (A' & B' & C').
          repeat split; congruence. }
        destruct H4 as (A & B & C). destruct (fold_same (map (app pre) (flat_map (fun j => map (cons j) (grid cats)) l)) _ _ K) as (A' & B' & C').
        repeat split; congruence.
  Qed.

  Lemma fold_log : forall l s, g_log (fold_left upd l s) = g_log s ++ l.
  Proof.
    induction l as [|p l IH]; intros s; cbn; [rewrite app_nil_r; reflexivity|].
    rewrite IH. cbn. rewrite <- app_assoc. reflexivity.
  Qed.
  Lemma fold_best d : forall l s b, g_best s = sb_obj b -> g_params s = match sb_x b with Some p => p | None => d end ->
    let b' := fold_left (fun s e => sb_evaluate s (fst e) (snd e)) (map (fun p => (p, f p)) l) b in
    g_best (fold_left upd l s) = sb_obj b' /\
    g_params (fold_left upd l s) = match sb_x b' with Some p => p | None => d end.
  Proof.
    induction l as [|p l IH]; intros s b H1 H2; cbn; [auto|].
    apply IH; cbn; rewrite H1; unfold sb_evaluate; destruct (nlt (f p) (sb_obj b)); cbn; auto.
  Qed.

  Hypothesis L : OrdLaws N.
  Lemma grid_search_ok categorical cats junk :
    length categorical = length cats -> length junk = length cats ->
    (existsb negb categorical = true -> grid_search f categorical cats junk = None) /\
    (existsb negb categorical = false -> exists s, grid_search f categorical cats junk = Some s /\
       g_log s = grid cats /\
       ((g_best s = nmax /\ g_params s = repeat 0 (length cats) /\
         forall p, In p (grid cats) -> nlt (f p) nmax = false) \/
        (exists before p later, grid cats = before ++ p :: later /\ g_params s = p /\ g_best s = f p /\
           nlt (f p) nmax = true /\
           (forall q, In q before -> nle (f q) (f p) = false) /\
           (forall q, In q later -> nlt (f q) (f p) = false)))).
  Proof.
    intros Hl Hj.
    assert (F : forallb (fun b => b) categorical = negb (existsb negb categorical)).
    { clear. induction categorical as [|[] l IH]; cbn; auto. }
    unfold grid_search. rewrite F. split; [intros ->; reflexivity|]. intros ->. cbn [negb].
    eexists; split; [reflexivity|].
    set (s0 := {| g_best := nmax; g_params := repeat 0 (length categorical); g_cur := junk; g_log := [] |}).
    destruct (gs_rec_spec cats 0 s0 [] junk eq_refl eq_refl Hj) as [(A & B & C) _].
    assert (E : map (app (A := nat) []) (grid cats) = grid cats) by (rewrite <- (map_id (grid cats)) at 2; reflexivity).
    rewrite E in *. rewrite A, B, C. split; [rewrite fold_log; reflexivity|].
    destruct (fold_best (repeat 0 (length cats)) (grid cats) s0 sb_init eq_refl) as [D1 D2].
    { cbn. rewrite Hl. reflexivity. }
    change (fold_left _ _ sb_init) with (sb_run (map (fun p => (p, f p)) (grid cats))) in *.
    rewrite D1, D2.
    destruct (store_best L (map (fun p => (p, f p)) (grid cats))) as [[R H]|(pre & x & o & post & E1 & R & Ho & Hpre & Hpost)].
    - left. rewrite R. cbn. split; [reflexivity|]. split; [reflexivity|]. intros p Hp. apply (H p).
      apply in_map_iff. exists p. auto.
    - right. rewrite R. cbn.
      apply map_eq_app in E1 as (before & rest & Eg & Eb & Er).
      apply map_eq_cons in Er as (p & later & -> & Ep & El). injection Ep as Ex Eo; subst x o.
      exists before, p, later. split; [exact Eg|]. split; [reflexivity|]. split; [reflexivity|]. split; [exact Ho|]. split.
      + intros q Hq. apply (Hpre q). rewrite <- Eb. apply in_map_iff. exists q; auto.
      + intros q Hq. apply (Hpost q). rewrite <- El. apply in_map_iff. exists q; auto.
  Qed.
End G.
