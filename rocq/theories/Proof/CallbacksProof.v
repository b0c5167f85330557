From Coq Require Import List Arith Bool Lia Reals Lra.
From Verif.Base Require Import Num Instances.
From Verif.Model Require Import Callbacks.
From Verif.Spec Require Import CallbacksSpec.
Import ListNotations.

(** ** Dispatch *)
Section Disp.
  Context {S A : Type}.
  Lemma pass_true : forall (pack : list (Hook S A * S)) i a,
    pass i true pack a = (map snd pack, a, true, []).
  Proof.
    induction pack as [|[h s] pack IH]; intros i a; [reflexivity|]. cbn. rewrite IH. reflexivity.
  Qed.

  Definition Ok (pack : list (Hook S A * S)) (a : A) (ss : list S) (a' : A) (b : bool) (log : list (nat * bool)) i : Prop :=
    map fst log = seq i (length log) /\
    length log <= length pack /\ length ss = length pack /\
    (b = true <-> exists k, In (k, true) log) /\
    (forall k, In (k, true) log -> Datatypes.S k = i + length log) /\
    (b = false -> length log = length pack) /\
    (forall k, length log <= k -> nth_error ss k = nth_error (map snd pack) k) /\
    (exists as_ : nat -> A, as_ 0 = a /\ as_ (length log) = a' /\
       forall k, k < length log -> exists h s s' ans,
         nth_error pack k = Some (h, s) /\ nth_error ss k = Some s' /\
         In (i + k, ans) log /\ call h s (as_ k) = (s', as_ (Datatypes.S k), ans)).

  Lemma pass_ok : forall pack i a ss a' b log,
    pass i false pack a = (ss, a', b, log) -> Ok pack a ss a' b log i.
  Proof.
    induction pack as [|[h s] pack IH]; intros i a ss a' b log H; cbn [pass] in H.
    - injection H as <- <- <- <-. unfold Ok. cbn. split; [reflexivity|]. split; [lia|].
      split; [reflexivity|]. split; [split; [discriminate|intros [k []]]|]. split; [intros k []|].
      split; [reflexivity|]. split; [reflexivity|].
      exists (fun _ => a). repeat split. intros k Hk. lia.
    - destruct (call h s a) as [[s' a1] b1] eqn:Ec. destruct b1.
      + rewrite pass_true in H. injection H as <- <- <- <-.
        unfold Ok. cbn [length map fst]. split; [reflexivity|]. split; [lia|].
        split; [cbn; rewrite map_length; reflexivity|].
        split. { split; [intros _; exists i; left; reflexivity|reflexivity]. }
        split. { intros k [E|[]]. injection E as <-. lia. }
        split; [discriminate|].
        split. { intros [|k] Hk; [lia|]. reflexivity. }
        exists (fun n => match n with O => a | _ => a1 end). split; [reflexivity|]. split; [reflexivity|].
        intros [|k] Hk; [|lia]. exists h, s, s', true. repeat split; [|exact Ec]. left. f_equal. lia.
      + destruct (pass (Datatypes.S i) false pack a1) as [[[ss1 a2] b2] log1] eqn:E1.
        injection H as <- <- <- <-.
        destruct (IH _ _ _ _ _ _ E1) as (H1 & H2 & H3 & H4 & H5 & H6 & H7 & as_ & A1 & A2 & A3).
        unfold Ok. cbn [length map fst seq]. split; [rewrite H1; reflexivity|]. split; [lia|].
        split; [cbn; lia|]. split.
        { rewrite H4. split; intros [k Hk]; exists k; [right; exact Hk|].
          destruct Hk as [Hk|Hk]; [discriminate|exact Hk]. }
        split. { intros k [Hk|Hk]; [discriminate|]. apply H5 in Hk. lia. }
        split. { intros Hb. rewrite (H6 Hb). reflexivity. }
        split. { intros [|k] Hk; [lia|]. cbn. apply H7. lia. }
        exists (fun n => match n with O => a | Datatypes.S m => as_ m end).
        split; [reflexivity|]. split; [exact A2|].
        intros [|k] Hk.
        * exists h, s, s', false. repeat split; [left; f_equal; lia|rewrite A1; exact Ec].
        * destruct (A3 k) as (h' & t & t' & ans & B1 & B2 & B3 & B4); [lia|].
          exists h', t, t', ans. repeat split; auto. right. replace (i + Datatypes.S k) with (Datatypes.S i + k) by lia. exact B3.
  Qed.

  Lemma eval_grad_ok : forall (pack : list (Hook S A * Hook S A * S)) a ss a' b log1 log2,
    dispatch_eval_grad pack a = (ss, a', b, log1, log2) ->
    exists ss1 a1 b1,
      dispatch (map (fun c => (fst (fst c), snd c)) pack) a = (ss1, a1, b1, log1) /\
      if b1 then ss = ss1 /\ a' = a1 /\ b = true /\ log2 = []
      else dispatch (combine (map (fun c => snd (fst c)) pack) ss1) a1 = (ss, a', b, log2).
  Proof.
    intros pack a ss a' b log1 log2. unfold dispatch_eval_grad, dispatch.
    destruct (pass 0 false (map _ pack) a) as [[[ss1 a1] b1] l1] eqn:E1.
    destruct b1.
    - rewrite pass_true. intros H. injection H as <- <- <- <- <-.
      exists ss1, a1, true. split; [reflexivity|]. repeat split.
      destruct (pass_ok _ _ _ _ _ _ _ E1) as (_ & _ & L & _). rewrite map_length in L.
      clear E1. revert ss1 L. induction pack as [|c pack IH]; intros [|s ss1] L; try discriminate; [reflexivity|].
      cbn. f_equal. apply IH. cbn in L. lia.
    - destruct (pass 0 false (combine _ ss1) a1) as [[[ss2 a2] b2] l2] eqn:E2.
      intros H. injection H as <- <- <- <- <-. exists ss1, a1, false. split; [reflexivity|exact E2].
  Qed.

  Lemma all_ok : forall (pack : list (Hook S A * S)) a ss a',
    dispatch_all pack a = (ss, a') ->
    exists as_ : nat -> A, as_ 0 = a /\ as_ (length pack) = a' /\ length ss = length pack /\
      forall k h s, nth_error pack k = Some (h, s) ->
        exists s' ans, nth_error ss k = Some s' /\ call h s (as_ k) = (s', as_ (Datatypes.S k), ans).
  Proof.
    induction pack as [|[h s] pack IH]; intros a ss a' H; cbn in H.
    - injection H as <- <-. exists (fun _ => a). repeat split. intros [|k]; discriminate.
    - destruct (call h s a) as [[s' a1] b] eqn:Ec.
      destruct (dispatch_all pack a1) as [ss1 a2] eqn:E. injection H as <- <-.
      destruct (IH _ _ _ E) as (as_ & A1 & A2 & A3 & A4).
      exists (fun n => match n with O => a | Datatypes.S m => as_ m end).
      repeat split; cbn; auto. intros [|k] h' t Hk; cbn in *.
      + injection Hk as <- <-. exists s', b. split; [reflexivity|]. rewrite A1. exact Ec.
      + apply A4. exact Hk.
  Qed.
End Disp.

(** ** Early stopping *)
Section ES.
  Context {N : Num}.
  Hypothesis L : OrdLaws N.
  Hypothesis Mnan : nisnan (nmax (n := N)) = false.

  Definition running (h : list N) : N := fold_left (fun b o => if nlt o b then o else b) h nmax.
  Lemma running_snoc h o : running (h ++ [o]) = if nlt o (running h) then o else running h.
  Proof. unfold running. rewrite fold_left_app. reflexivity. Qed.

  Lemma lt_notnan_l (x y : N) : nlt x y = true -> nisnan x = false.
  Proof. intros H. destruct (nisnan x) eqn:E; [|reflexivity]. rewrite (ol_nan_lt_l N L x y E) in H. discriminate. Qed.
  Lemma le_notnan (x y : N) : nle x y = true -> nlt y x = false.
  Proof. apply (ol_le_not_lt N L). Qed.

  Lemma running_facts h :
    nisnan (running h) = false /\
    (running h = nmax \/ (In (running h) h /\ nlt (running h) nmax = true)) /\
    (forall w, In w h -> nlt w (running h) = false).
  Proof.
    induction h as [|o h IH] using rev_ind.
    - split; [exact Mnan|]. split; [left; reflexivity|]. intros w [].
    - destruct IH as (H1 & H2 & H3). rewrite running_snoc. destruct (nlt o (running h)) eqn:E.
      + split; [eapply lt_notnan_l; eauto|]. split.
        * right. split; [apply in_or_app; right; left; reflexivity|].
          destruct H2 as [H2|[_ H2]]; [rewrite H2 in E; exact E|]. eapply (ol_trans N L); eauto.
        * intros w Hw. apply in_app_iff in Hw as [Hw|[<-|[]]]; [|apply (ol_irrefl N L)].
          destruct (nlt w o) eqn:E2; [|reflexivity].
          pose proof (ol_trans N L _ _ _ E2 E) as K. rewrite (H3 w Hw) in K. discriminate.
      + split; [exact H1|]. split.
        * destruct H2 as [H2|[H2 H2']]; [left; exact H2|]. right. split; [|exact H2']. apply in_or_app; left; exact H2.
        * intros w Hw. apply in_app_iff in Hw as [Hw|[<-|[]]]; [apply H3; exact Hw|exact E].
  Qed.

  Lemma below_running h v : nlt v (running h) = true <-> new_min h v.
  Proof.
    destruct (running_facts h) as (H1 & H2 & H3). split.
    - intros E. split.
      + destruct H2 as [H2|[_ H2]]; [rewrite H2 in E; exact E|]. eapply (ol_trans N L); eauto.
      + intros w Hw. destruct (nle w v) eqn:E2; [|reflexivity].
        pose proof (ol_le_lt N L _ _ _ E2 E) as K. rewrite (H3 w Hw) in K. discriminate.
    - intros [M Hw]. destruct H2 as [H2|[H2 _]]; [rewrite H2; exact M|].
      specialize (Hw _ H2). destruct (nlt v (running h)) eqn:E; [reflexivity|].
      rewrite (ol_total N L v (running h) (lt_notnan_l _ _ M) H1 E) in Hw. discriminate.
  Qed.

  (* last objectives, newest first, that were no improvement on what came before *)
  Lemma es_run_app p : forall o1 s o2,
    es_run (N := N) p s (o1 ++ o2) =
    let '(s1, b1) := es_run (N := N) p s o1 in let '(s2, b2) := es_run p s1 o2 in (s2, b1 ++ b2 : list bool).
  Proof.
    induction o1 as [|o o1 IH]; intros s o2; cbn; [destruct (es_run p s o2); reflexivity|].
    destruct (es_end_epoch p s o) as [s1 b]. rewrite IH.
    destruct (es_run p s1 o1) as [s2 b2]. destruct (es_run p s2 o2) as [s3 b3]. reflexivity.
  Qed.
  Lemma es_run_length p : forall o s, length (snd (es_run (N := N) p s o)) = length o.
  Proof.
    induction o as [|o os IH]; intros s; cbn; [reflexivity|].
    destruct (es_end_epoch p s o) as [s1 b]. specialize (IH s1). destruct (es_run p s1 os). cbn in *. lia.
  Qed.

  Lemma es_state p objs : let s := fst (es_run p es_init objs) in
    es_best s = running objs /\
    es_steps s <= length objs /\
    running (firstn (length objs - es_steps s) objs) = running objs /\
    (es_steps s = length objs \/
     exists h o t, objs = h ++ o :: t /\ length t = es_steps s /\ nlt o (running h) = true).
  Proof.
    induction objs as [|o objs IH] using rev_ind.
    - cbn. repeat split; auto.
    - rewrite es_run_app. cbn [es_run]. destruct (es_run p es_init objs) as [s bs]. cbn [fst] in IH.
      destruct IH as (H1 & H2 & H3 & H4).
      unfold es_end_epoch. destruct (nlt o (es_best s)) eqn:E; cbn [fst es_best es_steps].
      + rewrite H1 in E. rewrite running_snoc, E. split; [reflexivity|]. split; [lia|]. split.
        * rewrite Nat.sub_0_r, firstn_all, running_snoc, E. reflexivity.
        * right. exists objs, o, []. auto.
      + rewrite H1 in E. rewrite running_snoc, E. split; [exact H1|]. split; [rewrite app_length; cbn; lia|]. split.
        * rewrite app_length. cbn [length]. replace (length objs + 1 - S (es_steps s)) with (length objs - es_steps s) by lia.
          rewrite firstn_app. replace (length objs - es_steps s - length objs) with 0 by lia.
          cbn. rewrite app_nil_r. exact H3.
        * destruct H4 as [H4|(h & w & t & -> & Ht & Hw)].
          -- left. rewrite app_length. cbn. lia.
          -- right. exists h, w, (t ++ [o]). split; [rewrite <- app_assoc; reflexivity|]. split; [rewrite app_length; cbn; lia|exact Hw].
  Qed.

  Lemma running_le_firstn objs k : running (firstn k objs) = running objs ->
    forall v, In v (skipn k objs) -> nlt v (running (firstn k objs)) = false.
  Proof.
    intros E v Hv. rewrite E. apply (running_facts objs).
    rewrite <- (firstn_skipn k objs). apply in_or_app; right; exact Hv.
  Qed.

  Lemma early_stop p (objs : list N) (o : N) :
    last (snd (es_run p es_init (objs ++ [o]))) false = true <->
    exists h1 h2, objs ++ [o] = h1 ++ h2 /\ length h2 = Nat.max 1 p /\
      forall v, In v h2 -> ~ new_min h1 v.
  Proof.
    pose proof (es_state p (objs ++ [o])) as K. pose proof (es_state p objs) as K0.
    rewrite es_run_app in *. cbn [es_run] in *.
    destruct (es_run p es_init objs) as [s bs] eqn:Es. cbn [fst] in K0. destruct K0 as (B0 & _).
    destruct (es_end_epoch p s o) as [s' b] eqn:Ee. cbn [fst snd] in *.
    rewrite last_last. cbv zeta in K. destruct K as (H1 & H2 & H3 & H4).
    assert (Hb : b = true <-> (Nat.max 1 p <= es_steps s')).
    { unfold es_end_epoch in Ee. destruct (nlt o (es_best s)) eqn:E; injection Ee as <- <-; cbn [es_steps].
      - split; [discriminate|lia].
      - rewrite Nat.leb_le. lia. }
    rewrite Hb. split.
    - intros Hp. set (k := length (objs ++ [o]) - Nat.max 1 p).
      exists (firstn k (objs ++ [o])), (skipn k (objs ++ [o])).
      split; [symmetry; apply firstn_skipn|]. split; [rewrite skipn_length; unfold k; lia|].
      intros v Hv Hn. apply below_running in Hn.
      assert (nlt v (running (firstn k (objs ++ [o]))) = false) as F; [|congruence].
      apply running_le_firstn; [|exact Hv].
      (* running is constant from (len - steps) on *)
      set (j := length (objs ++ [o]) - es_steps s') in *.
      assert (j <= k) as Hjk by (unfold j, k; lia).
      rewrite <- H3.
      assert (Mono : forall l k1 k2, k1 <= k2 -> running (firstn k1 l) = running l -> running (firstn k2 l) = running l).
      { clear - L Mnan. intros l k1 k2 Hk E.
        assert (G : forall t h, (forall v, In v t -> nlt v (running h) = false) -> running (h ++ t) = running h).
        { induction t as [|a t IH] using rev_ind; intros h Hh; [rewrite app_nil_r; reflexivity|].
          rewrite app_assoc, running_snoc, IH by (intros; apply Hh; apply in_or_app; auto).
          rewrite Hh; [reflexivity|]. apply in_or_app; right; left; reflexivity. }
        rewrite <- E. assert (firstn k2 l = firstn k1 l ++ firstn (k2 - k1) (skipn k1 l)) as ->.
        { rewrite <- (firstn_skipn k1 (firstn k2 l)). rewrite firstn_firstn, skipn_firstn_comm.
          replace (Nat.min k1 k2) with k1 by lia. reflexivity. }
        apply G. intros v Hv. rewrite E. apply (running_facts l).
        rewrite <- (firstn_skipn k1 l). apply in_or_app; right.
        rewrite <- (firstn_skipn (k2 - k1) (skipn k1 l)). apply in_or_app; left; exact Hv. }
      transitivity (running (objs ++ [o])); [apply (Mono _ j); [lia|exact H3]|]. symmetry. exact H3.
    - intros (h1 & h2 & E & Hl & Hno).
      destruct H4 as [H4|(h & w & t & E' & Ht & Hw)].
      + rewrite H4, E, app_length, Hl. lia.
      + destruct (le_lt_dec (Nat.max 1 p) (es_steps s')) as [|Hlt]; [assumption|]. exfalso.
        (* w lies in h2 and improves on h, hence on h1 *)
        assert (exists m, h = h1 ++ m /\ h2 = m ++ w :: t) as (m & -> & ->).
        { assert (length h1 <= length h).
          { apply (f_equal (@length _)) in E. apply (f_equal (@length _)) in E'.
            rewrite !app_length in *. cbn in *. lia. }
          exists (skipn (length h1) h). rewrite E in E'.
          assert (h1 = firstn (length h1) h) as Eh1.
          { apply (f_equal (firstn (length h1))) in E'. rewrite !firstn_app in E'.
            rewrite Nat.sub_diag, firstn_all in E'. replace (length h1 - length h) with 0 in E' by lia.
            cbn in E'. rewrite !app_nil_r in E'. exact E'. }
          split; [rewrite Eh1 at 1; rewrite firstn_skipn; reflexivity|].
          apply (f_equal (skipn (length h1))) in E'. rewrite !skipn_app in E'.
          rewrite Nat.sub_diag, skipn_all in E'. replace (length h1 - length h) with 0 in E' by lia.
          cbn in E'. exact E'. }
        apply (Hno w); [apply in_or_app; right; left; reflexivity|].
        apply below_running in Hw. destruct Hw as [Hw1 Hw2]. split; [exact Hw1|].
        intros x Hx. apply Hw2. apply in_or_app; left; exact Hx.
  Qed.

  (** ** StoreBestCoordinates *)
  Lemma store_best {X : Type} (evs : list (X * N)) :
    (sb_run evs = sb_init /\ forall x o, In (x, o) evs -> nlt o nmax = false) \/
    (exists pre x o post, evs = pre ++ (x, o) :: post /\
       sb_run evs = {| sb_obj := o; sb_x := Some x |} /\ nlt o nmax = true /\
       (forall y w, In (y, w) pre -> nle w o = false) /\
       (forall y w, In (y, w) post -> nlt w o = false)).
  Proof.
    induction evs as [|[x o] evs IH] using rev_ind.
    - left. split; [reflexivity|]. intros x o [].
    - assert (Es : sb_run (evs ++ [(x, o)]) = sb_evaluate (sb_run evs) x o)
        by (unfold sb_run; rewrite fold_left_app; reflexivity).
      rewrite Es. unfold sb_evaluate. clear Es.
      destruct IH as [[E H]|(pre & y & w & post & E & St & Hw & Hpre & Hpost)].
      + rewrite E. cbn [sb_obj sb_init]. destruct (nlt o nmax) eqn:Eo.
        * right. exists evs, x, o, []. split; [reflexivity|]. split; [reflexivity|]. split; [exact Eo|]. split.
          -- intros z v Hz. specialize (H z v Hz). destruct (nle v o) eqn:K; [|reflexivity].
             rewrite (ol_le_lt N L _ _ _ K Eo) in H. discriminate.
          -- intros z v [].
        * left. split; [reflexivity|]. intros z v Hz. apply in_app_iff in Hz as [Hz|[Hz|[]]]; [eauto|].
          injection Hz as <- <-. exact Eo.
      + rewrite St. cbn [sb_obj]. destruct (nlt o w) eqn:Eo.
        * right. exists evs, x, o, []. split; [reflexivity|]. split; [reflexivity|].
          split; [eapply (ol_trans N L); eauto|]. split; [|intros z v []].
          intros z v Hz. rewrite E in Hz. destruct (nle v o) eqn:K; [|reflexivity]. exfalso.
          pose proof (ol_le_lt N L _ _ _ K Eo) as Kw.
          apply in_app_iff in Hz as [Hz|[Hz|Hz]].
          -- specialize (Hpre z v Hz). rewrite (ol_lt_le N L _ _ Kw) in Hpre. discriminate.
          -- injection Hz as <- <-. rewrite (ol_irrefl N L) in Kw. discriminate.
          -- rewrite (Hpost z v Hz) in Kw. discriminate.
        * right. exists pre, y, w, (post ++ [(x, o)]). split; [rewrite E, <- app_assoc; reflexivity|].
          split; [reflexivity|]. split; [exact Hw|]. split; [exact Hpre|].
          intros z v Hz. apply in_app_iff in Hz as [Hz|[Hz|[]]]; [eauto|]. injection Hz as <- <-. exact Eo.
  Qed.
End ES.

(** ** Clipping *)
Section Clip.
  Context {N : Num}.
  Hypothesis L : OrdLaws N.
  Lemma clamp1_ok (lo hi v : N) : nisnan lo = false -> nisnan hi = false -> nisnan v = false ->
    nlt hi lo = false ->
    nle lo (clamp1 lo hi v) = true /\ nle (clamp1 lo hi v) hi = true /\
    (nle lo v = true -> nle v hi = true -> clamp1 lo hi v = v).
  Proof.
    intros Nl Nh Nv Hlh. unfold clamp1.
    pose proof (ol_total N L hi lo Nh Nl Hlh) as Hle.
    assert (forall x : N, nisnan x = false -> nle x x = true) as Refl.
    { intros x Hx. apply (ol_total N L); auto. apply (ol_irrefl N L). }
    destruct (nlt v lo) eqn:E1; [|destruct (nlt hi v) eqn:E2].
    - split; [apply Refl; exact Nl|]. split; [exact Hle|]. intros H _. rewrite (ol_le_not_lt N L _ _ H) in E1. discriminate.
    - split; [exact Hle|]. split; [apply Refl; exact Nh|]. intros _ H. rewrite (ol_le_not_lt N L _ _ H) in E2. discriminate.
    - split; [apply (ol_total N L); auto|]. split; [apply (ol_total N L); auto|]. reflexivity.
  Qed.
  Lemma clip_by_value (lo hi : N) (g : list N) :
    nisnan lo = false -> nisnan hi = false -> (forall v, In v g -> nisnan v = false) ->
    (nlt hi lo = true -> grad_clip_by_value lo hi g = None) /\
    (nlt hi lo = false -> exists g', grad_clip_by_value lo hi g = Some g' /\ length g' = length g /\
       forall k v, nth_error g k = Some v -> exists v', nth_error g' k = Some v' /\
         nle lo v' = true /\ nle v' hi = true /\
         (nle lo v = true -> nle v hi = true -> v' = v) /\
         (nlt v lo = true -> v' = lo) /\ (nlt v lo = false -> nlt hi v = true -> v' = hi)).
  Proof.
    intros Nl Nh Ng. unfold grad_clip_by_value, clamp. split; [intros ->; reflexivity|]. intros E. rewrite E.
    eexists; split; [reflexivity|]. split; [apply map_length|]. intros k v Hv.
    exists (clamp1 lo hi v). split; [apply map_nth_error; exact Hv|].
    destruct (clamp1_ok lo hi v Nl Nh (Ng v (nth_error_In _ _ Hv)) E) as (A & B & C).
    repeat split; auto; unfold clamp1; intros H; try intros H'; rewrite H; try rewrite H'; reflexivity.
  Qed.
End Clip.

Section ClipR.
  Variable mx : R.
  Notation RN := (RNum mx).
  Local Open Scope R_scope.

  Lemma clip_norm (norm : list R -> R) :
    (forall a g, norm (map (Rmult a) g) = Rabs a * norm g) ->
    forall (m : R) (g : list R), 0 <= m ->
    norm (grad_clip_by_norm (N := RN) norm m g) <= m /\
    (norm g <= m -> grad_clip_by_norm (N := RN) norm m g = g) /\
    (exists a, 0 <= a <= 1 /\ grad_clip_by_norm (N := RN) norm m g = map (Rmult a) g).
  Proof.
    intros Hom m g Hm. unfold grad_clip_by_norm. cbv zeta. cbn [nlt RNum].
    destruct (Rltb_spec m (norm g)) as [Hlt|Hge].
    - assert (Ep : 0 < norm g) by lra.
      assert (E : map (fun v : RN => ndiv v (norm g)) (map (fun v : RN => nmul (m : RN) v) g) = map (Rmult (m / norm g)) g).
      { rewrite map_map. apply map_ext. intros v. cbn. field. lra. }
      rewrite E. split; [|split].
      + rewrite Hom. assert (0 <= m / norm g) by (apply Rmult_le_pos; [lra|]; left; apply Rinv_0_lt_compat; lra).
        rewrite Rabs_right by lra. right. field. lra.
      + lra.
      + exists (m / norm g). split; [|reflexivity]. split.
        * apply Rmult_le_pos; [lra|]. left; apply Rinv_0_lt_compat; lra.
        * apply (Rmult_le_reg_r (norm g)); [lra|]. unfold Rdiv. rewrite Rmult_assoc, Rinv_l by lra. lra.
    - split; [lra|]. split; [reflexivity|]. exists 1. split; [lra|].
      rewrite <- (map_id g) at 1. apply map_ext. intros; ring.
  Qed.

  Lemma sumsq_scale a : forall (g : list R) acc,
    fold_left (fun s v => s + v * v) (map (Rmult a) g) (a * a * acc) =
    a * a * fold_left (fun s v => s + v * v) g acc.
  Proof.
    induction g as [|v g IH]; intros acc; cbn; [reflexivity|]. rewrite <- IH. f_equal. ring.
  Qed.
  Lemma sumsq_nonneg : forall (g : list R) acc, 0 <= acc -> 0 <= fold_left (fun s v => s + v * v) g acc.
  Proof. induction g as [|v g IH]; intros acc H; cbn; [exact H|]. apply IH. pose proof (Rle_0_sqr v). unfold Rsqr in *. lra. Qed.
  Lemma euclid_hom a (g : list R) : euclid (N := RN) (map (Rmult a) g) = Rabs a * euclid (N := RN) g.
  Proof.
    unfold euclid. cbn. replace 0 with (a * a * 0) at 1 by ring. rewrite sumsq_scale.
    rewrite sqrt_mult; [|apply Rle_0_sqr|apply sumsq_nonneg; lra].
    f_equal. apply sqrt_Rsqr_abs.
  Qed.
End ClipR.
