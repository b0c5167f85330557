From Coq Require Import List Arith Bool Reals Lra Lia.
From Verif.Base Require Import Num Vec Size Instances.
From Verif.Model Require Import Common SPSA.
From Verif.Spec Require Import CommonSpec GDSpec SPSASpec.
From Verif.Proof Require Import GDProof.
Import ListNotations.
Local Open Scope R_scope.

Section P.
  Variable mx : R.
  Notation N := (RNum mx).
  Notation vec := (list R).
  Variables (alpha gamma stepSize ess ak : R) (maxIterations : nat) (tolerance : R) (pw : R -> R -> R)
            (f : vec -> R) (coin : nat -> list bool) (cb : CB N vec vec).
  Notation loop := (spsa_loop (N := N) alpha gamma stepSize ess ak maxIterations tolerance pw f coin cb).
  Definition a_ (k : nat) : R := stepSize / pw (INR (k + 1) + ak) alpha.
  Definition c_ (k : nat) : R := ess / pw (INR (k + 1)) gamma.
  Definition s_ (k : nat) : vec := map (fun b : bool => if b then 1 else -1) (coin k).

  Lemma akl_R k : akl (N := N) alpha stepSize ak pw k = a_ k.
  Proof. unfold akl, a_, nofnat. cbn. rewrite <- INR_IZR_INZ. reflexivity. Qed.
  Lemma ckl_R k : ckl (N := N) gamma ess pw k = c_ k.
  Proof. unfold ckl, c_, nofnat. cbn [nofZ ndiv RNum T]. rewrite <- INR_IZR_INZ. reflexivity. Qed.
  Lemma sp_R k : sp (N := N) coin k = s_ k.
  Proof. unfold sp, s_. apply map_ext. intros []; cbn; lra. Qed.

  Lemma plus_R k x : plus (N := N) gamma ess pw coin k x = up c_ s_ k x.
  Proof.
    unfold plus, up, vadd, vscale. rewrite ckl_R, sp_R. cbn. generalize (s_ k). induction x as [|y x IH]; intros [|z l]; cbn; auto.
    f_equal. apply IH.
  Qed.
  Lemma minus_R k x : minus (N := N) gamma ess pw coin k x = down c_ s_ k x.
  Proof.
    unfold minus. rewrite plus_R. unfold up, down, vsub, vscale. rewrite ckl_R, sp_R. unfold nofnat. cbn. generalize (s_ k).
    induction x as [|y x IH]; intros [|z l]; cbn; auto. f_equal; [lra|apply IH].
  Qed.
  Lemma back_R k x : length (coin k) = length x -> back (N := N) gamma ess pw coin k x = x.
  Proof.
    intros H. unfold back. rewrite minus_R. unfold down, vadd, vscale. rewrite ckl_R, sp_R. cbn.
    assert (length (s_ k) = length x) as Hl by (unfold s_; rewrite map_length; exact H).
    revert Hl. generalize (s_ k). clear H.
    induction x as [|y x IH]; intros [|z l] Hl; try discriminate; cbn; auto. f_equal; [lra|]. apply IH. injection Hl; auto.
  Qed.
  Lemma next_R k x : 
    vsub (N := N) x (vscale (N := N) (akl (N := N) alpha stepSize ak pw k)
       (spsa_gradient (N := N) gamma ess pw coin k (f (up c_ s_ k x)) (f (down c_ s_ k x)))) = next a_ c_ s_ f k x.
  Proof.
    unfold next, spsa_gradient, vsub, vscale. rewrite akl_R, ckl_R, sp_R. unfold nofnat. cbn.
    generalize (f (up c_ s_ k x)) (f (down c_ s_ k x)). generalize (s_ k). induction x as [|y x IH]; intros [|z l] p q; cbn; auto.
    f_equal; [unfold Rdiv; rewrite Rmult_1_l; reflexivity|apply IH].
  Qed.
  Lemma next_length k x : length (coin k) = length x -> length (next a_ c_ s_ f k x) = length x.
  Proof. intros H. unfold next. rewrite map2_length. unfold s_. rewrite map_length. lia. Qed.

  Notation clean body := (forallb (fun e => negb (is_begin e || is_end e)) body = true).
  (* the way a run ends, from round k at x with n more full rounds *)
  Definition ending (r : Res N vec vec) (k n : nat) (x0 : vec) (overall last : R) (asked_ : Prop) (tail : list (ev N vec vec)) : Prop :=
    let xf := arrived a_ c_ s_ f n k x0 in
    o_x r = xf /\
    ((tail = [Ev (N := N) xf (f xf)] /\ o_val r = f xf /\ ((k + n = maxIterations)%nat \/ asked_)) \/
     (tail = [Ev (N := N) (up c_ s_ (k + n) xf) (f (up c_ s_ (k + n) xf)); Ev (N := N) (down c_ s_ (k + n) xf) (f (down c_ s_ (k + n) xf)); Ev (N := N) xf (f xf)] /\
      o_val r = f xf /\ asked_) \/
     (tail = [] /\ let vs := last :: overall :: objs a_ c_ s_ f n k x0 in
        o_val r = nth (S n) vs 0 /\ Rabs (nth n vs 0 - nth (S n) vs 0) < tolerance)).

  Lemma spsa_loop_spec : forall fuel k overall last term x tr r,
    loop fuel k overall last term x tr = Some r -> (k <= maxIterations)%nat ->
    (forall k, length (coin k) = length x) ->
    exists n tail, 
      let body := rounds mx a_ c_ s_ f n k x ++ tail in
      o_tr r = rev tr ++ body ++ [End (o_x r)] /\
      (k + n <= maxIterations)%nat /\
      ending r k n x overall last (term = true \/ exists b1 e b2, body = b1 ++ e :: b2 /\ asks e = true /\ cs_stop cb (e :: rev b1 ++ tr) = true) tail /\
      clean body /\
      (term = true -> steps_to body = []) /\
      (forall b1 e b2, body = b1 ++ e :: b2 -> asks e = true -> cs_stop cb (e :: rev b1 ++ tr) = true -> steps_to b2 = []).
  Proof.
    induction fuel as [|fuel IH]; intros k overall last term x tr r; cbn [spsa_loop];
      destruct (negb ((k <? maxIterations)%nat && negb term)) eqn:Hc; intros H Hi Hl; try discriminate.
    1, 2: injection H as <-; exists 0%nat, [Ev (N := N) x (f x)]; cbn; rewrite <- app_assoc; cbn;
      (split; [reflexivity|]); (split; [lia|]); (split; [|split; [reflexivity|split; [reflexivity|]]]);
      [unfold ending; cbn; split; [reflexivity|]; left; split; [reflexivity|]; split; [reflexivity|];
        apply negb_true_iff, andb_false_iff in Hc as [Hc|Hc];
        [left; apply Nat.ltb_ge in Hc; lia|right; left; apply negb_false_iff in Hc; exact Hc]
      |intros [|a [|b b1]] e b2 K; try discriminate K; injection K as <- <-; reflexivity].
    apply negb_false_iff, andb_true_iff in Hc as [Hc1 Hc2]. apply negb_true_iff in Hc2. apply Nat.ltb_lt in Hc1. subst term.
    destruct (nisnan (n := N) overall || nisinf (n := N) overall) eqn:Hn; [discriminate Hn|].
    destruct (nlt (n := N) _ tolerance) eqn:Ht.
    { injection H as <-. exists 0%nat, []. cbn. split; [reflexivity|]. split; [lia|]. split; [|split; [reflexivity|split; [reflexivity|intros [|? ?] ? ? K; discriminate K]]].
      unfold ending; cbn. split; [reflexivity|]. right. right. split; [reflexivity|]. split; [reflexivity|].
      cbn in Ht. destruct (Rltb_spec (Rabs (last - overall)) tolerance); [assumption|discriminate]. }
    rewrite plus_R, minus_R, back_R in H by apply Hl. rewrite next_R in H. cbn [orb] in H.
    set (xp := up c_ s_ k x) in *. set (xm := down c_ s_ k x) in *. set (xn := next a_ c_ s_ f k x) in *.
    match type of H with (if ?b then _ else _) = _ => destruct b eqn:Hs end.
    { injection H as <-. exists 0%nat, [Ev (N := N) xp (f xp); Ev (N := N) xm (f xm); Ev (N := N) x (f x)]. cbn. rewrite <- !app_assoc. cbn.
      split; [reflexivity|]. split; [lia|]. split; [|split; [reflexivity|split; [discriminate|]]].
      - unfold ending; cbn. split; [reflexivity|]. right. left. rewrite Nat.add_0_r. split; [reflexivity|]. split; [reflexivity|]. right.
        apply orb_true_iff in Hs as [Hs|Hs].
        + exists [], (Ev (N := N) xp (f xp)), [Ev (N := N) xm (f xm); Ev (N := N) x (f x)]. auto.
        + exists [Ev (N := N) xp (f xp)], (Ev (N := N) xm (f xm)), [Ev (N := N) x (f x)]. auto.
      - intros [|a [|b [|c [|d b1]]]] e b2 K; try discriminate K; injection K; intros; subst; reflexivity. }
    apply orb_false_iff in Hs as [Hs1 Hs2].
    apply IH in H; [|lia|intros k'; unfold xn; rewrite next_length by apply Hl; apply Hl].
    destruct H as (n & tail & H1 & H2 & H3 & H4 & H5 & H6).
    exists (S n), tail. cbn zeta.
    set (body := rounds mx a_ c_ s_ f n (S k) xn ++ tail) in *.
    assert (Eb : rounds mx a_ c_ s_ f (S n) k x ++ tail = Ev (N := N) xp (f xp) :: Ev (N := N) xm (f xm) :: St xn :: Ev (N := N) xn (f xn) :: body) by reflexivity.
    rewrite Eb.
    split. { rewrite H1. cbn. rewrite <- !app_assoc. reflexivity. }
    split; [lia|]. split.
    { destruct H3 as (A & C). unfold ending. cbn [arrived]. split; [exact A|].
      assert (W : (cs_stop cb (St xn :: Ev (N := N) xm (f xm) :: Ev (N := N) xp (f xp) :: tr) || cs_stop cb (Ev (N := N) xn (f xn) :: St xn :: Ev (N := N) xm (f xm) :: Ev (N := N) xp (f xp) :: tr) = true \/
         (exists b1 e b2, body = b1 ++ e :: b2 /\ asks e = true /\ cs_stop cb (e :: rev b1 ++ Ev (N := N) xn (f xn) :: St xn :: Ev (N := N) xm (f xm) :: Ev (N := N) xp (f xp) :: tr) = true)) ->
         exists b1 e b2, Ev (N := N) xp (f xp) :: Ev (N := N) xm (f xm) :: St xn :: Ev (N := N) xn (f xn) :: body = b1 ++ e :: b2 /\ asks e = true /\ cs_stop cb (e :: rev b1 ++ tr) = true).
      { intros [W|(b1 & e & b2 & W1 & W2 & W3)].
        - apply orb_true_iff in W as [W|W].
          + exists [Ev (N := N) xp (f xp); Ev (N := N) xm (f xm)], (St xn), (Ev (N := N) xn (f xn) :: body). auto.
          + exists [Ev (N := N) xp (f xp); Ev (N := N) xm (f xm); St xn], (Ev (N := N) xn (f xn)), body. auto.
        - exists (Ev (N := N) xp (f xp) :: Ev (N := N) xm (f xm) :: St xn :: Ev (N := N) xn (f xn) :: b1), e, b2.
          rewrite W1. split; [reflexivity|]. split; [exact W2|]. cbn. rewrite <- !app_assoc. exact W3. }
      replace (k + S n)%nat with (S k + n)%nat by lia. fold xn.
      destruct C as [(C1 & C2 & C3)|[(C1 & C2 & C3)|(C1 & C2 & C3)]].
      - left. split; [exact C1|]. split; [exact C2|]. destruct C3 as [C3|C3]; [left; lia|]. right. right. apply W. exact C3.
      - right. left. split; [exact C1|]. split; [exact C2|]. right. apply W. exact C3.
      - right. right. split; [exact C1|]. exact (conj C2 C3). }
    split; [exact H4|]. split; [discriminate|].
    intros b1 e b2 K Ka Ks. destruct b1 as [|a [|a' [|a'' [|a''' b1]]]]; cbn [app] in K.
    - injection K as <- <-. cbn in Ks. exfalso. pose proof (eq_trans (eq_sym Ks) Hs1) as Q. discriminate Q.
    - injection K as <- <- <-. cbn in Ks. exfalso. pose proof (eq_trans (eq_sym Ks) Hs2) as Q. discriminate Q.
    - injection K as <- <- <- <-. apply H5. apply orb_true_iff. left. exact Ks.
    - injection K as <- <- <- <- <-. apply H5. apply orb_true_iff. right. exact Ks.
    - injection K as <- <- <- <- K. apply (H6 b1 e b2); auto. cbn in Ks. rewrite <- !app_assoc in Ks. exact Ks.
  Qed.

  Lemma spsa_ok fuel x r :
    spsa (N := N) alpha gamma stepSize ess ak maxIterations tolerance pw f coin cb fuel x = Some r ->
    (forall k, length (coin k) = length x) ->
    exists n tail, (n <= maxIterations)%nat /\
      o_tr r = Begin x :: rounds mx a_ c_ s_ f n 0 x ++ tail ++ [End (o_x r)] /\
      ending r 0 n x 0 mx (asked cb (o_tr r)) tail /\
      (forall h e rest, asked_at cb (o_tr r) h e rest -> steps_to rest = []).
  Proof.
    intros H Hl. unfold spsa in H. apply spsa_loop_spec in H; [|lia|exact Hl].
    destruct H as (n & tail & H1 & H2 & H3 & H4 & H5 & H6).
    cbn zeta in *. set (body := rounds mx a_ c_ s_ f n 0 x ++ tail) in *.
    cbn [rev app] in H1. exists n, tail. split; [lia|].
    assert (E1 : o_tr r = Begin x :: rounds mx a_ c_ s_ f n 0 x ++ tail ++ [End (o_x r)]) by (rewrite H1; unfold body; rewrite <- app_assoc; reflexivity).
    split; [exact E1|]. split.
    { destruct H3 as (A & C). split; [exact A|].
      assert (W : (false = true \/ exists b1 e b2, body = b1 ++ e :: b2 /\ asks e = true /\ cs_stop cb (e :: rev b1 ++ [Begin x]) = true) -> asked cb (o_tr r)).
      { intros [W|(b1 & e & b2 & W1 & W2 & W3)]; [discriminate|].
        exists (rev b1 ++ [Begin x]), e, (b2 ++ [End (o_x r)]). split; [|split; [exact W2|exact W3]].
        rewrite H1, W1, rev_app_distr, rev_involutive. cbn. rewrite <- app_assoc. reflexivity. }
      destruct C as [(C1 & C2 & C3)|[(C1 & C2 & C3)|C]].
      - left. split; [exact C1|]. split; [exact C2|]. destruct C3 as [C3|C3]; [left; exact C3|right; apply W; exact C3].
      - right. left. split; [exact C1|]. split; [exact C2|]. apply W. exact C3.
      - right. right. exact C. }
    intros h e rest (Ht & Ha & Hs). rewrite H1 in Ht.
    destruct (rev h) as [|z rh] eqn:Eh.
    { cbn in Ht. injection Ht as <- _. discriminate Ha. }
    cbn in Ht. injection Ht as <- Ht.
    assert (Hh : h = rev rh ++ [Begin x]) by (rewrite <- (rev_involutive h), Eh; reflexivity).
    apply split_snoc in Ht as [(b2' & -> & Eb)|(-> & -> & Eb)].
    + unfold steps_to. rewrite flat_map_app. cbn. rewrite app_nil_r. apply (H6 rh e b2' Eb Ha). rewrite Hh in Hs. exact Hs.
    + discriminate Ha.
  Qed.
End P.

Lemma spsa_terminates (N : Num) alpha gamma stepSize ess ak maxIterations (tolerance : N) pw f coin (cb : CB N (list N) (list N)) fuel x :
  (maxIterations <= fuel)%nat ->
  exists r, spsa alpha gamma stepSize ess ak maxIterations tolerance pw f coin cb fuel x = Some r.
Proof.
  intros Hf. unfold spsa.
  assert (K : forall fuel k ov la t x tr, (k <= maxIterations)%nat -> (maxIterations - k <= fuel)%nat ->
    exists r, spsa_loop alpha gamma stepSize ess ak maxIterations tolerance pw f coin cb fuel k ov la t x tr = Some r).
  { clear. induction fuel as [|fuel IH]; intros k ov la t x tr Hk Hf; cbn [spsa_loop].
    - replace (k <? maxIterations)%nat with false by (symmetry; apply Nat.ltb_ge; lia). cbn. eexists; reflexivity.
    - destruct (negb ((k <? maxIterations)%nat && negb t)) eqn:Hc; [eexists; reflexivity|].
      apply negb_false_iff, andb_true_iff in Hc as [Hc1 Hc2]. apply Nat.ltb_lt in Hc1.
      destruct (nisnan ov || nisinf ov); [eexists; reflexivity|].
      destruct (nlt _ _); [eexists; reflexivity|].
      match goal with |- context [if ?b then Some _ else _] => destruct b; [eexists; reflexivity|] end. apply IH; lia. }
  apply K; lia.
Qed.
