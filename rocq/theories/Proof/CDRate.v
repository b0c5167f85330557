From Coq Require Import List Arith Bool Reals Lra Lia Psatz.
From Verif.Base Require Import Num Vec Size Instances.
From Verif.Model Require Import Common CD.
From Verif.Spec Require Import CommonSpec GDSpec CDSpec Gradient ConvergeSpec CoinSpec CDRateSpec.
From Verif.Proof Require Import CDProof CoinProof.
Import ListNotations.
Local Open Scope R_scope.

(* ---- vectors ---- *)
Lemma dot_scale t : forall g, dotR g (map (Rmult t) g) = t * sqn g.
Proof. induction g as [|a g IH]; unfold sqn in *; cbn; [lra|]. rewrite IH. ring. Qed.
Lemma sqn_scale t : forall g, sqn (map (Rmult t) g) = t * t * sqn g.
Proof. induction g as [|a g IH]; unfold sqn in *; cbn; [lra|]. rewrite IH. ring. Qed.
Lemma sqdist_self a : sqdist a a = 0.
Proof. induction a as [|x a IH]; cbn; [reflexivity|]. rewrite IH. ring. Qed.
Lemma sqdist_nonneg a : forall b, 0 <= sqdist a b.
Proof. induction a as [|x a IH]; intros [|y b]; cbn; try lra. specialize (IH b). pose proof (Rle_0_sqr (x - y)) as P. unfold Rsqr in P. lra. Qed.
Lemma sqdist_minus : forall c h, length c = length h -> sqdist c (map2 Rminus c h) = sqn h.
Proof. induction c as [|x c IH]; intros [|y h] H; try discriminate; unfold sqn in *; cbn; [reflexivity|]. rewrite IH by (injection H; auto). ring. Qed.
Lemma sqdist_tri (k : R) : 0 < k -> forall a b c, length a = length b -> length b = length c ->
  sqdist a c <= (1 + 1 / k) * sqdist a b + (1 + k) * sqdist b c.
Proof.
  intros Hk. assert (0 < 1 / k) as Pk by (apply Rdiv_lt_0_compat; lra).
  induction a as [|x a IH]; intros [|y b] [|z c] H1 H2; try discriminate; cbn [sqdist]; [lra|].
  specialize (IH b c ltac:(injection H1; auto) ltac:(injection H2; auto)).
  assert ((x - z) * (x - z) <= (1 + 1 / k) * ((x - y) * (x - y)) + (1 + k) * ((y - z) * (y - z))) as E.
  { set (u := x - y). set (v := y - z). replace (x - z) with (u + v) by (unfold u, v; ring).
    assert ((1 + 1 / k) * (u * u) + (1 + k) * (v * v) - (u + v) * (u + v) = (u - k * v) * (u - k * v) / k) as Q by (field; lra).
    assert (0 <= (u - k * v) * (u - k * v) / k) by (apply Rmult_le_pos; [apply Rle_0_sqr|apply Rlt_le, Rinv_0_lt_compat; lra]). lra. }
  lra.
Qed.
Lemma sqn_young a : forall b, length a = length b -> sqn a <= 2 * sqn b + 2 * sqdist b a.
Proof.
  induction a as [|x a IH]; intros [|y b] H; try discriminate; unfold sqn in *; cbn; [lra|].
  specialize (IH b ltac:(injection H; auto)). pose proof (Rle_0_sqr (2 * y - x)) as P. unfold Rsqr in P. lra.
Qed.
(* ---- matrices ---- *)
Lemma msq_nonneg x : forall y, 0 <= msq x y.
Proof.
  unfold msq. induction x as [|a x IH]; intros [|b y]; cbn; try lra. specialize (IH y). pose proof (sqdist_nonneg a b). lra.
Qed.
Lemma msq_self x : msq x x = 0.
Proof. unfold msq. induction x as [|a x IH]; cbn; [reflexivity|]. rewrite IH, sqdist_self. lra. Qed.
Lemma shaped_cons d m a x : shaped (S d) m (a :: x) <-> length a = m /\ shaped d m x.
Proof.
  unfold shaped. cbn. split.
  - intros [A B]. split; [apply B; left; reflexivity|]. split; [lia|]. intros c Hc. apply B. right. exact Hc.
  - intros [A [B C]]. split; [lia|]. intros c [<-|Hc]; [exact A|apply C; exact Hc].
Qed.
Lemma msq_tri (k : R) m : 0 < k -> forall d x y z, shaped d m x -> shaped d m y -> shaped d m z ->
  msq x z <= (1 + 1 / k) * msq x y + (1 + k) * msq y z.
Proof.
  intros Hk. unfold msq. induction d as [|d IH]; intros x y z Sx Sy Sz;
    destruct x as [|a x]; try (destruct Sx; discriminate); destruct y as [|b y]; try (destruct Sy; discriminate);
    destruct z as [|c z]; try (destruct Sz; discriminate); [cbn; lra|].
  apply shaped_cons in Sx as [A1 A2]. apply shaped_cons in Sy as [B1 B2]. apply shaped_cons in Sz as [C1 C2].
  cbn [combine map sumR fst snd]. specialize (IH x y z A2 B2 C2). pose proof (sqdist_tri k Hk a b c ltac:(congruence) ltac:(congruence)). lra.
Qed.
Lemma minus_column_cons j h a x b y : minus_column (S j) h (a :: x) (b :: y) -> b = a /\ minus_column j h x y.
Proof.
  intros (A & B & C). split; [specialize (B 0%nat ltac:(lia)); cbn in B; congruence|].
  split; [cbn in A; lia|]. split; [intros k Hk; exact (B (S k) ltac:(lia))|exact C].
Qed.
Lemma nth_error_eq {A} : forall x y : list A, (forall k, nth_error x k = nth_error y k) -> x = y.
Proof.
  induction x as [|a x IH]; intros [|b y] H; auto; try (specialize (H 0%nat); cbn in H; discriminate).
  pose proof (H 0%nat) as H0. cbn in H0. injection H0 as <-. f_equal. apply IH. intros k. exact (H (S k)).
Qed.
Lemma minus_column_ok m h : length h = m -> forall d j x y, shaped d m x -> (j < d)%nat -> minus_column j h x y ->
  shaped d m y /\ msq x y = sqn h.
Proof.
  intros Hh. induction d as [|d IH]; intros j x y Sx Hj M; [lia|].
  destruct x as [|a x]; [destruct Sx; discriminate|]. destruct y as [|b y]; [destruct M; discriminate|].
  apply shaped_cons in Sx as [Ha Sx]. destruct j as [|j].
  - destruct M as (A & B & C). cbn in C. injection C as ->. assert (y = x) as -> by (apply nth_error_eq; intros k; exact (B (S k) ltac:(lia))).
    split; [apply shaped_cons; split; [rewrite map2_length; lia|exact Sx]|].
    change (sqdist a (map2 Rminus a h) + msq x x = sqn h). rewrite msq_self, sqdist_minus by congruence. lra.
  - apply minus_column_cons in M as [-> M]. destruct (IH j x y Sx ltac:(lia) M) as [P Q].
    split; [apply shaped_cons; auto|]. change (sqdist a a + msq x y = sqn h). rewrite sqdist_self, Q. lra.
Qed.

Section Rate.
  Variable mx : R.
  Notation N := (RNum mx).
  Variables (d m : nat) (L alpha : R) (f : matR -> R) (pg : matR -> nat -> matR).
  Hypothesis HS : column_smooth d m L f pg.
  Hypothesis Ha : 0 < alpha.
  Hypothesis HL : alpha * L <= 2.
  Definition gain : R := alpha * (1 - alpha * L / 2).
  Lemma gain_nonneg : 0 <= gain.
  Proof. unfold gain. apply Rmult_le_pos; nra. Qed.

  Lemma moved_minus x j y : (j < length (pg x j))%nat -> moves_column (N := N) alpha x j (pg x j) y ->
    minus_column j (map (Rmult alpha) (part pg x j)) x y.
  Proof.
    intros Hj (A & B & c & e & E1 & E2 & E3). split; [exact A|]. split; [exact B|]. etransitivity; [exact E3|].
    assert (part pg x j = e) as -> by (unfold part; apply nth_error_nth; exact E2).
    etransitivity; [|apply (f_equal (option_map (fun c0 => map2 Rminus c0 (map (Rmult alpha) e)))); symmetry; exact E1]. reflexivity.
  Qed.
  Lemma step_ok x j y : shaped d m x -> (j < d)%nat -> moves_column (N := N) alpha x j (pg x j) y ->
    shaped d m y /\ f y <= f x - gain * sqn (part pg x j) /\ msq x y = alpha * alpha * sqn (part pg x j).
  Proof.
    intros Sx Hj M. destruct (HS x j Sx Hj) as (A & B & C). pose proof (moved_minus x j y A M) as M'.
    assert (length (map (Rmult alpha) (part pg x j)) = m) as Hh by (rewrite map_length; exact B).
    destruct (minus_column_ok m _ Hh d j x y Sx Hj M') as [P Q]. split; [exact P|]. split; [|rewrite Q; apply sqn_scale].
    specialize (C _ y Hh M'). rewrite dot_scale, sqn_scale in C. unfold gain. nra.
  Qed.

  Lemma in_shape (x : matR) (j : nat) : shaped d m x -> (j < d)%nat -> (j < length x)%nat.
  Proof. intros [E _] H. lia. Qed.
  (* ---- any run ---- *)
  Lemma walk_ok : forall es xs x, shaped d m x -> walk (N := N) alpha x es xs ->
    (forall e, In e es -> (p_feat (N := N) e < d)%nat /\ p_grad' (N := N) e = pg (p_at (N := N) e) (p_feat (N := N) e)) ->
    gain * sumR (map (fun e => sqn (part pg (p_at (N := N) e) (p_feat (N := N) e))) (firstn (length xs) es)) <= f x - f (List.last xs x) /\
    shaped d m (List.last xs x).
  Proof.
    induction es as [|e es IH]; intros xs x Sx W H; cbn [walk] in W.
    { subst xs. cbn. split; [lra|exact Sx]. }
    destruct W as [E W]. destruct xs as [|y xs]; [cbn; split; [lra|exact Sx]|]. destruct W as [M W].
    destruct (H e (or_introl eq_refl)) as [Hj Hg]. rewrite Hg, E in M.
    destruct (step_ok x (p_feat (N := N) e) y Sx Hj M) as (Sy & D & _).
    destruct (IH xs y Sy W (fun e' He => H e' (or_intror He))) as [A B].
    assert (List.last (y :: xs) x = List.last xs y) as LE.
    { clear. destruct xs as [|a xs]; [reflexivity|]. change (List.last (a :: xs) x = List.last (a :: xs) y). revert a. induction xs as [|b xs IH]; intros a; [reflexivity|]. exact (IH b). }
    rewrite LE. split; [|exact B]. cbn [length firstn map sumR]. rewrite E. lra.
  Qed.

  (* ---- runs that nobody stops ---- *)
  Definition stepf (x : matR) (j : nat) : matR := sub_col (N := N) j (vscale (N := N) alpha (nth j (pg x j) [])) x.
  Lemma stepf_ok x j : shaped d m x -> (j < d)%nat ->
    shaped d m (stepf x j) /\ f (stepf x j) <= f x - gain * sqn (part pg x j) /\ msq x (stepf x j) = alpha * alpha * sqn (part pg x j).
  Proof.
    intros Sx Hj. apply step_ok; try assumption. destruct (HS x j Sx Hj) as (A & _). apply sub_col_moves; [exact (in_shape x j Sx Hj)|].
    apply nth_error_nth'. exact A.
  Qed.
  Lemma loop_all maxIterations tol upd policy (cb : CB N matR matR) : upd <> 0%nat -> tol <= 0 -> (forall tr, cs_stop cb tr = false) ->
    (forall h x v g, cs_grad cb h x v g = g) ->
    forall js fuel i ov last x tr, (i + length js = bound maxIterations)%nat -> (length js <= fuel)%nat -> shaped d m x ->
    (forall k j, nth_error js k = Some j -> (j < d)%nat /\ forall y, policy (i + k)%nat y = Some j) ->
    exists r, cd_loop (N := N) alpha maxIterations tol upd f pg policy cb fuel i ov last false x tr = Ret r /\
      o_x r = fold_left stepf js x /\ o_val r = f (o_x r).
  Proof.
    intros Hu Ht Hs Hg. induction js as [|j js IH]; intros fuel i ov last x tr Hi Hf Sx HP.
    - assert (negb (negb (i =? bound maxIterations) && negb false) = true) as E by (cbn in Hi; rewrite (proj2 (Nat.eqb_eq _ _)) by lia; reflexivity).
      exists (cd_final (N := N) f x tr). destruct fuel; cbn [cd_loop]; rewrite E; repeat split.
    - cbn in Hi, Hf. destruct fuel as [|fuel]; [lia|]. cbn [cd_loop].
      assert (negb (negb (i =? bound maxIterations) && negb false) = false) as -> by (rewrite (proj2 (Nat.eqb_neq _ _)) by lia; reflexivity).
      destruct (HP 0%nat j eq_refl) as [Hj Hp]. rewrite Nat.add_0_r in Hp. rewrite Hp. rewrite !Hs, !Hg. cbn [orb].
      destruct (HS x j Sx Hj) as (A & _). 
      match goal with |- context [negb (?a && ?b)] => assert (a && b = true) as -> end.
      { apply andb_true_iff. split; apply Nat.ltb_lt; [exact (in_shape x j Sx Hj)|exact A]. }
      cbn [negb]. rewrite (proj2 (Nat.eqb_neq upd 0) Hu). destruct (stepf_ok x j Sx Hj) as (Sy & _).
      assert (forall k j', nth_error js k = Some j' -> (j' < d)%nat /\ forall y, policy (S i + k)%nat y = Some j') as HP'.
      { intros k j' Hk. specialize (HP (S k) j' Hk). rewrite Nat.add_succ_r in HP. exact HP. }
      destruct (i mod upd =? 0).
      + cbn [nisnan nisinf RNum orb].
        match goal with |- context [if ?b then Ret _ else _] => assert (b = false) as -> end.
        { cbn. unfold Rltb. destruct (Rlt_dec _ _) as [Hl|Hl]; [|reflexivity]. exfalso. match type of Hl with Rabs ?z < _ => pose proof (Rabs_pos z) end. lra. }
        cbn [fold_left]. apply (IH fuel (S i)); try lia; assumption.
      + cbn [fold_left]. apply (IH fuel (S i)); try lia; assumption.
  Qed.

  (* ---- averages over random features ---- *)
  Variables (mu : R) (best : matR).
  Hypothesis Hmu : 0 < mu.
  Hypothesis Hd : (0 < d)%nat.
  Hypothesis HG : gradient_dominated d m mu f pg best.
  Hypothesis HB : forall x, shaped d m x -> f best <= f x.
  Definition kappa : R := 2 * mu * gain / INR d.
  Lemma choices_ne n : choices n d <> [].
  Proof.
    induction n as [|n IH]; [discriminate|]. cbn [choices]. destruct d as [|d']; [lia|]. cbn [seq flat_map].
    destruct (choices n (S d')); [congruence|discriminate].
  Qed.
  Lemma mean_choices n v : mean (choices (S n) d) v = mean (seq 0 d) (fun j => mean (choices n d) (fun t => v (j :: t))).
  Proof.
    unfold mean. assert (INR (length (choices (S n) d)) = INR (length (seq 0 d)) * INR (length (choices n d))) as ->.
    { rewrite <- mult_INR. f_equal. cbn [choices]. induction (seq 0 d) as [|b l IH]; [reflexivity|].
      cbn [flat_map length]. rewrite app_length, IH, map_length. lia. }
    unfold Rdiv. rewrite Rinv_mult, (Rmult_comm (/ INR (length (seq 0 d)))), <- Rmult_assoc. f_equal.
    cbn [choices]. induction (seq 0 d) as [|b l IH]; [cbn; lra|]. cbn [flat_map map sumR]. rewrite map_app, sum_app, map_map, <- IH. ring.
  Qed.
  Lemma choices_in n : forall js, In js (choices n d) <-> length js = n /\ forall j, In j js -> (j < d)%nat.
  Proof.
    induction n as [|n IH]; intros t; cbn [choices].
    - split; [intros [<-|[]]; split; [reflexivity|intros b []]|]. intros [H _]. destruct t; [left; reflexivity|discriminate].
    - rewrite in_flat_map. split.
      + intros (b & Hb & Ht). apply in_map_iff in Ht as (u & <- & Hu). apply IH in Hu as [A B]. apply in_seq in Hb.
        split; [cbn; f_equal; exact A|]. intros c [<-|Hc]; [lia|apply B; exact Hc].
      + intros [A B]. destruct t as [|b t]; [discriminate|]. exists b. split; [apply in_seq; specialize (B b (or_introl eq_refl)); lia|].
        apply in_map. apply IH. split; [injection A; auto|]. intros c Hc. apply B. right. exact Hc.
  Qed.
  Lemma step_avg x : shaped d m x -> mean (seq 0 d) (fun j => f (stepf x j)) - f best <= (1 - kappa) * (f x - f best).
  Proof.
    intros Sx. assert (0 < INR d) as Pd by (apply lt_0_INR; exact Hd). pose proof (HG x Sx) as G. pose proof gain_nonneg as Pg.
    assert (mean (seq 0 d) (fun j => f (stepf x j)) <= mean (seq 0 d) (fun j => f x + (- gain) * sqn (part pg x j))) as M.
    { apply mean_le. intros j Hj. apply in_seq in Hj. destruct (stepf_ok x j Sx ltac:(lia)) as (_ & D & _). lra. }
    rewrite mean_affine in M by (destruct d; [lia|discriminate]). unfold mean in M at 2. rewrite seq_length in M. fold (grad_sq pg d x) in M.
    assert (gain * (2 * mu * (f x - f best)) / INR d <= gain * (grad_sq pg d x / INR d)) as Q.
    { unfold Rdiv. rewrite Rmult_assoc. apply Rmult_le_compat_l; [exact Pg|]. apply Rmult_le_compat_r; [apply Rlt_le, Rinv_0_lt_compat; exact Pd|exact G]. }
    unfold kappa. replace ((1 - 2 * mu * gain / INR d) * (f x - f best)) with (f x - f best - gain * (2 * mu * (f x - f best)) / INR d) by (field; lra). lra.
  Qed.
  Lemma flat : 1 < kappa -> forall x, shaped d m x -> f x = f best.
  Proof.
    intros K x Sx. pose proof (step_avg x Sx) as S. pose proof (HB x Sx) as B.
    assert (f best <= mean (seq 0 d) (fun j => f (stepf x j))) as Lo.
    { replace (f best) with (mean (seq 0 d) (fun j => f best + 0 * f (stepf x j))).
      - apply mean_le. intros j Hj. apply in_seq in Hj. destruct (stepf_ok x j Sx ltac:(lia)) as (Sy & _). pose proof (HB _ Sy). lra.
      - rewrite mean_affine by (destruct d; [lia|discriminate]). lra. }
    nra.
  Qed.
  Lemma fold_shaped : forall js x, shaped d m x -> (forall j, In j js -> (j < d)%nat) -> shaped d m (fold_left stepf js x).
  Proof.
    induction js as [|j js IH]; intros x Sx H; [exact Sx|]. cbn [fold_left]. apply IH; [|intros i Hi; apply H; right; exact Hi].
    apply stepf_ok; [exact Sx|apply H; left; reflexivity].
  Qed.
  Lemma random_mean : forall n x, shaped d m x ->
    mean (choices n d) (fun js => f (fold_left stepf js x)) - f best <= (1 - kappa) ^ n * (f x - f best).
  Proof.
    destruct (Rle_dec kappa 1) as [K|K].
    - induction n as [|n IH]; intros x Sx; [unfold mean; cbn; lra|]. rewrite mean_choices. cbn [fold_left].
      assert (0 <= (1 - kappa) ^ n) as P by (apply pow_le; lra). set (p := (1 - kappa) ^ n) in *.
      assert (mean (seq 0 d) (fun j => mean (choices n d) (fun js => f (fold_left stepf js (stepf x j))))
        <= mean (seq 0 d) (fun j => (1 - p) * f best + p * f (stepf x j))) as M.
      { apply mean_le. intros j Hj. apply in_seq in Hj. destruct (stepf_ok x j Sx ltac:(lia)) as (Sy & _). specialize (IH _ Sy). lra. }
      rewrite (mean_affine (seq 0 d) (fun j => f (stepf x j))) in M by (destruct d; [lia|discriminate]).
      pose proof (step_avg x Sx) as S. set (v := mean (seq 0 d) (fun j => f (stepf x j))) in *.
      assert (p * (v - f best) <= p * ((1 - kappa) * (f x - f best))) by (apply Rmult_le_compat_l; assumption).
      cbn [pow]. fold p. nra.
    - intros n x Sx. assert (1 < kappa) as K' by lra. rewrite (flat K' x Sx).
      assert (mean (choices n d) (fun js => f (fold_left stepf js x)) <= mean (choices n d) (fun js => f best + 0 * f (fold_left stepf js x))) as M.
      { apply mean_le. intros js Hjs. apply choices_in in Hjs as [_ Hjs]. rewrite (flat K' _ (fold_shaped js x Sx Hjs)). lra. }
      rewrite mean_affine in M by apply choices_ne. lra.
  Qed.

  (* ---- sweeps ---- *)
  Variable M : R.
  Hypothesis HM : parts_lipschitz d m M pg.
  Fixpoint path (js : list nat) (x : matR) : list (nat * matR) :=
    match js with [] => [] | j :: r => (j, x) :: path r (stepf x j) end.
  Definition spent (p : list (nat * matR)) : R := sumR (map (fun q => sqn (part pg (snd q) (fst q))) p).
  Lemma spent_nonneg p : 0 <= spent p.
  Proof. unfold spent. induction p as [|q p IH]; cbn; [lra|]. pose proof (sqn_nonneg (part pg (snd q) (fst q))). lra. Qed.
  Lemma path_map js : forall x, map fst (path js x) = js.
  Proof. induction js as [|j js IH]; intros x; cbn; [reflexivity|]. f_equal. apply IH. Qed.
  Lemma path_shaped : forall js x, shaped d m x -> (forall j, In j js -> (j < d)%nat) -> forall q, In q (path js x) -> shaped d m (snd q) /\ (fst q < d)%nat.
  Proof.
    induction js as [|j js IH]; intros x Sx H q Hq; [destruct Hq|]. cbn in Hq. destruct Hq as [<-|Hq].
    - split; [exact Sx|apply H; left; reflexivity].
    - apply (IH (stepf x j)); [apply stepf_ok; [exact Sx|apply H; left; reflexivity]|intros i Hi; apply H; right; exact Hi|exact Hq].
  Qed.
  Lemma path_down : forall js x, shaped d m x -> (forall j, In j js -> (j < d)%nat) ->
    f (fold_left stepf js x) <= f x - gain * spent (path js x).
  Proof.
    induction js as [|j js IH]; intros x Sx H; cbn [fold_left path]; unfold spent; cbn [map sumR fst snd]; [lra|].
    destruct (stepf_ok x j Sx (H j (or_introl eq_refl))) as (Sy & D & _).
    specialize (IH (stepf x j) Sy (fun i Hi => H i (or_intror Hi))). unfold spent in IH. lra.
  Qed.
  (* the points of the path stay close to the start [x0], [k] steps and cost [s] before *)
  Lemma path_close x0 : shaped d m x0 -> forall js x k s, shaped d m x -> (forall j, In j js -> (j < d)%nat) -> 0 <= s ->
    msq x0 x <= INR k * (alpha * alpha * s) ->
    forall q, In q (path js x) -> msq x0 (snd q) <= INR (k + length js) * (alpha * alpha * (s + spent (path js x))).
  Proof.
    intros S0. induction js as [|j js IH]; intros x k s Sx H Ps Hx q Hq; [destruct Hq|]. cbn [path] in *.
    assert (spent ((j, x) :: path js (stepf x j)) = sqn (part pg x j) + spent (path js (stepf x j))) as E by reflexivity. rewrite E. clear E.
    pose proof (sqn_nonneg (part pg x j)) as P1. pose proof (spent_nonneg (path js (stepf x j))) as P2.
    set (g := sqn (part pg x j)) in *. set (w := spent (path js (stepf x j))) in *. set (A := alpha * alpha) in *.
    assert (0 <= A) as PA by (unfold A; apply Rle_0_sqr). destruct Hq as [<-|Hq].
    - cbn [snd]. eapply Rle_trans; [exact Hx|]. apply Rmult_le_compat; [apply pos_INR|apply Rmult_le_pos; lra|apply le_INR; lia|].
      apply Rmult_le_compat_l; lra.
    - destruct (stepf_ok x j Sx (H j (or_introl eq_refl))) as (Sy & _ & Q). fold g in Q. fold A in Q.
      assert (msq x0 (stepf x j) <= INR (S k) * (A * (s + g))) as C.
      { destruct k as [|k].
        - assert (msq x0 x = 0) as Z by (pose proof (msq_nonneg x0 x); cbn in Hx; lra).
          (* both parts of the triangle with weight 1 would lose a factor; use a small weight *)
          apply Rnot_gt_le. intros G.
          assert (0 <= msq x0 (stepf x j)) as PN by apply msq_nonneg.
          cbn [INR] in G. set (t := msq x0 (stepf x j)) in *.
          assert (0 < t - A * g) as G2 by nra. assert (0 <= A * g) as G3 by nra.
          set (e := (t - A * g) / (2 * (A * g + 1))). assert (0 < e) as Pe by (apply Rdiv_lt_0_compat; lra).
          pose proof (msq_tri e m Pe d x0 x (stepf x j) S0 Sx Sy) as T. rewrite Z, Q in T. fold t in T.
          assert (e * (A * g) <= (t - A * g) / 2) as T2.
          { unfold e. replace ((t - A * g) / (2 * (A * g + 1)) * (A * g)) with ((t - A * g) / 2 * (A * g / (A * g + 1))) by (field; lra).
            assert (A * g / (A * g + 1) <= 1) by (apply (Rmult_le_reg_r (A * g + 1)); [lra|]; unfold Rdiv; rewrite Rmult_assoc, Rinv_l by lra; lra).
            nra. }
          nra.
        - assert (0 < INR (S k)) as Pk by (apply lt_0_INR; lia). pose proof (msq_tri (INR (S k)) m Pk d x0 x (stepf x j) S0 Sx Sy) as T. rewrite Q in T.
          rewrite (S_INR (S k)). set (kk := INR (S k)) in *.
          assert ((1 + 1 / kk) * msq x0 x <= (1 + 1 / kk) * (kk * (A * s))) as T2.
          { apply Rmult_le_compat_l; [|exact Hx]. assert (0 < 1 / kk) by (apply Rdiv_lt_0_compat; lra). lra. }
          replace ((1 + 1 / kk) * (kk * (A * s))) with ((kk + 1) * (A * s)) in T2 by (field; lra). lra. }
      specialize (IH (stepf x j) (S k) (s + g) Sy (fun i Hi => H i (or_intror Hi)) ltac:(lra) C q Hq).
      fold w in IH. cbn [length]. replace (k + S (length js))%nat with (S k + length js)%nat by lia. replace (s + (g + w)) with (s + g + w) by ring. exact IH.
  Qed.
  Lemma cover_sum (a : nat -> R) : (forall j, 0 <= a j) -> forall l js, NoDup l -> (forall j, In j l -> In j js) -> sumR (map a l) <= sumR (map a js).
  Proof.
    intros P. induction l as [|j l IH]; intros js ND H; cbn.
    - clear H. induction js as [|i js IHj]; cbn; [lra|]. specialize (P i). lra.
    - inversion ND as [|? ? N1 N2]; subst. destruct (in_split j js (H j (or_introl eq_refl))) as (u & v & ->).
      specialize (IH (u ++ v) N2). rewrite !map_app, !sum_app in *. cbn [map sumR].
      assert (sumR (map a l) <= sumR (map a u) + sumR (map a v)).
      { apply IH. intros i Hi. specialize (H i (or_intror Hi)). apply in_app_iff in H. apply in_app_iff. cbn in H.
        destruct H as [H|[H|H]]; auto. subst i. contradiction. }
      lra.
  Qed.
  Definition swept (w : nat) : R := mu * gain / (1 + INR w * INR w * (M * M * (alpha * alpha))).
  Lemma sweep js x : shaped d m x -> (forall j, In j js -> (j < d)%nat) -> (forall j, (j < d)%nat -> In j js) ->
    f (fold_left stepf js x) - f best <= (1 - swept (length js)) * (f x - f best).
  Proof.
    intros Sx H C. pose proof (path_down js x Sx H) as D. pose proof (HG x Sx) as G. pose proof gain_nonneg as Pg.
    set (S := spent (path js x)) in *. assert (0 <= S) as PS by apply spent_nonneg. set (w := INR (length js)).
    assert (0 <= w) as Pw by apply pos_INR. set (B := M * M * (alpha * alpha)). assert (0 <= B) as PB by (unfold B; apply Rmult_le_pos; apply Rle_0_sqr).
    assert (grad_sq pg d x <= 2 * (1 + w * w * B) * S) as K.
    { unfold grad_sq. eapply Rle_trans; [apply (cover_sum (fun j => sqn (part pg x j)) (fun j => sqn_nonneg _) (seq 0 d) js (seq_NoDup d 0)); intros j Hj; apply C; apply in_seq in Hj; lia|].
      rewrite <- (path_map js x) at 1. rewrite map_map.
      eapply Rle_trans; [apply (sum_le _ (fun q => 2 * sqn (part pg (snd q) (fst q)) + 2 * (w * B * S)))|].
      - intros q Hq. destruct (path_shaped js x Sx H q Hq) as [Sq Hj]. destruct (HS x (fst q) Sx Hj) as (_ & L1 & _). destruct (HS (snd q) (fst q) Sq Hj) as (_ & L2 & _).
        pose proof (sqn_young (part pg x (fst q)) (part pg (snd q) (fst q)) ltac:(congruence)) as Y.
        pose proof (HM (snd q) x (fst q) Sq Sx Hj) as LL.
        assert (msq (snd q) x = msq x (snd q)) as SY.
        { clear. unfold msq. generalize (snd q). clear q. induction x as [|a x IH]; intros [|b y]; cbn; auto. rewrite IH. f_equal.
          clear. revert b. induction a as [|u a IH]; intros [|v b]; cbn; auto. rewrite IH. ring. }
        pose proof (path_close x Sx js x 0 0 Sx H ltac:(lra) ltac:(rewrite msq_self; cbn; lra) q Hq) as CL. cbn [Nat.add] in CL. fold w in CL. fold S in CL.
        rewrite SY in LL. assert (M * M * msq x (snd q) <= M * M * (w * (alpha * alpha * (0 + S)))) by (apply Rmult_le_compat_l; [apply Rle_0_sqr|exact CL]).
        unfold B. lra.
      - rewrite sum_add, sum_mul. fold (spent (path js x)). fold S. rewrite sum_const.
        assert (length (path js x) = length js) as -> by (rewrite <- (path_map js x) at 2; rewrite map_length; reflexivity). fold w. lra. }
    unfold swept. fold w. fold B. assert (0 <= w * w * B) as PW by (apply Rmult_le_pos; [apply Rle_0_sqr|exact PB]). set (Q := 1 + w * w * B) in *.
    assert (mu * (f x - f best) / Q <= S) as F.
    { apply (Rmult_le_reg_r Q); [unfold Q; lra|]. unfold Rdiv. rewrite Rmult_assoc, Rinv_l by (unfold Q; lra). lra. }
    assert (gain * (mu * (f x - f best) / Q) <= gain * S) by (apply Rmult_le_compat_l; assumption).
    replace ((1 - mu * gain / Q) * (f x - f best)) with (f x - f best - gain * (mu * (f x - f best) / Q)) by (field; unfold Q; lra). lra.
  Qed.
  (* several sweeps *)
  Lemma sweeps w : forall wins x, shaped d m x ->
    (forall js, In js wins -> length js = w /\ (forall j, In j js -> (j < d)%nat) /\ forall j, (j < d)%nat -> In j js) ->
    f (fold_left stepf (concat wins) x) - f best <= (1 - swept w) ^ length wins * (f x - f best).
  Proof.
    assert (forall js x, shaped d m x -> length js = w -> (forall j, In j js -> (j < d)%nat) -> (forall j, (j < d)%nat -> In j js) ->
      0 <= f (fold_left stepf js x) - f best) as LO.
    { intros js x Sx _ H _. pose proof (HB _ (fold_shaped js x Sx H)). lra. }
    induction wins as [|js wins IH]; intros x Sx H; cbn [concat fold_left length pow]; [lra|]. rewrite fold_left_app.
    destruct (H js (or_introl eq_refl)) as (H1 & H2 & H3). pose proof (sweep js x Sx H2 H3) as S1. rewrite H1 in S1.
    pose proof (fold_shaped js x Sx H2) as Sy. specialize (IH _ Sy (fun j Hj => H j (or_intror Hj))).
    pose proof (LO js x Sx H1 H2 H3) as P1. pose proof (HB x Sx) as P0. set (u := f (fold_left stepf js x) - f best) in *. set (v := f x - f best) in *.
    assert (0 <= v) as Pv by (unfold v; lra).
    destruct (Rle_dec (swept w) 1) as [K|K].
    - assert (0 <= (1 - swept w) ^ length wins) as P by (apply pow_le; lra). eapply Rle_trans; [exact IH|]. 
      eapply Rle_trans; [apply Rmult_le_compat_l; [exact P|exact S1]|]. apply Req_le. ring.
    - assert (v = 0) as -> by nra. assert (u = 0) as Eu by lra. rewrite Eu in IH. lra.
  Qed.
End Rate.

(* callbacks that leave gradients alone leave no trace in the events *)
Definition unedited {X G} {N : Num} (e : ev N X G) : Prop := match e with Gr _ _ g g' => g' = g | _ => True end.
Lemma cd_unedited (N : Num) (stepSize : N) maxIterations tol upd f pg policy (cb : CB N (list (list N)) (list (list N))) :
  (forall h x v g, cs_grad cb h x v g = g) -> forall fuel i ov last term x tr r,
  cd_loop stepSize maxIterations tol upd f pg policy cb fuel i ov last term x tr = Ret r ->
  (forall e, In e tr -> unedited e) -> forall e, In e (o_tr r) -> unedited e.
Proof.
  intros Hg. induction fuel as [|fuel IH]; intros i ov last term x tr r; cbn [cd_loop]; destruct (negb _); intros H HT e He; try discriminate.
  1, 2: injection H as <-; cbn in He; rewrite !in_app_iff in He; cbn in He; destruct He as [[He|[<-|[]]]|[<-|[]]]; try exact I; apply HT, in_rev; exact He.
  destruct (policy i x) as [j|]; [|discriminate]. rewrite Hg in H.
  assert (forall e, In e (Gr x j (pg x j) (pg x j) :: tr) -> unedited e) as H1 by (intros e' [<-|He']; [reflexivity|apply HT; exact He']).
  destruct (term || _).
  { injection H as <-. cbn in He. rewrite !in_app_iff in He. cbn in He. destruct He as [[[He|[<-|[]]]|[<-|[]]]|[<-|[]]]; try exact I; [apply HT, in_rev; exact He|reflexivity]. }
  destruct (negb _); [discriminate|]. destruct (upd =? 0); [discriminate|].
  assert (forall y, forall e, In e (St y :: Gr x j (pg x j) (pg x j) :: tr) -> unedited e) as H2 by (intros y e' [<-|He']; [exact I|apply H1; exact He']).
  destruct (i mod upd =? 0).
  - destruct (_ || _).
    + injection H as <-. cbn in He. rewrite !in_app_iff in He. cbn in He.
      destruct He as [[[[He|[<-|[]]]|[<-|[]]]|[<-|[]]]|[<-|[]]]; try exact I; [apply HT, in_rev; exact He|reflexivity].
    + eapply IH; [exact H| |exact He]. intros e' [<-|He']; [exact I|eapply H2; exact He'].
  - eapply IH; [exact H|apply H2|exact He].
Qed.
Lemma grads_unedited (N : Num) (tr : list (ev N (list (list N)) (list (list N)))) : (forall e, In e tr -> unedited e) ->
  forall e, In e (grads tr) -> p_grad' e = p_grad e.
Proof.
  intros H e He. unfold grads in He. apply in_flat_map in He as (v & Hv & He). specialize (H v Hv). destruct v; cbn in He; try contradiction.
  destruct He as [<-|[]]. exact H.
Qed.

Lemma run_descends mx d m L alpha f pg maxIterations tol upd policy (cb : CB (RNum mx) matR matR) fuel x r :
  column_smooth d m L f pg -> 0 < alpha -> alpha * L <= 2 -> shaped d m x ->
  (forall h x v g, cs_grad cb h x v g = g) -> (forall i y j, policy i y = Some j -> (j < d)%nat) ->
  cd (N := RNum mx) alpha maxIterations tol upd f pg policy cb fuel x = Ret r ->
  alpha * (1 - alpha * L / 2) * sumR (map (fun e => sqn (part pg (p_at (N := RNum mx) e) (p_feat (N := RNum mx) e))) (firstn (length (steps_to (o_tr r))) (grads (o_tr r))))
    <= f x - f (o_x r).
Proof.
  intros HS Ha HL Sx Hg Hp Hr.
  destruct (cd_ok (N := RNum mx) alpha maxIterations tol upd f pg policy cb fuel x r Hr) as (_ & _ & W & E & P & _).
  eapply Rle_trans; [apply (walk_ok mx d m L alpha f pg HS (grads (o_tr r)) (steps_to (o_tr r)) x Sx W)|apply Req_le; apply (f_equal (fun z => f x - f z)); symmetry; exact E].
  intros e He. destruct (In_nth_error _ _ He) as (k & Hk). destruct (P k e Hk) as [P1 P2]. split; [eapply Hp; exact P1|].
  etransitivity; [|exact P2]. apply (grads_unedited (RNum mx) (o_tr r)); [|exact He].
  unfold cd in Hr. eapply cd_unedited; [exact Hg|exact Hr|]. intros e' [<-|[]]. exact I.
Qed.

Lemma run_random mx d m L alpha f pg mu best tol upd (cb : CB (RNum mx) matR matR) x :
  column_smooth d m L f pg -> 0 < alpha -> alpha * L <= 2 -> 0 < mu -> (0 < d)%nat -> gradient_dominated d m mu f pg best ->
  (forall z, shaped d m z -> f best <= f z) -> shaped d m x -> upd <> 0%nat -> tol <= 0 ->
  (forall tr, cs_stop cb tr = false) -> (forall h x v g, cs_grad cb h x v g = g) -> forall n (v : list nat -> R),
  (forall js, v js = match cd (N := RNum mx) alpha (S n) tol upd f pg (fun i _ => random_descent d (nth (i - 1) js 0%nat)) cb n x with
       Ret r => o_val r | _ => 0 end) ->
  mean (choices n d) v - f best <= (1 - 2 * mu * (alpha * (1 - alpha * L / 2)) / INR d) ^ n * (f x - f best).
Proof.
  intros HS Ha HL Hmu Hd HG HB Sx Hu Ht Hs Hg n v Hv.
  eapply Rle_trans; [|apply (random_mean mx d m L alpha f pg HS Ha HL mu best Hd HG HB n x Sx)].
  apply Rplus_le_compat_r, mean_le. intros js Hjs. apply choices_in in Hjs as [Ln Hj]. rewrite Hv. unfold cd.
  destruct (loop_all mx d m L alpha f pg HS (S n) tol upd (fun i _ => random_descent d (nth (i - 1) js 0%nat)) cb Hu Ht Hs Hg
     js n 1 (n0 (n := RNum mx)) (nmax (n := RNum mx)) x [Begin x]) as (r & E & A & B); [cbn; lia|lia|exact Sx| |].
  { intros k j Hk. assert (j < d)%nat as Hjd by (apply Hj; eapply nth_error_In; exact Hk). split; [exact Hjd|]. intros y.
    unfold random_descent. rewrite (proj2 (Nat.eqb_neq d 0)) by lia. replace (1 + k - 1)%nat with k by lia.
    rewrite (nth_error_nth _ _ _ Hk), Nat.mod_small by exact Hjd. reflexivity. }
  apply Req_le. etransitivity; [exact (f_equal (fun o : outc (Res (RNum mx) matR matR) => match o with Ret r => (o_val r : R) | _ => 0 end) E)|].
  etransitivity; [exact B|]. apply (f_equal f). exact A.
  exact Hd.
Qed.

Lemma seq_windows d : forall p s, map (fun i => (i mod d)%nat) (seq s (p * d)) = concat (map (fun q => map (fun i => (i mod d)%nat) (seq (s + q * d) d)) (seq 0 p)).
Proof.
  induction p as [|p IH]; intros s; [reflexivity|]. replace (S p * d)%nat with (d + p * d)%nat by lia. rewrite seq_app, map_app.
  cbn [seq map concat]. rewrite Nat.add_0_r. f_equal. rewrite IH, <- seq_shift, map_map. f_equal. apply map_ext. intros q. f_equal. f_equal. lia.
Qed.
Lemma run_cyclic mx d m L alpha f pg mu best M tol upd (cb : CB (RNum mx) matR matR) x :
  column_smooth d m L f pg -> 0 < alpha -> alpha * L <= 2 -> (0 < d)%nat -> gradient_dominated d m mu f pg best ->
  (forall z, shaped d m z -> f best <= f z) -> parts_lipschitz d m M pg -> shaped d m x -> upd <> 0%nat -> tol <= 0 ->
  (forall tr, cs_stop cb tr = false) -> (forall h x v g, cs_grad cb h x v g = g) -> forall p,
  exists r, cd (N := RNum mx) alpha (S (p * d)) tol upd f pg (fun i _ => cyclic_descent d i) cb (p * d) x = Ret r /\
    o_val r = f (o_x r) /\
    f (o_x r) - f best <= (1 - mu * (alpha * (1 - alpha * L / 2)) / (1 + INR d * INR d * (M * M * (alpha * alpha)))) ^ p * (f x - f best).
Proof.
  intros HS Ha HL Hd HG HB HM Sx Hu Ht Hs Hg p. unfold cd.
  destruct (loop_all mx d m L alpha f pg HS (S (p * d)) tol upd (fun i _ => cyclic_descent d i) cb Hu Ht Hs Hg
     (map (fun i => (i mod d)%nat) (seq 1 (p * d))) (p * d) 1 (n0 (n := RNum mx)) (nmax (n := RNum mx)) x [Begin x]) as (r & E & A & B);
     [rewrite map_length, seq_length; reflexivity|rewrite map_length, seq_length; lia|exact Sx| |].
  { intros k j Hk. assert (k < p * d)%nat as Hkl.
    { assert (nth_error (map (fun i => (i mod d)%nat) (seq 1 (p * d))) k <> None) as Q by congruence.
      apply nth_error_Some in Q. rewrite map_length, seq_length in Q. exact Q. }
    rewrite nth_error_map, (nth_error_nth' _ 0%nat) in Hk by (rewrite seq_length; exact Hkl). rewrite seq_nth in Hk by exact Hkl. cbn [option_map] in Hk. injection Hk as <-.
    split; [apply Nat.mod_upper_bound; lia|]. intros _. unfold cyclic_descent. rewrite (proj2 (Nat.eqb_neq d 0)) by lia. reflexivity. }
  exists r. split; [exact E|]. split; [exact B|]. rewrite seq_windows in A.
  eapply Rle_trans; [apply Req_le; apply (f_equal (fun z => f z - f best)); exact A|].
  pose proof (sweeps mx d m L alpha f pg HS Ha HL mu best Hd HG HB M HM d (map (fun q => map (fun i => (i mod d)%nat) (seq (1 + q * d) d)) (seq 0 p)) x Sx) as S.
  rewrite map_length, seq_length in S. unfold swept, gain in S. apply S.
  intros js Hjs. apply in_map_iff in Hjs as (q & <- & _). split; [rewrite map_length, seq_length; reflexivity|]. split.
  - intros j Hj. apply in_map_iff in Hj as (i & <- & _). apply Nat.mod_upper_bound. lia.
  - intros j Hj. destruct (cyclic_round d (1 + q * d) Hd j Hj) as (k & [Hk C] & _). unfold cyclic_descent in C.
    rewrite (proj2 (Nat.eqb_neq d 0)) in C by lia. injection C as C. apply in_map_iff. exists (1 + q * d + k)%nat. split; [exact C|apply in_seq; lia].
Qed.

(* a run whose policy keeps picking a feature with nothing to gain stays where it is *)
Lemma cd_stuck (N : Num) (alpha : N) maxIterations tol upd f pg policy (cb : CB N (list (list N)) (list (list N))) x j :
  (forall h x v g, cs_grad cb h x v g = g) -> (forall i, policy i x = Some j) ->
  sub_col j (vscale alpha (nth j (pg x j) [])) x = x -> forall fuel i ov last term tr r,
  cd_loop alpha maxIterations tol upd f pg policy cb fuel i ov last term x tr = Ret r -> o_x r = x /\ o_val r = f x.
Proof.
  intros Hg HP ST. induction fuel as [|fuel IH]; intros i ov last term tr r; cbn [cd_loop]; destruct (negb _); intros H; try discriminate.
  1, 2: injection H as <-; split; reflexivity.
  rewrite HP, Hg in H. destruct (term || _); [injection H as <-; split; reflexivity|].
  destruct (negb _); [discriminate|]. destruct (upd =? 0); [discriminate|]. rewrite ST in H.
  destruct (i mod upd =? 0).
  - destruct (_ || _); [injection H as <-; split; reflexivity|]. eapply IH. exact H.
  - eapply IH. exact H.
Qed.
