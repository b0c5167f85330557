(** The SVRG update over the real numbers, and examples. *)
From Coq Require Import List Arith Bool Lia Reals Lra ZArith.
From Verif.Base Require Import Num Vec Size Loop Instances.
From Verif.Model Require Import Common VarRed SVRG.
From Verif.Spec Require Import SgdSpec VarRedSpec VarRedReal LpSpec.
From Verif.Proof Require Import VarRedProof SVRGProof ProximalProof.
Import ListNotations.
Local Open Scope nat_scope.

Lemma nofnat_INR mx k : nofnat (N := RNum mx) k = INR k.
Proof. unfold nofnat. cbn. rewrite <- INR_IZR_INZ. reflexivity. Qed.

Lemma nth_map2 {A B C} (g : A -> B -> C) a b j da db dc : j < length a -> j < length b ->
  nth j (map2 g a b) dc = g (nth j a da) (nth j b db).
Proof.
  revert b j. induction a as [|x a IH]; intros [|y b] j H1 H2; cbn in *; try lia. destruct j; [reflexivity|]. apply IH; lia.
Qed.
Lemma nth_map' {A B} (g : A -> B) a j da db : j < length a -> nth j (map g a) db = g (nth j a da).
Proof. revert j. induction a as [|x a IH]; intros j H; cbn in *; [lia|]. destruct j; [reflexivity|]. apply IH; lia. Qed.

Section R.
  Variable mx : R.
  Notation N := (RNum mx).
  Notation at_ j v := (nth j v 0%R).
  Variable p : nat.                                   (* number of coordinates *)

  Lemma nth_vadd j (a b : list N) : length a = p -> length b = p -> j < p -> at_ j (vadd a b) = (at_ j a + at_ j b)%R.
  Proof. intros. unfold vadd. exact (nth_map2 _ a b j 0%R 0%R 0%R ltac:(cbn [T RNum] in *; lia) ltac:(cbn [T RNum] in *; lia)). Qed.
  Lemma nth_vsub j (a b : list N) : length a = p -> length b = p -> j < p -> at_ j (vsub a b) = (at_ j a - at_ j b)%R.
  Proof. intros. unfold vsub. exact (nth_map2 _ a b j 0%R 0%R 0%R ltac:(cbn [T RNum] in *; lia) ltac:(cbn [T RNum] in *; lia)). Qed.
  Lemma nth_vscale j c (a : list N) : length a = p -> j < p -> at_ j (vscale c a) = (c * at_ j a)%R.
  Proof. intros. exact (nth_map' _ a j 0%R 0%R ltac:(cbn [T RNum] in *; lia)). Qed.
  Lemma nth_over j k (a : list N) : length a = p -> j < p -> at_ j (over_n k a) = (at_ j a / INR k)%R.
  Proof. intros. unfold over_n. refine (eq_trans (nth_map' _ a j 0%R 0%R ltac:(cbn [T RNum] in *; lia)) _). rewrite nofnat_INR. reflexivity. Qed.
  Lemma len_vadd (a b : list N) : length a = p -> length b = p -> length (vadd a b) = p.
  Proof. intros. unfold vadd. rewrite map2_length. lia. Qed.
  Lemma len_vsub (a b : list N) : length a = p -> length b = p -> length (vsub a b) = p.
  Proof. intros. unfold vsub. rewrite map2_length. lia. Qed.

  Lemma nth_total j (l : list (list N)) (a : list N) : length a = p -> Forall (fun g => length g = p) l -> j < p ->
    length (fold_left vadd l a) = p /\ at_ j (fold_left vadd l a) = (at_ j a + sumR (map (fun g => at_ j g) l))%R.
  Proof.
    revert a. induction l as [|g l IH]; intros a Ha Hl Hj; cbn [fold_left map sumR]; [split; [exact Ha|lra]|].
    apply Forall_cons_iff in Hl. destruct Hl as (Hg & Hl). destruct (IH (vadd a g)) as (A & B); auto using len_vadd. split; [exact A|].
    rewrite B, nth_vadd by auto. cbn. lra.
  Qed.

  Lemma sumR_flat {A B} (h : A -> list B) (w : B -> R) l : sumR (map w (flat_map h l)) = sumR (map (fun a => sumR (map w (h a))) l).
  Proof. induction l as [|a l IH]; cbn; [reflexivity|]. rewrite map_app, sumR_app, IH. reflexivity. Qed.
  Lemma sumR_ext {A} (w w' : A -> R) l : (forall a, In a l -> w a = w' a) -> sumR (map w l) = sumR (map w' l).
  Proof. induction l as [|a l IH]; intros H; cbn; [reflexivity|]. rewrite H by (left; reflexivity). f_equal. apply IH. intros. apply H. right. assumption. Qed.
  Lemma sumR_lin {A} (u v : A -> R) c l : sumR (map (fun a => u a + c * v a)%R l) = (sumR (map u l) + c * sumR (map v l))%R.
  Proof. induction l as [|a l IH]; cbn; [lra|]. rewrite IH. lra. Qed.
  Lemma sumR_scale {A} (u : A -> R) c l : sumR (map (fun a => c * u a)%R l) = (c * sumR (map u l))%R.
  Proof. induction l as [|a l IH]; cbn; [lra|]. rewrite IH. lra. Qed.
  Lemma split_len n b l : split_of n b l -> sumR (map (fun q : nat * nat => INR (snd q)) l) = INR n.
  Proof.
    intros (E & _). apply (f_equal (@length nat)) in E. rewrite seq_length in E. rewrite <- E. clear E.
    induction l as [|[i c] l IH]; [reflexivity|]. cbn [map sumR flat_map fst snd]. rewrite app_length, seq_length, plus_INR, IH. reflexivity.
  Qed.

  Variable G : list N -> nat -> nat -> list N.
  Variable n b : nat.
  Hypothesis HG : additive mx p n G.
  Notation avg := (avg mx n G).
  Hypothesis Hn : 0 < n.

  Lemma split_in l : split_of n b l -> forall q, In q l -> 0 < snd q <= b /\ fst q + snd q <= n.
  Proof.
    intros (E & F) q Hq. rewrite Forall_forall in F. specialize (F q Hq). split; [exact F|].
    assert (I : In (fst q + snd q - 1) (seq 0 n)).
    { rewrite <- E. apply in_flat_map. exists q. split; [exact Hq|]. apply in_seq. lia. }
    apply in_seq in I. lia.
  Qed.
  Lemma pass_sum x l j : split_of n b l -> j < p ->
    sumR (map (fun q => at_ j (G x (fst q) (snd q))) l) = sumR (map (fun k => at_ j (G x k 1)) (seq 0 n)).
  Proof.
    intros S Hj. destruct S as (E & F). rewrite <- E, sumR_flat. apply sumR_ext. intros q Hq.
    assert (B : 0 < snd q <= b /\ fst q + snd q <= n) by (apply (split_in l); [split; assumption|exact Hq]).
    apply HG; lia.
  Qed.

  Lemma average l x (q0 : nat * nat) j : split_of n b (q0 :: l) -> j < p ->
    length (over_n n (vtotal (map (fun q => G x (fst q) (snd q)) (q0 :: l)))) = p /\
    at_ j (over_n n (vtotal (map (fun q => G x (fst q) (snd q)) (q0 :: l)))) = avg x j.
  Proof.
    intros S Hj. cbn [map vtotal].
    pose proof (split_in _ S) as B.
    destruct (nth_total j (map (fun q => G x (fst q) (snd q)) l) (G x (fst q0) (snd q0))) as (L & E).
    - apply HG; apply (B q0 (or_introl eq_refl)).
    - apply Forall_forall. intros g Hg. apply in_map_iff in Hg. destruct Hg as (q & <- & Hq). apply HG; apply (B q (or_intror Hq)).
    - exact Hj.
    - split; [unfold over_n; rewrite map_length; exact L|]. rewrite nth_over by assumption. unfold VarRedReal.avg. f_equal.
      rewrite <- (pass_sum x (q0 :: l) j S Hj). rewrite E. cbn [map sumR]. rewrite map_map. reflexivity.
  Qed.

  Lemma unbiased (x x0 full : list N) eta l j : length x = p -> length full = p -> split_of n b l -> j < p ->
    at_ j full = avg x0 j ->
    sumR (map (fun q => INR (snd q) / INR n * at_ j (svrg_update x full (G x (fst q) (snd q)) (G x0 (fst q) (snd q)) (snd q) eta))%R l)
    = (at_ j x - eta * avg x j)%R.
  Proof.
    intros Lx Lf S Hj Hf. pose proof (split_in _ S) as B.
    assert (Pn : (0 < INR n)%R) by (apply lt_0_INR; exact Hn).
    rewrite (sumR_ext _ (fun q => (at_ j x / INR n - eta / INR n * at_ j full) * INR (snd q) +
                                  (- (eta / INR n)) * (at_ j (G x (fst q) (snd q)) - at_ j (G x0 (fst q) (snd q))))%R).
    - rewrite sumR_lin, sumR_scale, (split_len n b) by exact S.
      rewrite (sumR_ext (fun a => (at_ j (G x (fst a) (snd a)) - at_ j (G x0 (fst a) (snd a)))%R)
                        (fun a => (at_ j (G x (fst a) (snd a)) + (-1) * at_ j (G x0 (fst a) (snd a)))%R)) by (intros; lra).
      rewrite sumR_lin, !pass_sum by assumption. rewrite Hf. unfold VarRedReal.avg. field. lra.
    - intros q Hq. destruct (B q Hq) as (B1 & B2).
      destruct (HG x (fst q) (snd q)) as (Lg & _); [lia|lia|]. destruct (HG x0 (fst q) (snd q)) as (Lh & _); [lia|lia|].
      unfold svrg_update. fold (over_n (N := N) (snd q) (vsub (G x (fst q) (snd q)) (G x0 (fst q) (snd q)))).
      pose proof (len_vsub _ _ Lg Lh) as Ls.
      assert (Lo : length (over_n (N := N) (snd q) (vsub (G x (fst q) (snd q)) (G x0 (fst q) (snd q)))) = p) by (unfold over_n; rewrite map_length; exact Ls).
      pose proof (len_vadd _ _ Lf Lo) as La.
      rewrite nth_vsub; [|exact Lx|unfold vscale; rewrite map_length; exact La|exact Hj].
      rewrite nth_vscale, nth_vadd, nth_over, nth_vsub by assumption.
      assert (0 < INR (snd q))%R by (apply lt_0_INR; lia). field. lra.
  Qed.
End R.

(** ---- Barzilai-Borwein ---- *)
Lemma bb_first {N : Num} norm (eps mxs : N) x x0 full nb eta : bb_update norm eps mxs [] x x0 full nb eta = (full, eta).
Proof. reflexivity. Qed.
Lemma bb_bounded {N : Num} (L : OrdLaws N) norm (eps mxs : N) d x x0 full nb eta : d <> [] ->
  nlt mxs (snd (bb_update norm eps mxs d x x0 full nb eta)) = false.
Proof.
  intros H. unfold bb_update. destruct d as [|a d]; [congruence|]. cbn [snd].
  match goal with |- nlt mxs (if ?c then _ else _) = _ => destruct c eqn:E end; [apply (ol_irrefl _ L)|exact E].
Qed.

(** ---- examples ---- *)
Section Ex.
  Definition zval (x : list ZNum) (c : nat) : ZNum := (Z.of_nat c * 3 * hd 0 x * hd 0 x)%Z.
  Definition zgrad (x : list ZNum) (c : nat) : list ZNum := [(Z.of_nat c * 6 * hd 0 x)%Z].
  (** three functions 3x^2 *)
  Definition zfun : VFun ZNum := {| vf_num := 3; vf_eval := fun _ x _ c => zval x c; vf_grad := fun _ x _ c => zgrad x c |}.
  Definition zquiet : VCB ZNum := {| vc_stop := fun _ => false; vc_hook := fun _ _ g => g |}.
  Definition zeager : VCB ZNum := {| vc_stop := fun h => match h with VStep _ _ :: _ => true | _ => false end; vc_hook := fun _ _ g => g |}.
  Definition zrun (cb : VCB ZNum) (exact : bool) (m inner : nat) :=
    svrg (D := unit) zfun cb 2 m (0%Z : ZNum) true exact no_decay 20 inner tt (1%Z : ZNum) [1%Z].

  Definition vsteps {N : Num} (tr : list (vev N)) : list (list N) := flat_map (fun e => match e with VStep x _ => [x] | _ => [] end) tr.
  (** functions visited by gradient evaluations at the current iterate and the snapshot *)
  Lemma z_plain : exists r, zrun zquiet false 2 0 = Ret r /\ vsteps (vr_tr r) = [[-5]; [25]; [-125]; [625]]%Z /\
    vr_x r = [625%Z] /\ vr_val r = (9 * 25 * 25)%Z /\ vr_conv r = false /\ fst (fst (vr_st r)) = 3.
  Proof.
    let v := eval vm_compute in (zrun zquiet false 2 0) in match v with Ret ?r => exists r end.
    split; [vm_compute; reflexivity|]. repeat split.
  Qed.
  Lemma z_exact : exists r, zrun zquiet true 2 0 = Ret r /\ vr_x r = [625%Z] /\ vr_val r = (9 * 625 * 625)%Z.
  Proof.
    let v := eval vm_compute in (zrun zquiet true 2 0) in match v with Ret ?r => exists r end.
    split; [vm_compute; reflexivity|]. repeat split.
  Qed.
  (** innerIterations = 1 with batches of two: two functions are visited *)
  Lemma z_over : exists r, zrun zquiet false 1 1 = Ret r /\ exists h x0 g0, vr_tr r = h ++ [VGrad [1%Z] 0 2 [12%Z] [12%Z]; VGrad x0 0 2 g0 g0; VStep [(-5)%Z] 1%Z; VEnd [(-5)%Z]].
  Proof.
    let v := eval vm_compute in (zrun zquiet false 1 1) in match v with Ret ?r => exists r end.
    split; [vm_compute; reflexivity|]. cbn [vr_tr].
    match goal with |- exists h x0 g0, ?l = _ => let h := eval cbn in (firstn (length l - 4) l) in exists h end.
    exists [1%Z], [12%Z]. reflexivity.
  Qed.
  Lemma z_stop : exists r, zrun zeager false 5 0 = Ret r /\ vsteps (vr_tr r) = [[-5%Z]]%Z.
  Proof.
    let v := eval vm_compute in (zrun zeager false 5 0) in match v with Ret ?r => exists r end.
    split; [vm_compute; reflexivity|]. reflexivity.
  Qed.
End Ex.
