(** The routines for 1 x 1 matrices meet their contracts. *)
From Coq Require Import List Arith Bool ZArith Reals Lra Lia.
From Verif.Base Require Import Num Vec Instances.
From Verif.Model Require Import Common Svec LRSDP PrimalDual.
From Verif.Spec Require Import LpSpec SvecSpec PrimalDualSpec.
From Verif.Proof Require Import LRSDPProof PrimalDualProof PrimalDualRun.
Import ListNotations.
Local Open Scope R_scope.

Definition chol1 (a : Mt) : option Mt := if Rlt_dec 0 (a 0%nat 0%nat) then Some (fun _ _ => sqrt (a 0%nat 0%nat)) else None.
Definition inv1 (l : Mt) : option Mt := if Req_EM_T (l 0%nat 0%nat) 0 then None else Some (fun _ _ => / l 0%nat 0%nat).
Definition eig1 (m : Mt) : option R := Some (m 0%nat 0%nat).
Definition syl1 (a b c : Mt) : Mt := fun _ _ => - c 0%nat 0%nat / (a 0%nat 0%nat + b 0%nat 0%nat).
Definition lsolve1 (m : list (list R)) (rhs : list R) : option (list R) :=
  match m, rhs with [[a]], [b] => if Req_EM_T a 0 then None else Some [b / a] | _, _ => None end.
Definition recip1 (tau x : R) : R := if Req_EM_T x 0 then 1 / tau else 1 / x.

Lemma sum1 f : sum_n 1 f = f 0%nat. Proof. unfold sum_n. cbn. lra. Qed.
Lemma lt1 i : (i < 1)%nat -> i = 0%nat. Proof. lia. Qed.
Lemma oracles1 tau : 0 < tau ->
  chol_ok 1 chol1 /\ inv_ok 1 inv1 /\ eig_ok 1 eig1 /\ syl_ok 1 syl1 /\ lsolve_ok lsolve1 /\ recip_ok tau (recip1 tau).
Proof.
  intros HT. repeat apply conj.
  - intros a l E i j Hi Hj. apply lt1 in Hi, Hj. subst. unfold chol1 in E. destruct (Rlt_dec _ _); [|discriminate]. injection E as <-.
    unfold matmul. rewrite sum1. rewrite sqrt_sqrt by lra. reflexivity.
  - intros l li E. unfold inv1 in E. destruct (Req_EM_T _ _) as [|Ne]; [discriminate|]. injection E as <-.
    split; intros i j Hi Hj; apply lt1 in Hi, Hj; subst; unfold matmul; rewrite sum1; cbn; field; exact Ne.
  - intros m e SM E v. injection E as <-. unfold quad. rewrite !sum1. lra.
  - intros a c Sa Pa Sc. split; [intros i j _ _; reflexivity|]. intros i j Hi Hj. apply lt1 in Hi, Hj. subst. unfold matmul. rewrite !sum1.
    assert (P : 0 < a 0%nat 0%nat).
    { assert (H : 0 < quad 1 a (fun _ => 1)) by (apply Pa; exists 0%nat; split; [lia|lra]). unfold quad in H. rewrite !sum1 in H. lra. }
    unfold syl1. field. lra.
  - intros m rhs x E. unfold lsolve1 in E. destruct m as [|[|a [|? ?]] [|? ?]]; try discriminate. destruct rhs as [|b [|? ?]]; try discriminate.
    destruct (Req_EM_T a 0) as [|Ne]; [discriminate|]. injection E as <-. split; [reflexivity|]. unfold dotv. cbn. f_equal. field. exact Ne.
  - intros x Ne. unfold recip1. destruct (Req_EM_T x 0); [contradiction|reflexivity].
  - right. unfold recip1. destruct (Req_EM_T 0 0) as [_|C]; [|lra]. right. field. lra.
Qed.

(** with tau = 1 the step can end on the boundary *)
Lemma tau_one mx (p : program (N := RNum mx)) : pd_n p = 1%nat ->
  alpha (N := RNum mx) p chol1 inv1 eig1 (recip1 1) 1 (fun _ _ => 1) (fun _ _ => -1) = Some 1.
Proof.
  intros E. unfold alpha, chol1. destruct (Rlt_dec _ _) as [_|C]; [|lra]. unfold inv1.
  rewrite sqrt_1. destruct (Req_EM_T 1 0) as [C|_]; [lra|]. unfold eig1.
  rewrite !mmul_eq. unfold mtrans, mneg. cbn [nopp RNum]. unfold matmul. rewrite E.
  set (v := sum_n 1 _). assert (V : v = 1) by (unfold v; rewrite !sum1; field). rewrite V.
  unfold alpha_of, recip1. destruct (Req_EM_T 1 0) as [C|_]; [lra|]. cbn.
  destruct (Rltb_spec (1 / 1) 0) as [C|_]; [lra|]. destruct (Rltb_spec (1 * (1 / 1)) 1) as [C|_]; [lra|]. reflexivity.
Qed.

(** what convergence means *)
Section C.
Variable mx : R.
Notation RN := (RNum mx).
Variable p : program (N := RN).
Notation n := (pd_n p).
Lemma mv_list (l : list Mt) (S : Mt) : (forall A, In A l -> symmetric n A) -> symmetric n S ->
  mv (N := RN) (map (sv (N := RN) (sqrt 2) p) l) (sv (N := RN) (sqrt 2) p S) = map (fun A => frob n A S) l.
Proof.
  intros HA SS. unfold mv. rewrite map_map. apply map_ext_in. intros A HI. refine (eq_trans (vdot_dotv mx _ _) _).
  refine (eq_trans (SvecProof.svec_dot mx n A S (HA A HI) SS) _). apply frob_trace. exact SS.
Qed.
Lemma fold_combo : forall (l : list Mt) (y : list R) (acc : Mt),
  fold_left (madd (N := RN)) (map2 (mscale (N := RN)) y l) acc = (fun i j => acc i j + combo y l i j).
Proof.
  induction l as [|A l IH]; intros [|c y] acc; cbn [map2 fold_left].
  1, 2, 3: (apply FunctionalExtensionality.functional_extensionality; intros i; apply FunctionalExtensionality.functional_extensionality; intros j; unfold combo; cbn; lra).
  rewrite IH. apply FunctionalExtensionality.functional_extensionality; intros i; apply FunctionalExtensionality.functional_extensionality; intros j.
  unfold madd, mscale, combo. cbn. lra.
Qed.
Lemma converged_spec (normv : list R -> R) (normF : Mt -> R) (t1 t2 t3 : R) (X : Mt) (ys yd : list R) (Z : Mt) :
  (forall A, In A (pd_sA p ++ pd_dA p) -> symmetric n A) -> symmetric n X ->
  converged (N := RN) (sqrt 2) p normv normF t1 t2 t3 X ys yd Z = true ->
  let rs := normv (map2 Rminus (pd_sB p) (map (fun A => frob n A X) (pd_sA p))) in
  let rd := normv (map2 Rminus (pd_dB p) (map (fun A => frob n A X) (pd_dA p))) in
  normF (matmul n X Z) <= t1 /\ sqrt (rs * rs + rd * rd) <= t2 /\
  normF (fun i j => Z i j - pd_C p i j + combo (ys ++ yd) (pd_sA p ++ pd_dA p) i j) <= t3.
Proof.
  intros HA SX. unfold converged. cbn zeta. rewrite !andb_true_iff. intros ((H1 & H2) & H3).
  assert (E1 := mv_list (pd_sA p) X (fun A H => HA A (in_or_app _ _ _ (or_introl H))) SX).
  assert (E2 := mv_list (pd_dA p) X (fun A H => HA A (in_or_app _ _ _ (or_intror H))) SX).
  split; [|split].
  - rewrite mmul_eq in H1. revert H1. cbn. destruct (Rleb_spec (normF (matmul n X Z)) t1) as [H|H]; [intros _; exact H|discriminate].
  - match type of H2 with nle (n := _) ?a _ = true => assert (EQ : a = sqrt (normv (map2 Rminus (pd_sB p) (map (fun A => frob n A X) (pd_sA p))) * normv (map2 Rminus (pd_sB p) (map (fun A => frob n A X) (pd_sA p))) + normv (map2 Rminus (pd_dB p) (map (fun A => frob n A X) (pd_dA p))) * normv (map2 Rminus (pd_dB p) (map (fun A => frob n A X) (pd_dA p))))) end.
    { refine (f_equal2 (fun u v : list R => sqrt (normv (map2 Rminus (pd_sB p) u) * normv (map2 Rminus (pd_sB p) u) + normv (map2 Rminus (pd_dB p) v) * normv (map2 Rminus (pd_dB p) v))) E1 E2). }
    rewrite EQ in H2. revert H2. cbn [nle RNum]. match goal with |- Rleb ?a ?b = true -> _ => destruct (Rleb_spec a b) as [H|H]; [intros _; exact H|discriminate] end.
  - unfold dual_check in H3. rewrite fold_combo in H3. revert H3. cbn [nle RNum].
    match goal with |- Rleb ?a ?b = true -> _ => destruct (Rleb_spec a b) as [H|H]; [intros _; exact H|discriminate] end.
Qed.
End C.
