From Coq Require Import List Arith Bool ZArith Reals Lra Lia FunctionalExtensionality.
From Verif.Base Require Import Num Vec Instances.
From Verif.Model Require Import Common Svec LRSDP PrimalDual.
From Verif.Spec Require Import LpSpec SvecSpec Gradient PrimalDualSpec.
From Verif.Proof Require Import ProximalProof SvecProof GradientProof LRSDPProof.
Import ListNotations.
Local Open Scope R_scope.

(** ** Sums *)
Lemma sum_n_nonneg n f : (forall i, (i < n)%nat -> 0 <= f i) -> 0 <= sum_n n f.
Proof.
  induction n as [|n IH]; intros H; [cbn; lra|]. rewrite sum_n_S.
  assert (0 <= sum_n n f) by (apply IH; intros; apply H; lia). specialize (H n ltac:(lia)). lra.
Qed.
Lemma sum_n_zero_each n f : (forall i, (i < n)%nat -> 0 <= f i) -> sum_n n f = 0 -> forall i, (i < n)%nat -> f i = 0.
Proof.
  induction n as [|n IH]; intros H E i Hi; [lia|]. rewrite sum_n_S in E.
  assert (0 <= sum_n n f) by (apply sum_n_nonneg; intros; apply H; lia). pose proof (H n ltac:(lia)).
  destruct (Nat.eq_dec i n) as [->|Ne]; [lra|]. apply IH; [intros; apply H; lia|lra|lia].
Qed.
Lemma sum_n_opp n f : sum_n n (fun i => - f i) = - sum_n n f.
Proof. induction n as [|n IH]; [cbn; lra|]. rewrite !sum_n_S, IH. lra. Qed.
Lemma sum_n_minus n f g : sum_n n (fun i => f i - g i) = sum_n n f - sum_n n g.
Proof. induction n as [|n IH]; [cbn; lra|]. rewrite !sum_n_S, IH. lra. Qed.
Lemma sum_n_delta n (f : nat -> R) k : (k < n)%nat -> sum_n n (fun i => (if Nat.eqb k i then 1 else 0) * f i) = f k.
Proof.
  induction n as [|n IH]; intros H; [lia|]. rewrite sum_n_S. destruct (Nat.eq_dec k n) as [->|Ne].
  - rewrite Nat.eqb_refl, (sum_n_ext n _ (fun _ => 0)); [rewrite sum_n_zero; lra|].
    intros i Hi. destruct (Nat.eqb_spec n i); [lia|lra].
  - rewrite IH by lia. destruct (Nat.eqb_spec k n); [lia|lra].
Qed.

(** ** Matrices *)
Lemma matmul_plus_r n A B C i j : matmul n A (fun a b => B a b + C a b) i j = matmul n A B i j + matmul n A C i j.
Proof. unfold matmul. rewrite <- sum_n_plus. apply sum_n_ext; intros; lra. Qed.
Lemma matmul_plus_l n A B C i j : matmul n (fun a b => A a b + B a b) C i j = matmul n A C i j + matmul n B C i j.
Proof. unfold matmul. rewrite <- sum_n_plus. apply sum_n_ext; intros; lra. Qed.
Lemma matmul_minus_r n A B C i j : matmul n A (fun a b => B a b - C a b) i j = matmul n A B i j - matmul n A C i j.
Proof. unfold matmul. rewrite <- sum_n_minus. apply sum_n_ext; intros; lra. Qed.
Lemma matmul_minus_l n A B C i j : matmul n (fun a b => A a b - B a b) C i j = matmul n A C i j - matmul n B C i j.
Proof. unfold matmul. rewrite <- sum_n_minus. apply sum_n_ext; intros; lra. Qed.
Lemma matmul_opp_r n A B i j : matmul n A (fun a b => - B a b) i j = - matmul n A B i j.
Proof. unfold matmul. rewrite <- sum_n_opp. apply sum_n_ext; intros; lra. Qed.
Lemma matmul_opp_l n A B i j : matmul n (fun a b => - A a b) B i j = - matmul n A B i j.
Proof. unfold matmul. rewrite <- sum_n_opp. apply sum_n_ext; intros; lra. Qed.
Lemma matmul_ext n A A' B B' : meq n A A' -> meq n B B' -> meq n (matmul n A B) (matmul n A' B').
Proof. intros HA HB i j Hi Hj. apply sum_n_ext. intros k Hk. rewrite HA, HB by assumption. reflexivity. Qed.
Lemma matmul_sym n A B i j : symmetric n A -> symmetric n B -> (i < n)%nat -> (j < n)%nat -> matmul n A B i j = matmul n B A j i.
Proof. intros SA SB Hi Hj. apply sum_n_ext. intros k Hk. rewrite (SA i k), (SB k j) by assumption. lra. Qed.
Lemma frob_trace n A B : symmetric n B -> trace n (matmul n A B) = frob n A B.
Proof.
  intros SB. unfold trace, matmul, frob. apply sum_n_ext; intros i Hi. apply sum_n_ext; intros j Hj.
  rewrite (SB j i) by assumption. reflexivity.
Qed.

(** a symmetric solution of Z S + S Z = 0 is zero *)
Lemma lyapunov_unique n Z S : symmetric n S -> pos_def n Z ->
  meq n (fun i j => matmul n Z S i j + matmul n S Z i j) (fun _ _ => 0) -> meq n S (fun _ _ => 0).
Proof.
  intros SS PZ E.
  assert (Q0 : forall v, 0 <= quad n Z v).
  { intros v. destruct (Classical_Prop.classic (exists i, (i < n)%nat /\ v i <> 0)) as [H|H]; [left; apply PZ; exact H|].
    right. symmetry. unfold quad. rewrite (sum_n_ext n _ (fun _ => 0)); [apply sum_n_zero|].
    intros i Hi. rewrite (sum_n_ext n _ (fun _ => 0)); [apply sum_n_zero|]. intros j Hj.
    destruct (Req_dec (v i) 0) as [->|Hv]; [lra|]. exfalso. apply H. exists i; auto. }
  assert (T : sum_n n (fun j => quad n Z (fun i => S i j)) + sum_n n (fun i => quad n Z (fun j => S i j)) = 0).
  { transitivity (sum_n n (fun i => sum_n n (fun j => S i j * (matmul n Z S i j + matmul n S Z i j)))).
    - rewrite (sum_n_ext n (fun i => sum_n n (fun j => S i j * (matmul n Z S i j + matmul n S Z i j)))
               (fun i => sum_n n (fun j => S i j * matmul n Z S i j) + sum_n n (fun j => S i j * matmul n S Z i j)))
        by (intros; rewrite <- sum_n_plus; apply sum_n_ext; intros; lra).
      rewrite sum_n_plus. f_equal.
      + rewrite (sum_n_swap n n (fun i j => S i j * matmul n Z S i j)). apply sum_n_ext; intros j _. unfold quad. apply sum_n_ext; intros i _.
        unfold matmul. rewrite <- sum_n_scal. apply sum_n_ext; intros k _. lra.
      + apply sum_n_ext; intros i _. unfold quad. rewrite sum_n_swap. apply sum_n_ext; intros j _.
        unfold matmul. rewrite <- sum_n_scal. apply sum_n_ext; intros k _. lra.
    - rewrite (sum_n_ext n _ (fun _ => 0)); [apply sum_n_zero|]. intros i Hi.
      rewrite (sum_n_ext n _ (fun _ => 0)); [apply sum_n_zero|]. intros j Hj.
      rewrite (E i j Hi Hj). lra. }
  assert (A1 : 0 <= sum_n n (fun j => quad n Z (fun i => S i j))) by (apply sum_n_nonneg; intros; apply Q0).
  assert (A2 : 0 <= sum_n n (fun i => quad n Z (fun j => S i j))) by (apply sum_n_nonneg; intros; apply Q0).
  intros i j Hi Hj.
  pose proof (sum_n_zero_each n (fun j => quad n Z (fun i => S i j)) (fun j _ => Q0 _) ltac:(lra) j Hj) as E0. cbn beta in E0.
  destruct (Req_dec (S i j) 0) as [?|Ne]; [assumption|exfalso].
  assert (0 < quad n Z (fun i => S i j)) by (apply PZ; exists i; auto). lra.
Qed.

Section A.
Variable mx : R.
Notation RN := (RNum mx).
Variable p : program (N := RN).
Notation n := (pd_n p).
Notation SV := (sv (N := RN) (sqrt 2) p).
Notation SM := (sm (N := RN) (sqrt 2) (/ 2)).
Definition As : list Mt := pd_sA p ++ pd_dA p.

Lemma mmul_R A B i j : mmul p A B i j = matmul n A B i j.
Proof. exact (msum_R mx n _). Qed.
Lemma mmul_eq A B : mmul p A B = matmul n A B.
Proof. apply functional_extensionality; intros i; apply functional_extensionality; intros j. apply mmul_R. Qed.
Lemma dotR_dotv : forall a b, dotR a b = dotv a b.
Proof. induction a as [|x a IH]; intros [|y b]; try reflexivity. cbn [dotR]. rewrite IH. reflexivity. Qed.
Lemma vdot_dotv (a b : list R) : vdot (N := RN) a b = dotv a b.
Proof. refine (eq_trans (vdot_dotR mx a b) _). apply dotR_dotv. Qed.

Lemma map2_map {X Y} (f : R -> R -> Y) (g h : X -> R) l : map2 f (map g l) (map h l) = map (fun x => f (g x) (h x)) l.
Proof. induction l as [|x l IH]; [reflexivity|]. cbn. rewrite IH. reflexivity. Qed.
Lemma SV_eq (A : Mt) : SV A = map (cell A) (pairs n).
Proof. exact (svec_cells mx n A). Qed.
Lemma sv_sub (A B : Mt) : vsub (N := RN) (SV A) (SV B) = SV (fun i j => A i j - B i j).
Proof.
  rewrite !SV_eq. unfold vsub. refine (eq_trans (map2_map _ _ _ _) _). apply map_ext. intros [i j]. unfold cell. cbn.
  destruct (Nat.eqb i j); [reflexivity|]. lra.
Qed.
Lemma sv_add (A B : Mt) : vadd (N := RN) (SV A) (SV B) = SV (fun i j => A i j + B i j).
Proof.
  rewrite !SV_eq. unfold vadd. refine (eq_trans (map2_map _ _ _ _) _). apply map_ext. intros [i j]. unfold cell. cbn.
  destruct (Nat.eqb i j); [reflexivity|]. lra.
Qed.
Lemma sv_opp (A : Mt) : map (nopp (n := RN)) (SV A) = SV (fun i j => - A i j).
Proof.
  rewrite !SV_eq. refine (eq_trans (map_map _ _ _) _). apply map_ext. intros [i j]. unfold cell. cbn.
  destruct (Nat.eqb i j); [reflexivity|]. lra.
Qed.
Lemma sv_scale c (A : Mt) : vscale (N := RN) c (SV A) = SV (fun i j => c * A i j).
Proof.
  rewrite !SV_eq. refine (eq_trans (map_map _ _ _) _). apply map_ext. intros [i j]. unfold cell. cbn.
  destruct (Nat.eqb i j); [reflexivity|]. lra.
Qed.
Lemma sv_ext (A B : Mt) : meq n A B -> SV A = SV B.
Proof.
  intros H. rewrite !SV_eq. apply map_ext_in. intros [i j] Hij. apply pairs_In in Hij. unfold cell. cbn [fst snd].
  rewrite (H i j) by lia. reflexivity.
Qed.
Lemma sv_zero : repeat (n0 (n := RN)) (n * (n + 1) / 2) = SV (fun _ _ => 0).
Proof.
  rewrite SV_eq. rewrite <- (pairs_length n : length (pairs n) = (n * (n + 1) / 2)%nat).
  induction (pairs n) as [|[i j] l IH]; [reflexivity|]. cbn [length repeat map]. rewrite IH. f_equal.
  unfold cell. cbn. destruct (Nat.eqb i j); [reflexivity|]. lra.
Qed.
Lemma sm_sv (A : Mt) : symmetric n A -> meq n (SM (SV A)) A.
Proof.
  intros SA i j Hi Hj. unfold sm. destruct (smat_svec mx n A SA) as (B & E & HB).
  change (SV A) with (svec (N := RN) (sqrt 2) n A). rewrite E. apply HB; assumption.
Qed.
Lemma meq_symmetric A B : meq n A B -> symmetric n B -> symmetric n A.
Proof. intros E SB i j Hi Hj. rewrite !E by assumption. apply SB; assumption. Qed.

(** the transposed constraint matrix times multipliers *)
Lemma tmv_combo_acc : forall (l : list Mt) (y : list R) (acc : Mt),
  fold_left (vadd (N := RN)) (map2 (vscale (N := RN)) y (map SV l)) (SV acc)
  = SV (fun i j => acc i j + combo y l i j).
Proof.
  induction l as [|A l IH]; intros [|c y] acc; cbn [map map2 fold_left];
    try (apply sv_ext; intros i j _ _; unfold combo; cbn; lra).
  rewrite sv_scale, sv_add, IH. apply sv_ext. intros i j _ _. unfold combo. cbn. lra.
Qed.
Lemma tmv_combo (y : list R) : tmv (N := RN) (n * (n + 1) / 2) (rows (N := RN) (sqrt 2) p) y = SV (combo y As).
Proof.
  unfold tmv, rows. rewrite sv_zero. refine (eq_trans (tmv_combo_acc As y (fun _ _ => 0)) _).
  apply sv_ext. intros i j _ _. lra.
Qed.
Lemma combo_symmetric y (l : list Mt) : (forall A, In A l -> symmetric n A) -> symmetric n (combo y l).
Proof.
  intros H i j Hi Hj. unfold combo. f_equal. apply map_ext_in. intros [c A] HI. cbn. rewrite (H A) by (try assumption; apply in_combine_r in HI; exact HI). reflexivity.
Qed.

Section B.
Variable chol : Mt -> option Mt.
Variable inv : Mt -> option Mt.
Variable eigmax : Mt -> option R.
Variable syl : Mt -> Mt -> Mt -> Mt.
Variable lsolve : list (list R) -> list R -> option (list R).
Hypothesis Hsyl : syl_ok n syl.
Hypothesis Hsolve : lsolve_ok lsolve.
Hypothesis HAs : forall A, In A As -> symmetric n A.
Hypothesis HC : symmetric n (pd_C p).

Lemma lyap_ok Z H : symmetric n Z -> pos_def n Z -> symmetric n H ->
  symmetric n (lyap (N := RN) syl Z H) /\
  meq n (fun i j => matmul n Z (lyap (N := RN) syl Z H) i j + matmul n (lyap (N := RN) syl Z H) Z i j) H.
Proof.
  intros SZ PZ SH. unfold lyap.
  assert (SN : symmetric n (mneg (N := RN) H)) by (intros i j Hi Hj; unfold mneg; rewrite (SH i j) by assumption; reflexivity).
  destruct (Hsyl Z (mneg (N := RN) H) SZ PZ SN) as (S1 & E). split; [exact S1|].
  intros i j Hi Hj. specialize (E i j Hi Hj). cbn beta in E. unfold mneg in E at 3. cbn in E.
  match type of E with ?a + ?b + _ = 0 => assert (E' : a + b = H i j) by lra end. exact E'.
Qed.
Lemma lyap_unique Z H S : symmetric n Z -> pos_def n Z -> symmetric n H -> symmetric n S ->
  meq n (fun i j => matmul n Z S i j + matmul n S Z i j) H -> meq n (lyap (N := RN) syl Z H) S.
Proof.
  intros SZ PZ SH SS ES. destruct (lyap_ok Z H SZ PZ SH) as (SL & EL).
  set (L := lyap (N := RN) syl Z H) in *. clearbody L.
  assert (D : meq n (fun i j => L i j - S i j) (fun _ _ => 0)).
  { apply (lyapunov_unique n Z); [|exact PZ|].
    - intros i j Hi Hj. rewrite (SL i j), (SS i j) by assumption. reflexivity.
    - intros i j Hi Hj. rewrite matmul_minus_r, matmul_minus_l. specialize (EL i j Hi Hj). specialize (ES i j Hi Hj). cbn beta in *. lra. }
  intros i j Hi Hj. specialize (D i j Hi Hj). cbn beta in D. lra.
Qed.

(** E^(-1) of a vectorised symmetric matrix *)
Lemma einv_sv Z H : symmetric n Z -> pos_def n Z -> symmetric n H ->
  exists S, einv (N := RN) (sqrt 2) (/ 2) p syl Z (SV H) = SV S /\ symmetric n S /\
    meq n (fun i j => matmul n Z S i j + matmul n S Z i j) (fun i j => 2 * H i j).
Proof.
  intros SZ PZ SH. unfold einv.
  pose (G := mscale (N := RN) (nofZ (n := RN) 2) (SM (SV H)) : Mt).
  assert (EG : meq n G (fun i j => 2 * H i j)) by (intros i j Hi Hj; unfold G, mscale; cbn; rewrite (sm_sv H SH i j Hi Hj); reflexivity).
  assert (SG : symmetric n G) by (apply (meq_symmetric _ _ EG); intros i j Hi Hj; rewrite (SH i j) by assumption; reflexivity).
  destruct (lyap_ok Z G SZ PZ SG) as (S1 & E1). exists (lyap (N := RN) syl Z G). split; [reflexivity|]. split; [exact S1|].
  intros i j Hi Hj. rewrite (E1 i j Hi Hj). apply EG; assumption.
Qed.

Lemma mv_kron (X H : Mt) : symmetric n H ->
  mv (N := RN) (sym_kron_id (N := RN) (sqrt 2) (/ 2) n X) (SV H) = SV (half_sum (matmul n X H) (matmul n H X)).
Proof.
  intros SH. refine (eq_trans _ (sym_kron_ok mx n X H SH)). unfold mv, apply_rows. apply map_ext. intros r. apply vdot_dotv.
Qed.
Lemma mv_rows (S : Mt) : symmetric n S -> mv (N := RN) (rows (N := RN) (sqrt 2) p) (SV S) = map (fun A => frob n A S) As.
Proof.
  intros SS. unfold mv, rows. rewrite map_map. apply map_ext_in. intros A HA. refine (eq_trans (vdot_dotv _ _) _).
  refine (eq_trans (svec_dot mx n A S (HAs A HA) SS) _). apply frob_trace. exact SS.
Qed.
Lemma half_sum_symmetric X H : symmetric n X -> symmetric n H -> symmetric n (half_sum (matmul n X H) (matmul n H X)).
Proof.
  intros SX SH i j Hi Hj. unfold half_sum. rewrite (matmul_sym n X H i j SX SH Hi Hj), (matmul_sym n H X i j SH SX Hi Hj). lra.
Qed.

Lemma frob_plus A B C : frob n A (fun i j => B i j + C i j) = frob n A B + frob n A C.
Proof. unfold frob. rewrite <- sum_n_plus. apply sum_n_ext; intros i _. rewrite <- sum_n_plus. apply sum_n_ext; intros j _. lra. Qed.
Lemma frob_minus A B C : frob n A (fun i j => B i j - C i j) = frob n A B - frob n A C.
Proof. unfold frob. rewrite <- sum_n_minus. apply sum_n_ext; intros i _. rewrite <- sum_n_minus. apply sum_n_ext; intros j _. lra. Qed.
Lemma frob_ext A B C : meq n B C -> frob n A B = frob n A C.
Proof. intros H. apply sum_n_ext; intros i Hi. apply sum_n_ext; intros j Hj. rewrite H by assumption. reflexivity. Qed.
Lemma frob_scale A c B : frob n A (fun i j => c * B i j) = c * frob n A B.
Proof. unfold frob. rewrite <- sum_n_scal. apply sum_n_ext; intros i _. rewrite <- sum_n_scal. apply sum_n_ext; intros j _. lra. Qed.

Lemma frob_combo A : forall (Gs : list Mt) (y : list R),
  frob n A (combo y Gs) = dotv (map (fun G => frob n A G) Gs) y.
Proof.
  induction Gs as [|G Gs IH]; intros [|c y]; try (unfold combo, frob; cbn; rewrite (sum_n_ext n _ (fun _ => 0)); [apply sum_n_zero|intros; rewrite (sum_n_ext n _ (fun _ => 0)); [apply sum_n_zero|intros; lra]]).
  change (combo (c :: y) (G :: Gs)) with (fun i j => c * G i j + combo y Gs i j).
  rewrite frob_plus, frob_scale, IH. unfold dotv. cbn. lra.
Qed.

Lemma combo_matmul_l (Z : Mt) i j : forall (Gs : list Mt) (y : list R),
  matmul n Z (combo y Gs) i j = combo y (map (fun G => matmul n Z G) Gs) i j.
Proof.
  induction Gs as [|G Gs IH]; intros [|c y]; try (unfold combo, matmul; cbn; rewrite (sum_n_ext n _ (fun _ => 0)); [apply sum_n_zero|intros; lra]).
  change (combo (c :: y) (G :: Gs)) with (fun i j => c * G i j + combo y Gs i j).
  rewrite matmul_plus_r, IH. unfold combo at 2. cbn. f_equal. unfold matmul. rewrite <- sum_n_scal. apply sum_n_ext; intros; lra.
Qed.
Lemma combo_matmul_r (Z : Mt) i j : forall (Gs : list Mt) (y : list R),
  matmul n (combo y Gs) Z i j = combo y (map (fun G => matmul n G Z) Gs) i j.
Proof.
  induction Gs as [|G Gs IH]; intros [|c y]; try (unfold combo, matmul; cbn; rewrite (sum_n_ext n _ (fun _ => 0)); [apply sum_n_zero|intros; lra]).
  change (combo (c :: y) (G :: Gs)) with (fun i j => c * G i j + combo y Gs i j).
  rewrite matmul_plus_l, IH. unfold combo at 2. cbn. f_equal. unfold matmul. rewrite <- sum_n_scal. apply sum_n_ext; intros; lra.
Qed.
End B.
End A.
