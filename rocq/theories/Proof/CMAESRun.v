(** Whole runs of CMAES and ActiveCMAES, and what does not hold of them. *)
From Coq Require Import List Arith Bool ZArith Reals Lra Lia SpecFloat.
From Verif.Base Require Import Num Vec SortIdx Instances.
From Verif.Model Require Import Common CMAES LRSDP CMAESAdapt.
From Verif.Spec Require Import LpSpec SvecSpec PrimalDualSpec CommonSpec CMAESSpec CMAESDistSpec.
From Verif.Proof Require Import ProximalProof LRSDPProof PrimalDualProof PrimalDualRun LpMore CMAESProof CMAESWeights CMAESDist CMAESMain.
Import ListNotations.
Local Open Scope R_scope.

Section Run.
Variable mx : R.
Notation RN := (RNum mx).
Variables (n lambda fuel : nat) (eps : R).
Variable chol : Mt -> option Mt.
Variable eig : Mt -> list R * Mt.
Hypothesis Hn : (1 <= n)%nat.
Hypothesis HL : (2 <= lambda)%nat.
Hypothesis Heps : 0 < eps.
Hypothesis Hfuel : (2 <= fuel)%nat.
Hypothesis Hchol : chol_lower n chol.
Hypothesis Heig : eig_sym n eig.
Notation adapt := (adapt (N := RN) ln exp eps chol eig n lambda fuel).
Notation active_adapt := (active_adapt (N := RN) exp eps chol eig n lambda fuel).

Lemma adapt_cov : forall i a sigma steps idx step, covariance n (d_C (N := RN) a) ->
  covariance n (d_C (N := RN) (fst (adapt i a sigma steps idx step))).
Proof.
  intros i a sigma steps idx step HC.
  destruct (settled_ok mx n fuel eps chol Heps Hfuel Hchol (d_C a) HC) as (_ & HC' & _).
  cbn [adapt CMAESAdapt.adapt fst d_C]. apply (repair_cov mx n fuel eig Hfuel Heig). apply (new_cov mx n lambda Hn HL _ _ _ _ _ HC').
Qed.

Variables (maxIterations : nat) (tolerance big : R) (feval : list R -> nat -> nat -> R) (cs : list (nat * nat)).
Variable tf : list R -> list R.
Variable sort_index : list R -> list nat.
Variable cb : CB RN (list R) (list R).
Variable z : nat -> nat -> list R.
Hypothesis Hsort : forall l : list RN, no_nan l -> sorted_index l (sort_index l).

Lemma sample_some : forall i (a : dist (N := RN)), covariance n (d_C a) -> sample (N := RN) eps chol z n lambda fuel i a <> None.
Proof.
  intros i a HC. destruct (sample_ok mx n lambda fuel eps chol Heps Hfuel Hchol z i a HC) as (L & d & -> & _). discriminate.
Qed.
Lemma sample_len : forall i (a : dist (N := RN)) d, sample (N := RN) eps chol z n lambda fuel i a = Some d -> length d = lambda.
Proof.
  intros i a d. unfold sample. destruct (settle _ _ _ _) as [[C L]|]; [|discriminate]. intros E. injection E as <-.
  rewrite map_length, seq_length. reflexivity.
Qed.
Lemma cmaes_returns : forall sigma0 x,
  exists r, cmaes (N := RN) ln exp eps chol eig z n lambda fuel maxIterations tolerance big feval cs (fun _ _ => cs) tf sort_index cb sigma0 x = Ret r.
Proof.
  intros sigma0 x. unfold cmaes.
  refine (cma_returns_inv (N := RN) maxIterations lambda _ tolerance big feval cs tf _ _ _ _ sort_index cb Hsort sample_len
    (fun a : dist (N := RN) => covariance n (d_C a)) _ sigma0 x _ _ _ _ _ _).
  - intros E. pose proof (weights_ok mx lambda HL) as (L & _). rewrite E in L. cbn [length] in L. unfold mu in L.
    assert (1 <= lambda / 2)%nat by (apply (Nat.div_le_lower_bound lambda 2 1); lia). rewrite <- L in *. inversion H.
  - lia.
  - reflexivity.
  - apply (start_ok mx n).
  - intros i a HC. apply sample_some. exact HC.
  - intros. apply adapt_cov. assumption.
Qed.
Lemma active_returns : forall sigma0 x,
  exists r, active_cmaes (N := RN) exp eps chol eig z n lambda fuel maxIterations tolerance big feval cs (fun _ _ => cs) tf sort_index cb sigma0 x = Ret r.
Proof.
  intros sigma0 x. unfold active_cmaes.
  refine (cma_returns_inv (N := RN) maxIterations lambda _ tolerance big feval cs tf _ _ _ _ sort_index cb Hsort sample_len
    (fun a : dist (N := RN) => covariance n (d_C a)) _ sigma0 x _ _ _ _ _ _).
  - unfold aweights. destruct (Nat.max 1 (amu lambda)) eqn:E; [lia|discriminate].
  - lia.
  - reflexivity.
  - apply (start_ok mx n).
  - intros i a HC. apply sample_some. exact HC.
  - intros i a s steps idx step HC. apply (active_ok mx n lambda fuel eps chol eig Heps Hfuel Hchol Heig i a s steps idx step HC).
Qed.
End Run.

(** ** Decompositions of 1 x 1 matrices *)
Definition chol1 (A : Mt) : option Mt := if Rlt_dec 0 (A 0%nat 0%nat) then Some (fun i j => if Nat.eqb i j then sqrt (A 0%nat 0%nat) else 0) else None.
Definition eig1 (A : Mt) : list R * Mt := ([A 0%nat 0%nat], idm).
Lemma chol1_ok : chol_lower 1 chol1.
Proof.
  intros A S. unfold chol1. destruct (Rlt_dec 0 (A 0%nat 0%nat)) as [P|P].
  - split.
    + split; [discriminate|]. intros _ v (i & Hi & V). assert (i = 0%nat) by lia. subst. unfold quad. cbn.
      pose proof (Rsqr_pos_lt _ V) as Q. unfold Rsqr in Q. nra.
    + intros L E. injection E as <-. split; [intros i j H; lia|]. split.
      * intros i Hi. assert (i = 0%nat) by lia. subst. cbn. apply sqrt_lt_R0. exact P.
      * intros i j Hi Hj. assert (i = 0%nat) by lia. assert (j = 0%nat) by lia. subst. unfold matmul. cbn.
        rewrite sqrt_sqrt by lra. lra.
  - split; [|discriminate]. split; [|intros H; exfalso; apply H; reflexivity]. intros PD. exfalso. apply P.
    specialize (PD (fun _ => 1)). unfold quad in PD. cbn in PD. assert (X : exists i, (i < 1)%nat /\ 1 <> 0) by (exists 0%nat; split; [lia|lra]).
    specialize (PD X). lra.
Qed.
Lemma eig1_ok : eig_sym 1 eig1.
Proof.
  intros A S. cbn [eig1 fst snd]. split; [reflexivity|]. split; [intros j k H; assert (j = k) by lia; subst; lra|].
  repeat split; intros i j Hi Hj; assert (i = 0%nat) by lia; assert (j = 0%nat) by lia; subst; unfold matmul, idm, elR; cbn; lra.
Qed.

(** ** The step-size path is not scaled by the square root of the covariance matrix *)
Definition published_path (n : nat) (k : consts) (C : Mt) (ps step ps' : list R) : Prop :=
  exists S y, covariance n S /\ meq n (matmul n S S) C /\ solves n S y (elR step) /\
    forall p, (p < n)%nat -> elR ps' p = (1 - k_cs k) * elR ps p + sqrt (k_cs k * (2 - k_cs k) * k_mueff k) * y p.

Section Path.
Variable mx : R.
Notation RN := (RNum mx).
Notation adapt := (adapt (N := RN) ln exp (1 / 2) chol1 eig1 1 2 2).
Notation settled := (settled (N := RN) (1 / 2) chol1 2).
Lemma half_pos : 0 < 1 / 2. Proof. lra. Qed.
Definition first1 : dist (N := RN) * R := adapt 1 (dist0 (N := RN) 1) 1 [[0]; [0]] [0%nat; 1%nat] [0].
Lemma first1_C : (settled (d_C (fst first1)) 0%nat 0%nat <> 1 /\ d_C (fst first1) 0%nat 0%nat <> 1) /\ covariance 1 (d_C (fst first1)) /\ sized mx 1 (fst first1).
Proof.
  destruct (start_ok mx 1) as [CV SZ].
  pose proof (adapt_ok mx 1 2 2 (1/2) chol1 eig1 (le_n _) (le_n _) half_pos (le_n _) chol1_ok eig1_ok 1 (dist0 (N := RN) 1) 1 [[0]; [0]] [0%nat; 1%nat] [0] CV SZ eq_refl) as H.
  cbv zeta in H. fold first1 in H. destruct H as (HC & HZ & U). split; [|split; assumption].
  unfold cma_update in U. cbv zeta in U.
  destruct (consts_eq mx 1 2 (le_n _) (le_n _)) as (K1 & K2 & K3 & K4 & K5 & K6 & K7 & K8).
  destruct (constants_ok mx 1 2 (le_n _) (le_n _)) as (CS & _ & CC & HS & C1 & CM & SUM).
  rewrite K2 in CS. rewrite K4 in CC. rewrite K8 in HS. rewrite K5, K6 in SUM. rewrite K5 in C1. rewrite K6 in CM. clear K1 K2 K3 K4 K5 K6 K7 K8.
  set (k := cma_consts 1 _) in *. set (C0 := settled (d_C (dist0 (N := RN) 1))) in *.
  assert (E0 : C0 0%nat 0%nat = 1).
  { unfold C0, CMAESAdapt.settled. cbn [settle]. unfold chol1 at 1.
    change (d_C (dist0 (N := RN) 1)) with idm. change (idm 0%nat 0%nat) with 1. destruct (Rlt_dec 0 1); [reflexivity|lra]. }
  destruct U as ((y & Y & PS) & _ & US & _).
  assert (Y0 : y 0%nat = 0). { specialize (Y 0%nat ltac:(lia)). cbn in Y. rewrite E0 in Y. unfold elR in Y; cbn in Y. lra. }
  assert (P0 : elR (d_ps (fst first1)) 0 = 0). { etransitivity; [exact (PS 0%nat ltac:(lia))|]. rewrite Y0. change (elR (d_ps (dist0 (N := RN) 1)) 0) with 0. lra. }
  assert (N0 : norm_n 1 (d_ps (fst first1)) = 0).
  { assert (X : forall v : list R, elR v 0 = 0 -> norm_n 1 v = 0).
    { intros v V. unfold norm_n. cbn. fold (elR v 0). rewrite V. transitivity (sqrt 0); [f_equal; lra|apply sqrt_0]. }
    exact (X _ P0). }
  assert (US' : norm_n 1 (d_ps (fst first1)) / sqrt (1 - (1 - k_cs k) ^ (2 * 1)) < k_h k).
  { eapply Rle_lt_trans; [|exact HS]. right. unfold Rdiv. etransitivity; [exact (f_equal (fun t => t * _) N0)|]. apply Rmult_0_l. }
  destruct (US US') as [PC CF]. clear US US'.
  assert (Q0 : elR (d_pc (fst first1)) 0 = 0). { etransitivity; [exact (PC 0%nat ltac:(lia))|]. change (elR (d_pc (dist0 (N := RN) 1)) 0) with 0. change (elR [0] 0) with 0. lra. }
  specialize (CF 0%nat 0%nat ltac:(lia) ltac:(lia)). 
  match type of Q0 with elR ?u _ = _ => match type of CF with context [elR ?v 0 * elR ?v 0] => change u with v in Q0 end end.
  rewrite Q0, E0 in CF.
  match type of CF with context [sumR ?X] => assert (B0 : sumR X = 0) end.
  { destruct (CMAESAdapt.weights (N := RN) ln 2) as [|a [|b [|c l]]]; cbn; lra. }
  rewrite B0 in CF.
  assert (V : d_C (fst first1) 0%nat 0%nat = 1 - k_c1 k - k_cmu k) by (etransitivity; [exact CF|lra]).
  assert (V1 : 0 <= 1 - k_c1 k - k_cmu k < 1) by lra.
  split; [|lra]. unfold CMAESAdapt.settled. cbn [settle]. unfold chol1 at 1.
  destruct (Rlt_dec 0 (d_C (fst first1) 0%nat 0%nat)) as [P|P]; [lra|].
  unfold chol1 at 1. cbn [Nat.eqb nadd RNum]. destruct (Rlt_dec 0 (d_C (fst first1) 0%nat 0%nat + 1 / 2)) as [P'|P']; cbn [Nat.eqb nadd RNum]; lra.
Qed.

Lemma first1_value : d_C (fst first1) 0%nat 0%nat <> 1.
Proof. apply first1_C. Qed.

Lemma path_not_sqrt : exists a s, reach adapt 1 (dist0 (N := RN) 1) 1 1 a s /\ length [1] = 1%nat /\
  ~ published_path 1 (cma_consts 1 (CMAESAdapt.weights (N := RN) ln 2)) (settled (d_C a)) (d_ps a) [1]
      (d_ps (fst (adapt 2 a s [[0]; [0]] [0%nat; 1%nat] [1]))).
Proof.
  exists (fst first1), (snd first1). split; [|split; [reflexivity|]].
  - eapply (reach_next _ _ _ _ 0 (dist0 (N := RN) 1) 1 [[0]; [0]] [0%nat; 1%nat] [0]); [apply reach_start|reflexivity|]. symmetry. apply surjective_pairing.
  - intros (S & y & CS & SQ & SY & PS).
    destruct first1_C as ([NE _] & CV & SZ).
    pose proof (adapt_ok mx 1 2 2 (1/2) chol1 eig1 (le_n _) (le_n _) half_pos (le_n _) chol1_ok eig1_ok 2 (fst first1) (snd first1) [[0]; [0]] [0%nat; 1%nat] [1] CV SZ eq_refl) as H.
    cbv zeta in H. destruct H as (_ & _ & (y' & Y' & PS') & _).
    destruct (settled_ok mx 1 2 (1/2) chol1 half_pos (le_n _) chol1_ok _ CV) as (_ & _ & PD).
    set (C := settled (d_C (fst first1))) in *. set (k := cma_consts 1 _) in *.
    destruct (consts_eq mx 1 2 (le_n _) (le_n _)) as (K1 & K2 & _).
    destruct (constants_ok mx 1 2 (le_n _) (le_n _)) as (CS1 & _).
    pose proof (mu_eff_ok mx 2 (le_n _)) as [M1 _]. rewrite K1 in M1. rewrite K2 in CS1. fold k in M1, CS1.
    specialize (PS 0%nat ltac:(lia)). specialize (PS' 0%nat ltac:(lia)). rewrite PS in PS'.
    assert (G : 0 < sqrt (k_cs k * (2 - k_cs k) * k_mueff k)) by (apply sqrt_lt_R0; apply Rmult_lt_0_compat; [apply Rmult_lt_0_compat|]; lra).
    assert (EY : y 0%nat = y' 0%nat) by nra.
    specialize (SQ 0%nat 0%nat ltac:(lia) ltac:(lia)). unfold matmul in SQ. cbn in SQ.
    specialize (SY 0%nat ltac:(lia)). specialize (Y' 0%nat ltac:(lia)). unfold elR in SY, Y'. cbn in SY, Y'.
    rewrite EY in SY. set (t := y' 0%nat) in *. set (c := C 0%nat 0%nat) in *. set (u := S 0%nat 0%nat) in *.
    assert (NE' : c <> 1) by exact NE. clearbody t c u.
    assert (SQ' : u * u = c) by lra. assert (SY' : u * t = 1) by lra. assert (Y2 : c * t = 1) by lra.
    apply NE'. rewrite <- SQ' in Y2. assert (u = 1) by nra. subst u. lra.
Qed.
End Path.

(** ** ActiveCMAES: one bad direction resets the whole matrix *)
Section Reset.
Variable mx : R.
Notation RN := (RNum mx).
Variables (fuel : nat) (eps : R) (chol : Mt -> option Mt) (eig : Mt -> list R * Mt).
Hypothesis Heps : 0 < eps.
Hypothesis Hfuel : (2 <= fuel)%nat.
Hypothesis Hchol : chol_lower 2 chol.
Hypothesis Heig : eig_sym 2 eig.
Notation active_adapt := (active_adapt (N := RN) exp eps chol eig 2 4 fuel).
Notation settled := (settled (N := RN) eps chol fuel).
Let bad_steps : list (list R) := [[0; 0]; [0; 0]; [0; 0]; [0; 100]].
Let e1 (i : nat) : R := if Nat.eqb i 0 then 1 else 0.
Let e2 (i : nat) : R := if Nat.eqb i 1 then 1 else 0.
Lemma active_loses : forall sigma,
  let a := dist0 (N := RN) 2 in
  let r := active_adapt 1 a sigma bad_steps [0; 1; 2; 3]%nat [0; 0] in
  let B := active_C (N := RN) 2 4 (settled (d_C a)) (d_pc (fst r)) bad_steps [0; 1; 2; 3]%nat in
  0 < quad 2 B e1 /\ quad 2 (d_C (fst r)) e1 = 0.
Proof.
  intros sigma a r B.
  assert (CV : covariance 2 (d_C a)) by apply (start_ok mx 2).
  assert (ES : settled (d_C a) = idm).
  { unfold CMAESAdapt.settled. destruct fuel as [|f]; [lia|]. cbn [settle]. change (d_C a) with idm.
    assert (S : symmetric 2 idm) by apply cov_eye.
    destruct (chol idm) as [L|] eqn:E; [reflexivity|]. exfalso. apply (proj1 (Hchol idm S)); [|exact E].
    intros v V. rewrite quad_id. apply sq_pos. exact V. }
  assert (C0 : 0 <= c_cov (N := RN) 2 < 1).
  { unfold c_cov, two, nN. rewrite nofnat_R. cbn [nadd nmul ndiv nsqrt n1 RNum]. assert (Q : 0 <= sqrt (1 + 1)) by apply sqrt_pos.
    set (q := sqrt (1 + 1)) in *. cbn. assert (D : 4 <= (1 + 1 + q) * (1 + 1 + q)) by nra. split.
    - apply Rmult_le_pos; [lra|]. left. apply Rinv_0_lt_compat. lra.
    - apply (Rmult_lt_reg_r ((1 + 1 + q) * (1 + 1 + q))); [lra|]. unfold Rdiv. rewrite Rmult_assoc, Rinv_l by lra. lra. }
  assert (BB : beta (N := RN) 2 4 * aw (N := RN) 4 = / 100).
  { unfold beta, aw, amu, two, nN. change (4 / 4)%nat with 1%nat. rewrite !nofnat_R. cbn [nadd nsub nmul ndiv n1 RNum]. cbn. lra. }
  assert (PC : forall p, elR (d_pc (fst r)) p = 0).
  { intros p. unfold r, active_adapt. cbn [CMAESAdapt.active_adapt fst d_pc]. unfold elR. cbn.
    destruct p as [|[|[|p]]]; cbn; lra. }
  assert (EB : forall i j, B i j = (1 - c_cov (N := RN) 2) * idm i j - / 100 * (elR [0; 100] i * elR [0; 100] j)).
  { intros i j. unfold B. rewrite active_eq. cbv zeta. rewrite BB, ES, !PC. cbn [Nat.div Nat.sub firstn skipn map sumR nth bad_steps fst Nat.divmod].
    assert (Z : forall p, elR [0; 0] p = 0) by (intros [|[|[|p]]]; reflexivity). rewrite !Z. lra. }
  remember (c_cov (N := RN) 2) as cv eqn:ECV in C0, EB |- *. clear ECV.
  assert (Q1 : quad 2 B e1 = 1 - cv).
  { rewrite (quad_ext 2 B _ e1 (fun i j _ _ => EB i j)). unfold quad, sum_n, idm, elR, e1. cbn. lra. }
  assert (Q2 : quad 2 B e2 < 0).
  { rewrite (quad_ext 2 B _ e2 (fun i j _ _ => EB i j)). unfold quad, sum_n, idm, elR, e2. cbn. lra. }
  split; [rewrite Q1; lra|].
  destruct (active_ok mx 2 4 fuel eps chol eig Heps Hfuel Hchol Heig 1 a sigma bad_steps [0; 1; 2; 3]%nat [0; 0] CV) as (_ & _ & RST).
  cbv zeta in RST. fold r in RST. fold B in RST. rewrite (RST e2 Q2). apply quad_zero.
Qed.
End Reset.

(** ** ActiveCMAES with fewer than four members *)
Definition not_finite (x : F64) : Prop :=
  match x with S754_nan | S754_infinity _ => True | _ => False end.
Lemma active_few : forall lambda (m : list F64) sigma steps idx step, (lambda < 4)%nat ->
  weighted (aweights (N := F64) lambda) steps idx step -> Forall not_finite (vadd m (vscale sigma step)).
Proof.
  intros lambda m sigma steps idx step Hl (s & l & E & ->).
  assert (W : aweights (N := F64) lambda = [finf]).
  { unfold aweights, aw, amu. rewrite (Nat.div_small lambda 4 Hl). reflexivity. }
  rewrite W in E. destruct idx as [|k idx]; [discriminate|]. cbn in E. injection E as <- <-. cbn [fold_left].
  assert (G : forall v m : list F64, Forall not_finite (vadd m (vscale sigma (vscale finf v)))); [|apply G].
  clear. induction v as [|x v IH]; intros m.
  - destruct m; cbn; constructor.
  - destruct m as [|a m]; [cbn; constructor|]. cbn. constructor; [|apply IH].
    destruct x as [? | ? | | ? ? ?], sigma as [? | ? | | ? ? ?], a as [? | ? | | ? ? ?]; cbn; try exact I;
    repeat match goal with |- context [if ?b then _ else _] => destruct b; cbn end; exact I.
Qed.
