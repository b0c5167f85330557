(** PSO and ParallelSGD objects that are used again. *)
From Coq Require Import List Arith Bool ZArith QArith Lia.
From Verif.Base Require Import Num Vec Instances QInst.
From Verif.Model Require Import Common SA PSO ParallelSgd ReuseSwarm.
From Verif.Spec Require Import ReuseSpec.
From Verif.Proof Require Import ReuseRefuted.
Import ListNotations.
Local Open Scope nat_scope.

Section Swarm.
  Context {N : Num}.
  Lemma bounds_again (lo up : list N) n : n <> 1 ->
    init_bounds (fst (init_bounds lo up n)) (snd (init_bounds lo up n)) n = init_bounds lo up n.
  Proof.
    intros Hn. destruct lo as [|l [|l' lo]].
    - reflexivity.
    - destruct up as [|u [|u' up]]; [reflexivity| |reflexivity]. unfold init_bounds at 3 4 2 1.
      destruct (neq l u); destruct n as [|[|n]]; try reflexivity; lia.
    - destruct up as [|u [|u' up]]; reflexivity.
  Qed.
  Lemma pso_as_new max hz (tol c1 c2 : N) n (lo up : list N) : n <> 1 ->
    as_new (pso_call max hz tol c1 c2) (fun i _ => length (pi_x i) = n) (fun i => length (pi_x i) = n) ((lo, up), None).
  Proof.
    intros Hn o i U Li.
    assert (I : o = ((lo, up), None) \/
      (init_bounds (fst (fst o)) (snd (fst o)) n = init_bounds lo up n /\ snd o = Some (nadd c1 c2))).
    { induction U as [|o j v o' U IH C P]; [left; reflexivity|]. right.
      assert (A : init_bounds (fst (fst o)) (snd (fst o)) n = init_bounds lo up n /\ match snd o with Some p => p | None => nadd c1 c2 end = nadd c1 c2).
      { destruct IH as [->|[A B]]; [split; reflexivity|]. rewrite B. auto. }
      destruct A as [A B]. unfold pso_call in C. rewrite P, A in C. destruct (init_bounds lo up n) as [lo' up'] eqn:E.
      unfold lbest_initialize in C. rewrite B in C. destruct (nlt _ _); [|discriminate].
      match type of C with match ?z with _ => _ end = _ => destruct z as [[r| |]|] end; try discriminate. injection C as _ <-. cbn [fst snd].
      split; [|reflexivity]. pose proof (bounds_again lo up n Hn) as G. rewrite E in G. exact G. }
    unfold pso_call. rewrite Li. destruct I as [->|[A B]]; [reflexivity|]. cbn [fst snd]. rewrite A. destruct (init_bounds lo up n) as [lo' up'].
    unfold lbest_initialize. rewrite B. destruct (nlt _ _); [|reflexivity].
    destruct (pso_optimize _ _ _ _ _ _ _ _ _) as [[r| |]|]; reflexivity.
  Qed.
End Swarm.

Section Parallel.
  Context {N : Num}.
  Variables (q : nat) (beta : N).
  Hypothesis Hq : 0 < q.
  Lemma after_above st k : k < fst st -> fst st <= fst (backoff_after q beta st k).
  Proof.
    intros _. induction k as [|k IH]; cbn [backoff_after]; [lia|]. destruct (backoff_after q beta st k) as [c s]. cbn [fst] in IH. cbn [backoff].
    destruct (c <=? S k); cbn; lia.
  Qed.
  Lemma after_cutoff st : 0 < fst st -> forall k, k < fst (backoff_after q beta st k).
  Proof.
    intros H. induction k as [|k IH]; cbn [backoff_after]; [exact H|]. destruct (backoff_after q beta st k) as [c s]. cbn [fst] in IH. cbn [backoff].
    destruct (c <=? S k) eqn:E; cbn; [|apply Nat.leb_gt in E; lia]. lia.
  Qed.
  (* below the cutoff nothing changes *)
  Lemma after_below st : forall k, k < fst st -> backoff_after q beta st k = st.
  Proof.
    induction k as [|k IH]; intros H; cbn [backoff_after]; [reflexivity|]. rewrite IH by lia. destruct st as [c s]. cbn in *.
    destruct (c <=? S k) eqn:E; [apply Nat.leb_le in E; lia|reflexivity].
  Qed.
  Lemma step_below st i : i < fst st -> backoff_step_size q beta st i = snd st.
  Proof.
    intros H. unfold backoff_step_size. rewrite after_below by lia. destruct st as [c s]. cbn in *. destruct (c <=? i) eqn:E; [apply Nat.leb_le in E; lia|reflexivity].
  Qed.
  Variables (maxIterations : nat) (tol : N) (shuffle : bool) (threads share fuel : nat).
  Notation call := (psgd_call maxIterations tol shuffle threads share q beta fuel).
  (* the rounds of a trace are numbered 1, 2, ... and used the policy's answers *)
  Definition numbered (step : nat -> N) (tr : list (oev N)) : Prop :=
    forall i order a es x, In (OEpoch i order a es x) tr -> 1 <= i <= rounds tr /\ a = step i.
  Lemma numbered_loop step f perm cbE grad cbG cbS sched : forall fuel i order x last term tr v x' tr',
    psgd_loop maxIterations tol shuffle threads share f step perm cbE grad cbG cbS sched fuel i order x last term tr = Ret (v, x', tr') ->
    0 < i -> rounds tr = pred i -> numbered step tr -> numbered step tr'.
  Proof.
    assert (RV : forall l : list (oev N), rounds (rev l) = rounds l).
    { intros l. unfold rounds. generalize (fun e : oev N => match e with OEpoch _ _ _ _ _ => true | _ => false end). intros g.
      induction l as [|a l IH]; [reflexivity|]. cbn [rev filter]. rewrite filter_app, app_length, IH. cbn. destruct (g a); cbn; lia. }
    assert (FI : forall tr e, numbered step tr -> (match e with OEpoch _ _ _ _ _ => False | _ => True end) -> numbered step (rev (e :: tr))).
    { intros tr e Nm Ne i o a es x I. apply in_rev in I. rewrite RV. destruct I as [->|I]; [destruct Ne|]. destruct e; try destruct Ne; exact (Nm i o a es x I). }
    induction fuel0 as [|fu IH]; intros i order x last term tr v x' tr' Run Hi Ri Nm; cbn [psgd_loop] in Run; [discriminate|].
    destruct (_ || _); [injection Run as _ _ <-; apply FI; [exact Nm|exact I]|].
    assert (Nm2 : numbered step (OEval x (f x) :: tr)) by (intros j o a es z [K|K]; [discriminate|exact (Nm j o a es z K)]).
    destruct (_ || _); [injection Run as _ _ <-; exact (FI (OEval x (f x) :: tr) (OEnd x) Nm2 I)|].
    destruct (nlt _ _); [injection Run as _ _ <-; exact (FI (OEval x (f x) :: tr) (OEnd x) Nm2 I)|].
    destruct (pexec _ _ _ _ _ _ _ _ _) as [s ls]. destruct (finished _ _ _); [|discriminate].
    apply IH in Run; [exact Run|lia| |].
    - unfold rounds in *. cbn. rewrite Ri. lia.
    - assert (RE : forall e, match e with OEpoch _ _ _ _ _ => True | _ => False end -> rounds (e :: OEval x (f x) :: tr) = i).
      { intros e He. destruct e; try destruct He. unfold rounds in *. cbn. rewrite Ri. lia. }
      intros j o a es z [K|K]; [inversion K; subst; rewrite RE by exact I; split; [lia|reflexivity]|].
      rewrite RE by exact I. destruct (Nm2 j o a es z K) as [B1 B2]. split; [|exact B2]. change (rounds (OEval x (f x) :: tr)) with (rounds tr) in B1. lia.
  Qed.
  Lemma call_rounds o i v x tr o' : call o i = Ret ((v, x, tr), o') ->
    numbered (backoff_step_size q beta o) tr /\ o' = backoff_after q beta o (rounds tr).
  Proof.
    unfold psgd_call. intros C. destruct (psgd _ _ _ _ _ _ _ _ _ _ _ _ _ _ _) as [[[v1 x1] tr1]| |] eqn:E; try discriminate. injection C as <- <- <- <-.
    split; [|reflexivity]. unfold psgd in E. eapply numbered_loop; [exact E|lia|reflexivity|]. intros j o1 a es z [K|[]]. discriminate.
  Qed.
  (* a second call that makes no more rounds than the first one keeps the last step size throughout *)
  Theorem backoff_frozen o i j v x tr o' w y us o'' : 0 < fst o ->
    call o i = Ret ((v, x, tr), o') -> call o' j = Ret ((w, y, us), o'') -> rounds us <= rounds tr ->
    o'' = o' /\ forall k order a es z, In (OEpoch k order a es z) us -> a = snd o'.
  Proof.
    intros Ho C1 C2 R. destruct (call_rounds _ _ _ _ _ _ C1) as [_ E1]. destruct (call_rounds _ _ _ _ _ _ C2) as [N2 E2].
    pose proof (after_cutoff o Ho (rounds tr)) as A. rewrite <- E1 in A. split.
    - rewrite E2. apply after_below. lia.
    - intros k order a es z I. destruct (N2 k order a es z I) as [B1 ->]. apply step_below. lia.
  Qed.
End Parallel.

(** ** Examples *)
(** ParallelSGD on f(x) = x, one thread, one function, firstBackoffEpoch 2, beta 1/2: the first call makes
    steps 1, 1/2, 1/2, the second one only 1/2 *)
Definition pg_in : psgd_in QNum := {|
  pg_f := fun x : list QNum => hd (0%Q : QNum) x; pg_perm := fun _ l => l; pg_cbE := fun _ => false;
  pg_grad := fun _ _ _ => [(0, 1%Q : QNum)]; pg_cbG := fun _ _ => false; pg_cbS := fun _ _ => false;
  pg_sched := fun _ => repeat 0 20; pg_n := 1; pg_x := [10%Q : QNum] |}.
Definition psgd1 := psgd_call (N := QNum) 4 (0%Q : QNum) false 1 1 4 ((1 # 2)%Q : QNum) 20.
Lemma psgd_differs : exists v w, twice psgd1 (2, (1%Q : QNum)) pg_in pg_in v w /\ snd (fst v) = [8%Q : QNum] /\ snd (fst w) = [(17 # 2)%Q : QNum].
Proof. run2 psgd1 (2, (1%Q : QNum)) pg_in pg_in. split; reflexivity. Qed.
Lemma psgd_rounds : exists v w, twice psgd1 (2, (1%Q : QNum)) pg_in pg_in v w /\ rounds (snd v) = 3 /\ rounds (snd w) = 3.
Proof. run2 psgd1 (2, (1%Q : QNum)) pg_in pg_in. split; reflexivity. Qed.
(** PSO on one row: the lower bound changes its sign with every call *)
Definition ps_in : pso_in QNum := {|
  pi_f := fun x : list QNum => hd (0%Q : QNum) x; pi_cb := Build_CB QNum (list QNum) (list QNum) (fun _ => false) (fun _ _ _ g => g); pi_us := [[0%Q : QNum]]; pi_vs := [[0%Q : QNum]];
  pi_r1 := fun _ _ => [0%Q : QNum]; pi_r2 := fun _ _ => [0%Q : QNum]; pi_x := [0%Q : QNum] |}.
Definition pso1 := pso_call (N := QNum) 1 1 (0%Q : QNum) (3%Q : QNum) (3%Q : QNum).
Lemma pso_bounds_differ : exists v w, twice pso1 (([2%Q : QNum], [5%Q : QNum]), None) ps_in ps_in v w /\ o_x v = [(-2)%Q : QNum] /\ o_x w = [2%Q : QNum].
Proof. run2 pso1 (([2%Q : QNum], [5%Q : QNum]), (None : option QNum)) ps_in ps_in. split; reflexivity. Qed.
(** the static variable: one particle at 0 with velocity -8 on f(x) = x; its best value is -8 chi *)
From Coq Require Import Reals Lra.
Definition pr_in (mx : R) : pso_in (RNum mx) :=
  @Build_pso_in (RNum mx) (fun x => hd 0%R x) (Build_CB (RNum mx) (list R) (list R) (fun _ => false) (fun _ _ _ g => g)) [[0%R; 0%R]] [[(-8)%R; 0%R]]
    (fun _ _ => [0%R; 0%R]) (fun _ _ => [0%R; 0%R]) [0%R; 0%R].
Definition pso_r (mx c1 c2 : R) := pso_call (N := RNum mx) 2 2 (0%R : RNum mx) (c1 : RNum mx) (c2 : RNum mx).
Lemma chi_half mx : lbest_chi (N := RNum mx) (9 / 2)%R = (1 / 2)%R.
Proof.
  unfold lbest_chi. cbn. replace ((9 / 2 - 4) * (9 / 2))%R with (Rsqr (3 / 2)) by (unfold Rsqr; lra). rewrite sqrt_Rsqr by lra.
  rewrite Rabs_left by lra. field.
Qed.
Lemma chi_quarter mx : lbest_chi (N := RNum mx) (25 / 4)%R = (1 / 4)%R.
Proof.
  unfold lbest_chi. cbn. replace ((25 / 4 - 4) * (25 / 4))%R with (Rsqr (15 / 4)) by (unfold Rsqr; lra). rewrite sqrt_Rsqr by lra.
  rewrite Rabs_left by lra. field.
Qed.
Lemma static_run mx (st : option R) chi p : (0 < mx)%R -> (0 < chi)%R -> lbest_initialize (N := RNum mx) st (9 / 4)%R (9 / 4)%R = Some (p, chi) ->
  exists r o, pso_r mx (9 / 4) (9 / 4) (([0%R; 0%R], [1%R; 1%R]), st) (pr_in mx) = Ret (r, o) /\ o_val r = (- 8 * chi)%R.
Proof.
  intros Hm Hc E. unfold pso_r, pso_call. change (init_bounds _ _ _) with ([0%R : RNum mx; 0%R : RNum mx], [1%R : RNum mx; 1%R : RNum mx]).
  cbn [snd]. change (T (RNum mx)) with R in *. rewrite E. unfold pso_optimize. cbn [map hd init_position vadd vmul vsub map2 pso_first cs_stop pr_in pi_f pi_cb pi_us pi_vs pi_x pi_r1 pi_r2 Nat.ltb Nat.leb Nat.sub].
  unfold pso_horizon, pso_iter, lbest_velocity, local_best. cbn.
  repeat match goal with |- context [Rltb ?a ?b] => destruct (Rltb_spec a b); [try (exfalso; lra)|try (exfalso; lra)]; cbn end.
  all: eexists; eexists; (split; [reflexivity|]); cbn; try lra; match goal with H : ~ _ |- _ => solve [exfalso; apply H; cbn; lra] end.
Qed.

(** the object is new; whether another object ran before decides what it returns *)
Lemma pso_static_differs mx : (0 < mx)%R ->
  exists r o r' o', pso_r mx (9 / 4) (9 / 4) (([0%R; 0%R], [1%R; 1%R]), None) (pr_in mx) = Ret (r, o) /\ o_val r = (-4)%R /\
    pso_r mx (9 / 4) (9 / 4) (([0%R; 0%R], [1%R; 1%R]), Some (25 / 4)%R) (pr_in mx) = Ret (r', o') /\ o_val r' = (-2)%R.
Proof.
  intros Hm.
  destruct (static_run mx None (1 / 2)%R (9 / 2)%R Hm ltac:(lra)) as (r & o & A & B).
  { unfold lbest_initialize. cbn. replace (9 / 4 + 9 / 4)%R with (9 / 2)%R by lra. destruct (Rltb_spec 4 (9 / 2)); [|exfalso; lra]. rewrite <- (chi_half mx). reflexivity. }
  destruct (static_run mx (Some (25 / 4)%R) (1 / 4)%R (25 / 4)%R Hm ltac:(lra)) as (r' & o' & A' & B').
  { unfold lbest_initialize. cbn. destruct (Rltb_spec 4 (25 / 4)); [|exfalso; lra]. rewrite <- (chi_quarter mx). reflexivity. }
  exists r, o, r', o'. split; [exact A|]. split; [rewrite B; lra|]. split; [exact A'|]. rewrite B'. lra.
Qed.
