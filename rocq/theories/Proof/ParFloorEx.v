From Coq Require Import List Arith Bool ZArith Reals Lra Lia Permutation.
From Verif.Base Require Import Num Vec Instances Size.
From Verif.Model Require Import Common SA ParallelSgd.
From Verif.Spec Require Import Gradient ConvergeSpec FWSpec VrRateSpec SgdRateSpec ParSpec ParSerialSpec.
From Verif.Proof Require Import VrRateEx ParSerial ParFloor ParFloorRun.
Import ListNotations.

(** four functions, each half the square of the only element; every gradient is that of the iterate
    at the time *)
Section Sq.
  Context {N : Num}.
  Definition sq_now (h0 : list (oev N)) (h : list (pev N)) (i : nat) : list (nat * N) :=
    match h0 with
    | OEval x _ :: _ => match nth_error (after x h) 0 with Some a => [(0, a)] | None => [] end
    | _ => []
    end.
  Definition in_turns : list nat := concat (repeat [0; 1; 2; 3] 8).
  Definition alone : list nat := repeat 0 40.
  Lemma turns_epoch (a x v : N) h0 :
    let '(s, ls) := pexec 1 [0; 1; 2; 3] a (sq_now (OEval [x] v :: h0)) (fun _ => false) (fun _ => false) in_turns
                      {| s_it := [x]; s_term := false; s_log := [] |} (start 1 4) in
    s_it s = [nsub (nsub (nsub (nsub x (nmul a x)) (nmul a x)) (nmul a x)) (nmul a x)] /\ s_term s = false /\ finished 1 [0; 1; 2; 3] ls = true.
  Proof. vm_compute. auto. Qed.
  Lemma alone_epoch (a x v : N) h0 :
    let '(s, ls) := pexec 4 [0; 1; 2; 3] a (sq_now (OEval [x] v :: h0)) (fun _ => false) (fun _ => false) alone
                      {| s_it := [x]; s_term := false; s_log := [] |} (start 4 1) in
    s_it s = (let d y := nsub y (nmul a y) in [d (d (d (d x)))]) /\ s_term s = false /\ finished 4 [0; 1; 2; 3] ls = true.
  Proof. vm_compute. auto. Qed.
End Sq.

Local Open Scope Z_scope.
Definition sq_run (T share : nat) (sched : list nat) (f : list ZNum -> ZNum) (M fuel : nat) (x : Z) :=
  psgd (N := ZNum) (S M) 0 false T share f (fun _ => 1) (fun _ l => l) (fun _ => false) sq_now
    (fun _ _ => false) (fun _ _ => false) (fun _ => sched) 4 fuel [x].
Lemma abs_not_neg (a : Z) : (Z.abs a <? 0) = false.
Proof. apply Z.ltb_ge. apply Z.abs_nonneg. Qed.

Lemma turns_run f : forall M k fuel x last tr, (M < fuel)%nat -> exists v full,
  psgd_loop (N := ZNum) (S (k + M)) 0 false 4 1 f (fun _ => 1) (fun _ l => l) (fun _ => false) sq_now
    (fun _ _ => false) (fun _ _ => false) (fun _ => in_turns) fuel (S k) [0; 1; 2; 3]%nat [x] last false tr = Ret (v, [(-3) ^ Z.of_nat M * x], full).
Proof.
  induction M as [|M IH]; intros k fuel x last tr LF; (destruct fuel as [|fuel]; [lia|]); cbn [psgd_loop]; change (bound (S ?u)) with (S u).
  - rewrite Nat.add_0_r, Nat.eqb_refl. cbn [orb]. eexists _, _. change (Z.of_nat 0) with 0. replace ((-3) ^ 0 * x) with x by (rewrite Z.pow_0_r; lia). reflexivity.
  - assert (NE : (S k =? S (k + S M))%nat = false) by (apply Nat.eqb_neq; lia). rewrite NE. cbn [orb nisnan nisinf ZNum].
    change (nlt (n := ZNum)) with Z.ltb. change (nabs (n := ZNum)) with Z.abs. rewrite abs_not_neg.
    pose proof (turns_epoch (N := ZNum) 1 x (f [x]) tr) as E.
    destruct (pexec _ _ _ _ _ _ _ _ _) as [s ls]. destruct E as (E1 & E2 & E3).
    assert (E4 : s_it s = [-3 * x]) by (refine (eq_trans E1 _); apply f_equal2; [change (x - 1 * x - 1 * x - 1 * x - 1 * x = -3 * x); ring|reflexivity]).
    rewrite E3, E4, E2. replace (S (k + S M)) with (S (S k + M)) by lia.
    match goal with |- context [psgd_loop _ _ _ _ _ _ _ _ _ _ _ _ _ fuel _ _ _ ?la _ ?t] => destruct (IH (S k) fuel (-3 * x) la t ltac:(lia)) as (v & full & Q) end.
    exists v, full. rewrite Nat2Z.inj_succ, Z.pow_succ_r by lia. replace (-3 * (-3) ^ Z.of_nat M * x) with ((-3) ^ Z.of_nat M * (-3 * x)) by ring. exact Q.
Qed.
Lemma alone_run f : forall M k fuel x last tr, (M < fuel)%nat -> exists v full,
  psgd_loop (N := ZNum) (S (k + M)) 0 false 1 4 f (fun _ => 1) (fun _ l => l) (fun _ => false) sq_now
    (fun _ _ => false) (fun _ _ => false) (fun _ => alone) fuel (S k) [0; 1; 2; 3]%nat [x] last false tr = Ret (v, [if (M =? 0)%nat then x else 0], full).
Proof.
  induction M as [|M IH]; intros k fuel x last tr LF; (destruct fuel as [|fuel]; [lia|]); cbn [psgd_loop]; change (bound (S ?u)) with (S u).
  - rewrite Nat.add_0_r, Nat.eqb_refl. cbn [orb]. eexists _, _. reflexivity.
  - assert (NE : (S k =? S (k + S M))%nat = false) by (apply Nat.eqb_neq; lia). rewrite NE. cbn [orb nisnan nisinf ZNum].
    change (nlt (n := ZNum)) with Z.ltb. change (nabs (n := ZNum)) with Z.abs. rewrite abs_not_neg.
    pose proof (alone_epoch (N := ZNum) 1 x (f [x]) tr) as E.
    destruct (pexec _ _ _ _ _ _ _ _ _) as [s ls]. destruct E as (E1 & E2 & E3).
    assert (E4 : s_it s = [0]) by (refine (eq_trans E1 _); apply f_equal2; [change (let d y := y - 1 * y in d (d (d (d x))) = 0); cbv zeta; ring|reflexivity]).
    rewrite E3, E4, E2. replace (S (k + S M)) with (S (S k + M)) by lia.
    match goal with |- context [psgd_loop _ _ _ _ _ _ _ _ _ _ _ _ _ fuel _ _ _ ?la _ ?t] => destruct (IH (S k) fuel 0 la t ltac:(lia)) as (v & full & Q) end.
    exists v, full. destruct M; exact Q.
Qed.
Lemma stale_diverges f M fuel x : (M < fuel)%nat ->
  (exists v full, sq_run 4 1 in_turns f M fuel x = Ret (v, [(-3) ^ Z.of_nat M * x], full)) /\
  ((0 < M)%nat -> exists v full, sq_run 1 4 alone f M fuel x = Ret (v, [0], full)).
Proof.
  intros LF. split.
  - exact (turns_run f M 0 fuel x _ _ LF).
  - intros HM. destruct (alone_run f M 0 fuel x (nmax (n := ZNum)) [OBegin (N := ZNum) [x]] LF) as (v & full & Q). exists v, full.
    destruct M as [|M]; [lia|]. exact Q.
Qed.

(** x^2/2 and 3(x-2)^2/2 by two threads, both reading the iterate at the start of the epoch *)
From Verif.Proof Require Import ParSparseEx.
Definition two_turns : list nat := concat (repeat [0; 1]%nat 7).
Lemma two_finish {N : Num} (step : N) (a : nat -> N) x0 term :
  finished 1 [0; 1]%nat (snd (pexec 1 [0; 1]%nat step (fun _ i => [(0%nat, a i)]) (fun _ => false) (fun _ => false) two_turns
    {| s_it := x0; s_term := term; s_log := [] |} (start 1 2))) = true.
Proof. vm_compute. reflexivity. Qed.
Local Open Scope R_scope.
Definition two_old mx (h0 : list (oev (RNum mx))) (h : list (pev (RNum mx))) (i : nat) : list (nat * R) :=
  match h0 with OEval x _ :: _ => nonzeros 0 (two_grad i x) | _ => [] end.
Lemma two_old_seen mx : forall x v h0 h idx, (idx < 2)%nat -> exists y, seen (N := RNum mx) x h y /\
  two_old mx (OEval (N := RNum mx) x v :: h0) h idx = nonzeros 0 (two_grad idx y).
Proof. intros x v h0 h idx _. exists x. split; [|reflexivity]. intros p. exists h, []. split; [symmetry; apply app_nil_r|reflexivity]. Qed.
Lemma two_old_run mx (h : R) : exists v xf full,
  psgd (N := RNum mx) 2 0 false 2 1 (fun _ => 0) (fun _ => h) (fun _ l => l) (fun _ => false) (two_old mx)
    (fun _ _ => false) (fun _ _ => false) (fun _ => two_turns) 2 2 [10] = Ret (v, xf, full).
Proof.
  unfold psgd.
  assert (LT : Rltb (Rabs (mx - 0)) 0 = false) by (destruct (Rltb_spec (Rabs (mx - 0)) 0) as [C|_]; [pose proof (Rabs_pos (mx - 0)); lra|reflexivity]).
  cbn -[pexec two_turns start two_old finished]. rewrite LT.
  set (tr := [OEval _ _; OBegin _]).
  assert (X : forall hh j, two_old mx tr hh (nth j [0; 1]%nat 0%nat) = (fun _ i => [(0%nat, (fun i => nth 0 (two_grad i [10]) 0) i)]) hh (nth j [0; 1]%nat 0%nat)).
  { intros hh j. unfold tr, two_old.
    assert (D : (nth j [0; 1]%nat 0%nat = 0 \/ nth j [0; 1]%nat 0%nat = 1)%nat) by (destruct j as [|[|[|j]]]; cbn; auto).
    destruct D as [-> | ->]; cbn; destruct (Req_EM_T _ 0); try reflexivity; exfalso; lra. }
  pose proof (two_finish (N := RNum mx) h (fun i => nth 0 (two_grad i [10]) 0) [10] false) as F.
  rewrite <- (pexec_ext (N := RNum mx) 1 [0; 1]%nat h _ _ (fun _ => false) (fun _ => false) X two_turns) in F.
  destruct (pexec _ _ _ _ _ _ _ _ _) as [s ls] eqn:E.
  cbn [snd] in F. rewrite F. eexists _, _, _. reflexivity.
Qed.
