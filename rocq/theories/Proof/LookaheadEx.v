(** Lookahead over SGD on f_i(x) = x (i < 2), with integer arithmetic. *)
From Coq Require Import List Arith Bool ZArith Lia.
From Verif.Base Require Import Num Vec Size Instances.
From Verif.Proof Require Import SgdProof SgdMore.
From Verif.Model Require Import Common Sgd Lookahead.
From Verif.Spec Require Import SgdSpec LookaheadSpec.
From Verif.Proof Require Import LookaheadProof.
Import ListNotations.
Local Open Scope nat_scope.

Definition zv := list ZNum.
Definition lk_val (x : zv) (k : nat) : ZNum := (Z.of_nat k * hd 0%Z x)%Z.
Definition lk_f : SepFun ZNum zv zv := Build_SepFun ZNum zv zv 2
  (fun _ x b k => lk_val x k) (fun _ x b k => (lk_val x k, [Z.of_nat k])).
Definition lk_c (m : nat) : Cfg ZNum zv zv unit unit :=
  Build_Cfg ZNum zv zv unit unit 1 m 0%Z false false
    (fun _ x step g => (tt, vsub (N := ZNum) x (vscale step g))) (fun _ _ step _ => (tt, step)).
Definition lk_ev := event ZNum zv zv.
(** callbacks of the inner runs: none, or one that asks to stop after every evaluation *)
Definition lk_quiet : Callbacks ZNum zv zv := {| cb_stop := fun _ => false; cb_grad := fun _ g => g |}.
Definition lk_eager : Callbacks ZNum zv zv :=
  {| cb_stop := fun h => match h with EvalGrad _ _ _ _ _ :: _ => true | _ => false end; cb_grad := fun _ g => g |}.
Definition lk_base (cb : Callbacks ZNum zv zv) := sgd_base (N := ZNum) lk_c (fun _ => lk_f) (fun _ => cb) 20.
Definition lk_run (cb : Callbacks ZNum zv zv) (exact : bool) (k m : nat) : outc (@lres ZNum (unit * unit * ZNum) unit lk_ev) :=
  lookahead (N := ZNum) (lk_base cb) true 0 k m 0%Z exact (fun _ _ step _ => (tt, step)) 2 1 (fun _ x _ n => lk_val x n) (fun _ => false)
    20 (tt, tt, 1%Z : ZNum) tt (2%Z : ZNum) [100%Z].

(** three rounds of four visits: 100 -> 92 -> 84 -> 76; the value is that of the last pass of the last
    inner run, with exactObjective that of the final iterate *)
Lemma lk_plain : exists r, lk_run lk_quiet false 4 3 = Ret r /\ map rd_slow (lr_log r) = [[100]; [92]; [84]]%Z /\
  map rd_fast (lr_log r) = [[96]; [88]; [80]]%Z /\ lr_x r = [76]%Z /\ lr_val r = 163%Z /\ lr_conv r = false /\
  lr_val r <> fold_left Z.add (map (fun _ => lk_val (lr_x r) 1) (seq 0 2)) 0%Z.
Proof.
  let v := eval vm_compute in (lk_run lk_quiet false 4 3) in match v with Ret ?r => exists r end.
  split; [vm_compute; reflexivity|]. repeat split. vm_compute. discriminate.
Qed.
Lemma lk_exact : exists r, lk_run lk_quiet true 4 3 = Ret r /\ lr_x r = [76]%Z /\ lr_val r = 152%Z.
Proof.
  let v := eval vm_compute in (lk_run lk_quiet true 4 3) in match v with Ret ?r => exists r end.
  split; [vm_compute; reflexivity|]. repeat split.
Qed.

(** the request to stop ends every inner run after one visit, but all three rounds are made *)
Lemma lk_ignored : exists r, lk_run lk_eager false 4 3 = Ret r /\ length (lr_log r) = 3 /\
  forall slow fast obj inner, In (LRun slow fast obj inner) (lr_tr r) -> stop_requested lk_eager inner /\ visits inner = 1.
Proof.
  let v := eval vm_compute in (lk_run lk_eager false 4 3) in match v with Ret ?r => exists r end.
  split; [vm_compute; reflexivity|]. split; [reflexivity|].
  intros slow fast obj inner I. cbn in I.
  repeat (destruct I as [I|I]; [try discriminate; injection I as <- <- <- <-; (split; [|reflexivity]);
    match goal with |- stop_requested _ (?a :: ?b :: ?c :: ?d) => exists [a; b], c, d end; repeat split; reflexivity|]).
  destruct I.
Qed.

(** k = 0 does not mean "no inner steps": SGD takes it for "no limit" *)
Lemma sgd_inner_zero : forall (N : Num) (G U D : Type) (c : nat -> Cfg N (list N) G U D) f cb fuel b h x b' fast obj inner,
  (forall m, c_max (c m) = m) -> 0 < sf_num (f h) -> 0 < c_batch (c 0) ->
  sgd_base c f cb fuel 0 b h x = Some (b', fast, obj, inner) ->
  visits inner = size_max \/ stop_requested (cb h) inner \/ stops_at (c_tol (c 0)) nmax (pass_sums n0 inner).
Proof.
  intros N G U D c f cb fuel [[u d] step] h x b' fast obj inner HC HF HB H. unfold sgd_base in H.
  destruct (optimize_with (c 0) (f h) (cb h) fuel u d step x) as [r| |] eqn:EO; try discriminate.
  injection H as _ _ _ <-.
  assert (L : visits (r_trace r) <= limit (c_max (c 0)) /\ (visits (r_trace r) = limit (c_max (c 0)) \/ stop_requested (cb h) (r_trace r) \/
   stops_at (c_tol (c 0)) nmax (pass_sums n0 (r_trace r)))) by (eapply c02_bound; eassumption).
  destruct L as [_ L]. rewrite HC in L. exact L.
Qed.
