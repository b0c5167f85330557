From Coq Require Import List Arith Bool ZArith Lia Permutation.
From Verif.Base Require Import Num Instances.
From Verif.Model Require Import Common SA ParallelSgd.
From Verif.Spec Require Import ParSpec ParSerialSpec.
From Verif.Proof Require Import ParSerial.
Import ListNotations.
Local Open Scope Z_scope.

(** three functions of four elements: function i is half the square of element i *)
Definition own_sq (i : nat) (x : list ZNum) : list (nat * ZNum) :=
  match nth_error x i with Some a => [(i, a)] | None => [] end.
Lemma own_sq_separate : separate (N := ZNum) 3 (fun i p => p = i) own_sq.
Proof.
  constructor.
  - intros i x y _ H. unfold own_sq. rewrite (H i eq_refl). reflexivity.
  - intros i x p a _ I. unfold own_sq in I. destruct (nth_error x i); [|destruct I]. destruct I as [I|[]]. injection I as -> _. reflexivity.
  - intros i x _. unfold own_sq. destruct (nth_error x i); repeat constructor; intros [].
  - intros i j p _ _ -> H. exact H.
Qed.
(** all functions: half the square of element 0 *)
Definition same_sq (i : nat) (x : list ZNum) : list (nat * ZNum) :=
  match nth_error x 0 with Some a => [(0%nat, a)] | None => [] end.
Definition now (G : nat -> list ZNum -> list (nat * ZNum)) (h0 : list (oev ZNum)) (h : list (pev ZNum)) (i : nat) : list (nat * ZNum) :=
  match h0 with OEval x _ :: _ => G i (after x h) | _ => [] end.
Definition run (G : nat -> list ZNum -> list (nat * ZNum)) (n T share : nat) (perm : list nat -> list nat) (sched : list nat) (x0 : list ZNum) :=
  psgd (N := ZNum) 3 0 true T share (fun x => fold_left Z.add x 0) (fun _ => 3) (fun _ l => perm l) (fun _ => false) (now G)
    (fun _ _ => false) (fun _ _ => false) (fun _ => sched) n 5 x0.
Lemma seen_now (x : list ZNum) h : seen x h (after x h).
Proof. intros p. exists [], h. split; reflexivity. Qed.
Lemma now_seen G : forall x v h0 h idx, (idx < 3)%nat -> exists y, seen x h y /\ now G (OEval x v :: h0) h idx = G idx y.
Proof. intros x v h0 h idx _. exists (after x h). split; [apply seen_now|reflexivity]. Qed.

Definition both : list nat := concat (repeat [0; 1]%nat 20).
Definition one_by_one : list nat := repeat 0%nat 40 ++ repeat 1%nat 40.
Definition ended (o : outc (ZNum * list ZNum * list (oev ZNum))) : option (Z * list Z) :=
  match o with Ret (v, x, _) => Some (v, x) | _ => None end.
Lemma ended_ret o v x : ended o = Some (v, x) -> exists tr, o = Ret (v, x, tr).
Proof. destruct o as [[[v' x'] tr]| |]; intros H; try discriminate. injection H as -> ->. exists tr. reflexivity. Qed.
Definition visited (o : outc (ZNum * list ZNum * list (oev ZNum))) : list (list (nat * nat)) :=
  match o with Ret (_, _, tr) => map (fun e => computed (snd e)) (epochs tr) | _ => [] end.
Lemma runs_agree :
  ended (run own_sq 3 2 2 (fun l => l) both [1; 2; 3; 7]) = Some (-5, [4; 8; 12; 7]) /\
  ended (run own_sq 3 2 2 (@rev nat) one_by_one [1; 2; 3; 7]) = Some (-5, [4; 8; 12; 7]) /\
  ended (run own_sq 3 1 5 (fun l => l) one_by_one [1; 2; 3; 7]) = Some (-5, [4; 8; 12; 7]) /\
  visited (run own_sq 3 2 2 (fun l => l) both [1; 2; 3; 7]) = [[(0, 0); (1, 2); (0, 1)]; [(0, 0); (1, 2); (0, 1)]]%nat /\
  visited (run own_sq 3 2 2 (@rev nat) one_by_one [1; 2; 3; 7]) = [[(0, 2); (0, 1); (1, 0)]; [(0, 0); (0, 1); (1, 2)]]%nat.
Proof. vm_compute. repeat split; reflexivity. Qed.
Lemma runs_differ :
  ended (run same_sq 2 2 1 (fun l => l) both [1]) = Some (-5, [25]) /\
  ended (run same_sq 2 2 1 (fun l => l) one_by_one [1]) = Some (4, [16]).
Proof. vm_compute. split; reflexivity. Qed.
Lemma runs_short :
  ended (run own_sq 3 1 1 (fun l => l) both [1; 2; 3; 7]) = Some (10, [4; 2; 3; 7]).
Proof. vm_compute. reflexivity. Qed.
