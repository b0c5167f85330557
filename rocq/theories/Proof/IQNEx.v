(** Runs of IQN (Model/IQN.v) with rational numbers. *)
From Coq Require Import List Arith Bool ZArith QArith.
From Verif.Base Require Import Num Vec Size Loop QInst.
From Verif.Model Require Import Common VarRed IQN.
From Verif.Spec Require Import VarRedSpec.
Import ListNotations.
Local Open Scope nat_scope.

(** h (x - a)^2 / 2 for each pair (h, a) *)
Definition parabolas (l : list (Q * Q)) : VFun QNum := {|
  vf_num := length l;
  vf_eval := fun _ (x : list QNum) i c => @vsum QNum (map (fun p => let d := nsub (n := QNum) (hd 0%Q x) (snd p) in
      ndiv (n := QNum) (nmul (n := QNum) (fst p) (nmul (n := QNum) d d)) (2#1)) (firstn c (skipn i l)));
  vf_grad := fun _ (x : list QNum) i c => [@vsum QNum (map (fun p => nmul (n := QNum) (fst p) (nsub (n := QNum) (hd 0%Q x) (snd p))) (firstn c (skipn i l)))] |}.
Definition iquiet : VCB QNum := {| vc_stop := fun _ => false; vc_hook := fun _ _ g => g |}.
Definition solve1 : nat -> (nat -> nat -> QNum) -> list QNum -> option (list QNum) :=
  fun _ A v => if neq (n := QNum) (A 0 0) 0%Q then None else Some [ndiv (n := QNum) (hd 0%Q v) (A 0 0)].
Definition norm1 : list QNum -> QNum := fun v => nabs (n := QNum) (hd 0%Q v).
Definition iqrun (l : list (Q * Q)) (b maxIterations rows : nat) (init x : Q) : outc (@ires QNum) :=
  iqn solve1 norm1 (parabolas l) iquiet 1%Q b maxIterations 0%Q rows 10 [init : QNum] [x : QNum].
Definition isteps (tr : list (vev QNum)) : list (list Q) := flat_map (fun e => match e with VStep x _ => [x] | _ => [] end) tr.

Ltac run t := let v := eval vm_compute in t in match v with Ret ?r => exists r end; split; [vm_compute; reflexivity|].
(** two parabolas, batches of one function: exact after the first iteration *)
Lemma iq_even : exists r, iqrun [(2#1, 0%Q); (2#1, 4#1)] 1 4 1 1%Q (3#1) = Ret r /\
  isteps (ir_tr r) = [[7#3]; [2#1]; [2#1]; [2#1]] /\ ir_x r = [2#1] /\ ir_val r = (4#1) /\ ir_conv r = false.
Proof. run (iqrun [(2#1, 0%Q); (2#1, 4#1)] 1 4 1 1%Q (3#1)). vm_compute. repeat split. Qed.
(** three of them, batches of two and one *)
Lemma iq_uneven : exists r, iqrun [(1%Q, 0%Q); (1%Q, 0%Q); (3#1, 2#1)] 2 5 1 1%Q (4#1) = Ret r /\
  ir_x r = [7#6] /\ vf_grad (parabolas [(1%Q, 0%Q); (1%Q, 0%Q); (3#1, 2#1)]) 0 (ir_x r) 0 3 = [(-1#6)%Q] /\
  last (isteps (ir_tr r)) [] = [7#6] /\ length (isteps (ir_tr r)) = 3.
Proof. run (iqrun [(1%Q, 0%Q); (1%Q, 0%Q); (3#1, 2#1)] 2 5 1 1%Q (4#1)). vm_compute. repeat split. Qed.
(** the same from another random point *)
Lemma iq_uneven' : exists r, iqrun [(1%Q, 0%Q); (1%Q, 0%Q); (3#1, 2#1)] 2 5 1 0%Q (4#1) = Ret r /\ ir_x r = [1%Q].
Proof. run (iqrun [(1%Q, 0%Q); (1%Q, 0%Q); (3#1, 2#1)] 2 5 1 0%Q (4#1)). vm_compute. repeat split. Qed.
Lemma iq_column : iqrun [(2#1, 0%Q); (2#1, 4#1)] 1 4 2 1%Q (3#1) = Bad.
Proof. vm_compute. reflexivity. Qed.
