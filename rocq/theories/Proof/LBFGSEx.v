From Coq Require Import List Arith Bool ZArith QArith Reals Lra Lia.
From Verif.Base Require Import Num Instances QInst Vec.
From Verif.Model Require Import Common LBFGS.
From Verif.Spec Require Import CommonSpec LBFGSSpec.
Import ListNotations.

Definition tbl (l : list (Q * (Q * Q))) (x : list QNum) : QNum * list QNum :=
  match x with
  | [q] => match find (fun e => Qeq_bool (fst e) q) l with
           | Some (_, (v, g)) => (v, [g])
           | None => (0%Q, [0%Q])
           end
  | _ => (0%Q, [0%Q])
  end.
Definition half_square (x : list QNum) : QNum * list QNum :=
  match x with [q] => (Qred ((q - 3) * (q - 3) / 2), [Qred (q - 3)]) | _ => (0, []) end%Q.
Definition quiet : CB QNum (list QNum) (list QNum) :=
  {| cs_stop := fun _ => false; cs_grad := fun _ _ _ g => g |}.
Definition stop_at_once : CB QNum (list QNum) (list QNum) :=
  {| cs_stop := fun _ => true; cs_grad := fun _ _ _ g => g |}.
(** norms of one-element matrices *)
Definition abs1 (x : list QNum) : QNum := match x with [q] => nabs (n := QNum) q | _ => 0%Q end.
Definition lb_Q (maxIterations maxTrials : nat) (f : list QNum -> QNum * list QNum) cb (fuel : nat) (term0 : bool)
    (x : list QNum) :=
  lbfgs (N := QNum) 2 maxIterations (1 # 10000)%Q (1 # 1000000)%Q (9 # 10)%Q (1 # 1000000)%Q (1 # 1000000)%Q (1000000)%Q
    maxTrials (1 # 1000000)%Q abs1 abs1 f cb fuel term0 [[0%Q]; [0%Q]] [[0%Q]; [0%Q]] x.

(** with the member set, Optimize() leaves at once *)
Lemma stopped_stays f cb x r member fuel : lb_Q 10 50 f cb fuel true x = Ret (r, member) ->
  o_x r = x /\ o_val r = fst (f x) /\ member = true.
Proof.
  unfold lb_Q, lbfgs. destruct (f x) as [v g]. cbn [orb]. destruct fuel; cbn; intros E; injection E as <- <-; auto.
Qed.

Lemma legal_decreasing (mx : R) numBasis armijo minGradientNorm wolfe factr minStep maxStep maxTrials tol norm2 normF f
    (ps : list (@point (RNum mx))) i p q :
  (0 <= factr)%R ->
  legal (N := RNum mx) numBasis armijo minGradientNorm wolfe factr minStep maxStep maxTrials tol norm2 normF f ps ->
  nth_error ps i = Some p -> nth_error ps (S i) = Some q -> (p_v q < p_v p)%R.
Proof.
  intros F L EP EQ. destruct (L i p q EP EQ) as (_ & _ & _ & _ & NS).
  apply Rnot_le_lt. intros C. apply NS. unfold stable. cbn [nle ndiv nsub RNum].
  set (D := larger _ _). assert (DP : (1 <= D)%R).
  { unfold D. generalize (larger (N := RNum mx) (nabs (p_v p)) (nabs (p_v q))). intros z. unfold larger. cbn.
    destruct (Rltb_spec z 1); lra. }
  destruct (Rleb_spec ((p_v p - p_v q) / D) factr) as [H|H]; [reflexivity|].
  exfalso. apply H. apply Rle_trans with 0%R; [|exact F].
  unfold Rdiv. rewrite <- (Rmult_0_l (/ D)). apply Rmult_le_compat_r; [|lra].
  left. apply Rinv_0_lt_compat. lra.
Qed.
