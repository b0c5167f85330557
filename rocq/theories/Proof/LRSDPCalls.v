From Coq Require Import List Arith Reals Lra Lia ZArith QArith.
From Verif.Base Require Import Num Instances QInst.
From Verif.Model Require Import Common LRSDP LBFGS.
From Verif.Spec Require Import LpSpec SvecSpec LRSDPSpec CommonSpec.
From Verif.Proof Require Import LRSDPProof LBFGSEx.
Import ListNotations.
Local Open Scope R_scope.

Section A.
Variable mx : R.
Variable p : sdp (N := RNum mx).
Lemma after_calls_gram : forall cs x0,
  after_calls p (mk_rrt p x0) cs = gram (sp_r p) (last_point x0 cs).
Proof.
  unfold after_calls, last_point.
  induction cs as [|c cs IH]; intros x0; [apply mk_rrt_gram|].
  cbn [fold_left]. destruct c; cbn [do_call fst evaluate_impl point_after]; apply IH.
Qed.
Lemma plain_value x0 cs x :
  plain_evaluate p (after_calls p (mk_rrt p x0) cs) x = tr_prod (sp_n p) (sp_C p) (gram (sp_r p) (last_point x0 cs)).
Proof. unfold plain_evaluate. rewrite accu_inner, after_calls_gram. apply inner_tr. Qed.

Lemma constraint_value x0 cs x i c : nth_error (all_constraints mx p) i = Some c ->
  evaluate_constraint p (after_calls p (mk_rrt p x0) cs) x i
  = Some (slack (sp_n p) (gram (sp_r p) (if i <? length (sp_sparse p) then last_point x0 cs else x)) c).
Proof.
  unfold all_constraints, evaluate_constraint. intros H. rewrite after_calls_gram.
  destruct (Nat.ltb_spec i (length (sp_sparse p))) as [L|L].
  - rewrite nth_error_app1 in H by exact L. match type of H with ?a = _ => match goal with |- context[match ?b with _ => _ end] => replace b with a by reflexivity end end.
    rewrite H. destruct c as [A b]. rewrite accu_inner, inner_tr. reflexivity.
  - rewrite nth_error_app2 in H by exact L. match type of H with ?a = _ => match goal with |- context[match ?b with _ => _ end] => replace b with a by reflexivity end end.
    rewrite H. destruct c as [A b]. rewrite rar_tr. reflexivity.
Qed.
End A.

(** ** A concrete program: minimise x^2 subject to x^2 = 1, with X = [x][x]^T *)
Definition m1 {N : Num} (v : N) : mat (N := N) := fun _ _ => v.
Definition sdp1 : sdp (N := QNum) :=
  {| sp_n := 1; sp_r := 1; sp_C := m1 (N := QNum) 1%Q; sp_sparse := [(m1 (N := QNum) 1%Q, 1%Q : T QNum)]; sp_dense := [] |}.
(** what L-BFGS is given by AugLagrangian in its first iteration: zero multiplier, sigma = 10 *)
Definition aug1 (x : list QNum) : QNum * list QNum :=
  match x with
  | [q] => let (rrt, v) := evaluate_impl sdp1 (fun _ => 0%Q) 10%Q (m1 (N := QNum) q) in
           (v, [gradient_impl sdp1 (fun _ => 0%Q) 10%Q rrt (m1 (N := QNum) q) 0%nat 0%nat])
  | _ => (0%Q, [])
  end.
(** one L-BFGS iteration with two line search trials *)
Definition run1 := lb_Q 1 2 aug1 quiet 100 false [(1 # 10)%Q].
(** the evaluations among the events of an L-BFGS run, first one first *)
Definition evaluations (tr : list (ev QNum (list QNum) (list QNum))) : list (call (N := QNum)) :=
  flat_map (fun e : ev QNum (list QNum) (list QNum) => match e with EvG [q] _ _ _ => [CAug (N := QNum) (fun _ => 0%Q) 10%Q (m1 (N := QNum) q)] | _ => [] end) tr.
Definition ends1 :=
  match run1 with
  | Ret (o, _) => Some (o_x o, lrsdp_optimize sdp1 (m1 (N := QNum) (1 # 10)%Q) (evaluations (o_tr o)) (m1 (N := QNum) (nth 0 (o_x o) 0%Q)))
  | _ => None
  end.

(** an unsymmetric objective: x0 x1 at (1, 1) *)
Definition sdp2 (mx : R) : sdp (N := RNum mx) :=
  @Build_sdp (RNum mx) 2 1 (fun i j => if ((i =? 0) && (j =? 1))%bool then 1 else 0) [] [].
Lemma unsymmetric_refuted mx :
  exists p : sdp (N := RNum mx), exists x, ~ mat_gradient_at (sp_n p) (sp_r p)
    (fun y => snd (evaluate_impl p (fun _ => 0) 0 y)) x
    (gradient_impl p (fun _ => 0) 0 (fst (evaluate_impl p (fun _ => 0) 0 x)) x).
Proof.
  exists (sdp2 mx), (fun _ _ => 1). intros H.
  specialize (H (fun i _ => if i =? 0 then 1 else 0)).
  assert (D : derivable_pt_lim (fun t => snd (evaluate_impl (sdp2 mx) (fun _ => 0) 0 (fun i _ => 1 + t * (if i =? 0 then 1 else 0)))) 0 1).
  { apply (deriv_ext (fct_cte 1 + id)%F).
    - intros t. unfold evaluate_impl. cbn. unfold plus_fct, fct_cte, id. lra.
    - replace 1 with (0 + 1) at 2 by lra. apply derivable_pt_lim_plus; [apply derivable_pt_lim_const|apply derivable_pt_lim_id]. }
  pose proof (uniqueness_limite _ _ _ _ D H) as E. revert E. unfold evaluate_impl, gradient_impl. cbn. lra.
Qed.
