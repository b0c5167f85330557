(** C46: the augmented Lagrangian LRSDP minimises, and the values computed from the cached
    R R^T. *)
From Coq Require Import List Arith Reals Lra Lia QArith.
From Verif.Base Require Import Num Instances QInst.
From Verif.Model Require Import LRSDP.
From Verif.Spec Require Import LpSpec SvecSpec LRSDPSpec.
From Verif.Proof Require Import LRSDPProof LRSDPCalls.
Import ListNotations.
Local Open Scope R_scope.

(** After any calls, evaluating the augmented function gives
    tr(C X) - sum lambda_i (tr(A_i X) - b_i) + sigma/2 sum (tr(A_i X) - b_i)^2 with X = x x^T:
    no earlier call shows. *)
Theorem C46_augmented_value mx (p : sdp (N := RNum mx)) x0 cs lambda sigma x :
  snd (do_call p (after_calls p (mk_rrt p x0) cs) (CAug lambda sigma x))
  = AVal (N := RNum mx) (lagrangian (sp_n p) (sp_r p) (sp_C p) (sp_sparse p ++ sp_dense p) lambda sigma x).
Proof. exact (f_equal (AVal (N := RNum mx)) (evaluate_is_lagrangian mx p lambda sigma x)). Qed.

(** The gradient asked for at the point last evaluated is 2 S x, and it is the gradient of
    the augmented function when the matrices of the program are symmetric.  Calls of the
    plain objective and of the constraints in between do not matter. *)
Theorem C46_augmented_gradient mx (p : sdp (N := RNum mx)) x0 cs lambda sigma x :
  symmetric (sp_n p) (sp_C p) -> (forall A b, In (A, b) (sp_sparse p ++ sp_dense p) -> symmetric (sp_n p) A) ->
  last_point x0 cs = x ->
  exists G, snd (do_call p (after_calls p (mk_rrt p x0) cs) (CAugGrad lambda sigma x)) = AMat (N := RNum mx) G /\
    (forall i k, G i k = 2 * matmul (sp_n p) (dual_slack (sp_n p) (sp_r p) (sp_C p) (sp_sparse p ++ sp_dense p) lambda sigma x) x i k) /\
    mat_gradient_at (sp_n p) (sp_r p) (lagrangian (sp_n p) (sp_r p) (sp_C p) (sp_sparse p ++ sp_dense p) lambda sigma) x G.
Proof.
  intros SC SA <-. eexists. split; [cbn [do_call snd]; rewrite after_calls_gram; reflexivity|].
  split; [exact (gradient_is_2SR mx p lambda sigma _)|exact (lagrangian_gradient mx p lambda sigma _ SC SA)].
Qed.

(** For unsymmetric matrices the gradient is wrong. *)
Theorem C46_unsymmetric_gradient_refuted mx :
  exists p : sdp (N := RNum mx), exists x, ~ mat_gradient_at (sp_n p) (sp_r p)
    (fun y => snd (evaluate_impl p (fun _ => 0) 0 y)) x
    (gradient_impl p (fun _ => 0) 0 (fst (evaluate_impl p (fun _ => 0) 0 x)) x).
Proof. exact (unsymmetric_refuted mx). Qed.

(** A constraint is evaluated at the point given if it is dense, and at the point the
    augmented function was last evaluated at if it is sparse. *)
Theorem C46_constraint_value mx (p : sdp (N := RNum mx)) x0 cs x i c :
  nth_error (sp_sparse p ++ sp_dense p) i = Some c ->
  snd (do_call p (after_calls p (mk_rrt p x0) cs) (CConstraint i x))
  = AVal (N := RNum mx) (slack (sp_n p) (gram (sp_r p) (if (i <? length (sp_sparse p))%nat then last_point x0 cs else x)) c).
Proof. intros H. cbn [do_call snd]. rewrite (constraint_value mx p x0 cs x i c H). reflexivity. Qed.

(** The value LRSDP::Optimize() returns is tr(C y y^T) for the point y at which the augmented
    function was last evaluated; it is that of the coordinates returned when they are y. *)
Theorem C46_returned_value mx (p : sdp (N := RNum mx)) x0 cs x :
  lrsdp_optimize p x0 cs x = tr_prod (sp_n p) (sp_C p) (gram (sp_r p) (last_point x0 cs)).
Proof. exact (plain_value mx p x0 cs x). Qed.

(** It need not be the value at the coordinates returned: L-BFGS with two line search
    trials leaves 1.1 and evaluates 0.6 last, so that 0.36 is returned in place of 1.21. *)
Theorem C46_returned_value_refuted :
  ends1 = Some ([(11 # 10)%Q], (9 # 25)%Q) /\
  plain_evaluate sdp1 (mk_rrt sdp1 (m1 (N := QNum) (11 # 10)%Q)) (m1 (N := QNum) (11 # 10)%Q) = (121 # 100)%Q.
Proof. split; vm_compute; reflexivity. Qed.

(** a program with a symmetric objective, one sparse and one dense constraint *)
Definition sdp3 (mx : R) : sdp (N := RNum mx) :=
  @Build_sdp (RNum mx) 2 1 (fun i j => INR (i + j))
    [((fun i j => if (i =? j)%nat then 1 else 0), 1)] [((fun i j => 1), 3)].
Example C46_symmetric_met mx : symmetric 2 (sp_C (sdp3 mx)) /\
  (forall A b, In (A, b) (sp_sparse (sdp3 mx) ++ sp_dense (sdp3 mx)) -> symmetric 2 A) /\
  last_point (N := RNum mx) (fun _ _ => 0) [CAug (N := RNum mx) (fun _ => 0) 10 (fun _ _ => 1); CPlain (N := RNum mx) (fun _ _ => 4)] = (fun _ _ => 1).
Proof.
  repeat split.
  - intros i j _ _. cbn. rewrite Nat.add_comm. reflexivity.
  - intros A b [E|[E|[]]]; injection E as <- <-; intros i j _ _; [rewrite Nat.eqb_sym|]; reflexivity.
Qed.
Example C46_value_met mx :
  lagrangian 2 1 (sp_C (sdp3 mx)) (sp_sparse (sdp3 mx) ++ sp_dense (sdp3 mx)) (fun _ => 1) 2 (fun _ _ => 1) = 4 - 1 - 1 + 1 + 1.
Proof. unfold lagrangian, slack, tr_prod, trace, matmul, gram, sum_n, constr. cbn. lra. Qed.

Print Assumptions C46_augmented_value.
Print Assumptions C46_augmented_gradient.
Print Assumptions C46_unsymmetric_gradient_refuted.
Print Assumptions C46_constraint_value.
Print Assumptions C46_returned_value.
Print Assumptions C46_returned_value_refuted.
