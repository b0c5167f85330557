(** C76: the Lovasz theta test problem and the three test problems without a gradient. *)
From Coq Require Import Arith List Reals Lia Lra.
From Verif.Model Require Import Softmax Lovasz.
From Verif.Spec Require Import SoftmaxSpec LovaszSpec.
From Verif.Proof Require Import LovaszProof TrayProof.
Import ListNotations.
Local Open Scope R_scope.

(** The objective is minus the squared length of the sum of the columns; its true gradient has, in
    row a, minus twice the sum of that row. *)
Theorem C76_objective : forall r c x,
  lv_evaluate r c x = - total r (fun a => total c (fun j => x a j) ^ 2) /\
  is_gradient r c (lv_evaluate r c) x (fun a _ => - 2 * total c (fun j => x a j)).
Proof. intros. split; [apply objective_value|apply evaluate_gradient]. Qed.
Print Assumptions C76_objective.

(** The number of constraints is one more than the number of edges.  Constraint 0 is the sum of
    squares minus one, and its gradient is right. *)
Theorem C76_trace_constraint : forall l r c x,
  lv_constraints l = S (length (lv_edges l)) /\
  lv_constraint l 0 r c x = Some (square_sum r c x - 1) /\
  exists g, lv_constraint_gradient l 0 r c x = Some g /\ is_gradient r c (fun y => square_sum r c y - 1) x g.
Proof. intros. split; [reflexivity|split; [apply constraint_zero|apply trace_gradient]]. Qed.
Print Assumptions C76_trace_constraint.

(** Constraint k + 1 is the absolute value of the inner product of the two columns of edge k.  The
    gradient returned is right where that product is positive and has the wrong sign where it is
    negative. *)
Theorem C76_edge_constraint : forall l k i j r c x,
  nth_error (lv_edges l) k = Some (i, j) -> (i < c)%nat -> (j < c)%nat ->
  lv_constraint l (S k) r c x = Some (Rabs (column_product r x i j)) /\
  exists g, lv_constraint_gradient l (S k) r c x = Some g /\
    (0 < column_product r x i j -> is_gradient r c (fun y => Rabs (column_product r y i j)) x g) /\
    (column_product r x i j < 0 -> is_gradient r c (fun y => Rabs (column_product r y i j)) x (fun a b => - g a b)).
Proof. exact edge_constraint. Qed.
Print Assumptions C76_edge_constraint.

(** Gradient does not return the gradient of Evaluate: it needs a square matrix (any other shape
    raises an exception), and at a symmetric matrix it returns the gradient of an augmented
    Lagrangian with fixed multipliers and penalty. *)
Theorem C76_gradient : forall l,
  (forall r c x, r <> c -> lv_gradient l r c x = None) /\
  (forall n x, (forall e, In e (lv_edges l) -> proper_edge e /\ (fst e < n)%nat /\ (snd e < n)%nat) ->
     (forall i j, (i < n)%nat -> (j < n)%nat -> x i j = x j i) ->
     exists g, lv_gradient l n n x = Some g /\ is_gradient n n (fixed_lagrangian (lv_edges l) n n) x g).
Proof. intros l. split; [apply gradient_throws|apply gradient_lagrangian]. Qed.
Print Assumptions C76_gradient.

(** "Gradient is the gradient of Evaluate" is false even where it returns a result. *)
Theorem C76_gradient_refuted : exists l x g, lv_gradient l 2 2 x = Some g /\
  (forall i j, (i < 2)%nat -> (j < 2)%nat -> x i j = x j i) /\ ~ is_gradient 2 2 (lv_evaluate 2 2) x g.
Proof. exact gradient_wrong. Qed.
Print Assumptions C76_gradient_refuted.

(** The number of rows of the initial point: the comment in the code promises the largest k with
    k (k + 1) / 2 at most the number of constraints; the code takes k + 1 or k + 2, and never more
    than the number of vertices. *)
Theorem C76_initial_rows : forall l k, (k * (k + 1) <= 2 * lv_constraints l < (k + 1) * (k + 2))%nat ->
  lv_initial_rows l = Nat.min (lv_vertices l) (if (k * (k + 1) =? 2 * lv_constraints l)%nat then k + 1 else k + 2).
Proof. exact initial_rows. Qed.
Print Assumptions C76_initial_rows.

(** The initial point of every graph breaks the constraint that the trace is one, and this is by how
    much: r is the number of vertices, or the positive solution of r (r - 1) = 2 m for m constraints,
    and the point has r rows, rounded up. *)
Theorem C76_initial_trace : forall edges l, lv_construct edges = Some l ->
  exists r, INR (lv_initial_rows l) - 1 < r <= INR (lv_initial_rows l) /\
    (r = INR (lv_vertices l) \/ r * (r - 1) = 2 * INR (lv_constraints l)) /\
    (lv_initial_rows l <= lv_vertices l)%nat /\
    exists c, lv_constraint l 0 (lv_initial_rows l) (lv_initial_cols l) (lv_initial l) = Some c /\
      c = INR (lv_initial_rows l) / r - 1 + 2 * INR (lv_initial_rows l) * sqrt (1 / (r * INR (lv_vertices l) * INR (lv_constraints l)))
          + INR (lv_initial_rows l) / INR (lv_constraints l) /\
      0 < c.
Proof. exact initial_trace. Qed.
Print Assumptions C76_initial_trace.

(** "Gradient can be called on the problem's own initial point" is false: for the graph that is a
    cycle on five vertices it raises an exception. *)
Theorem C76_initial_point_refuted : exists l, lv_construct [(0, 1); (1, 2); (2, 3); (3, 4); (4, 0)]%nat = Some l /\
  lv_gradient l (lv_initial_rows l) (lv_initial_cols l) (lv_initial l) = None.
Proof.
  eexists. split; [reflexivity|]. apply gradient_throws. unfold lv_initial_cols.
  rewrite (initial_rows _ 3) by (cbn; lia). cbn. lia.
Qed.
Print Assumptions C76_initial_point_refuted.

(** Cross-in-tray: the value is the documented one where the two sines have the same sign and too
    large where they do not; it is unchanged when the coordinates are swapped or both negated. *)
Theorem C76_cross_in_tray : forall x1 x2,
  (0 <= sin x1 * sin x2 -> cross_in_tray x1 x2 = cross_doc x1 x2) /\
  (sin x1 * sin x2 < 0 -> cross_doc x1 x2 < cross_in_tray x1 x2) /\
  cross_in_tray x2 x1 = cross_in_tray x1 x2 /\ cross_in_tray (- x1) (- x2) = cross_in_tray x1 x2 /\
  cross_in_tray x1 x2 <= 0 /\ cross_doc x1 x2 <= - (1 / 10000).
Proof.
  intros. pose proof (cross_symmetric x1 x2) as [A B].
  exact (conj (cross_same x1 x2) (conj (cross_different x1 x2) (conj A (conj B (conj (cross_range x1 x2) (cross_doc_range x1 x2)))))).
Qed.
Print Assumptions C76_cross_in_tray.

(** "Cross-in-tray does not depend on the sign of a coordinate", which the four documented minima
    suggest and the documented formula satisfies, is false of the code. *)
Theorem C76_cross_sign_refuted : exists x1 x2,
  cross_in_tray x1 (- x2) <> cross_in_tray x1 x2 /\ cross_doc x1 (- x2) = cross_doc x1 x2.
Proof. exact cross_sign_refuted. Qed.
Print Assumptions C76_cross_sign_refuted.

(** Hoelder table: never positive, no lower than its exponential factor allows, independent of the
    signs of the coordinates, and zero exactly where a factor vanishes. *)
Theorem C76_holder : forall x1 x2,
  - exp (Rabs (1 - sqrt (x1 * x1 + x2 * x2) / PI)) <= holder_table x1 x2 <= 0 /\
  holder_table (- x1) x2 = holder_table x1 x2 /\ holder_table x1 (- x2) = holder_table x1 x2 /\
  (holder_table x1 x2 = 0 <-> sin x1 = 0 \/ cos x2 = 0).
Proof. exact holder_facts. Qed.
Print Assumptions C76_holder.

(** Schaffer N.4 lies between cos(1)^2 = 0.2919... and 1 and is symmetric. *)
Theorem C76_schaffer_n4 : forall x1 x2,
  cos 1 ^ 2 <= schaffer_n4 x1 x2 <= 1 /\ schaffer_n4 x2 x1 = schaffer_n4 x1 x2 /\
  schaffer_n4 (- x1) x2 = schaffer_n4 x1 x2 /\ schaffer_n4 x1 (- x2) = schaffer_n4 x1 x2.
Proof. exact schaffer_n4_facts. Qed.
Print Assumptions C76_schaffer_n4.

(** a triangle: the objective, a constraint and the gradient at a symmetric matrix *)
Example C76_ex : let l := {| lv_edges := [(0, 1); (1, 2); (2, 0)]%nat; lv_vertices := 3 |} in
  let x : mat := fun i j => if (i =? j)%nat then 2 else 1 in
  lv_construct (lv_edges l) = Some l /\ lv_evaluate 3 3 x = -48 /\ lv_constraint l 1 3 3 x = Some 5 /\
  lv_constraint l 0 3 3 x = Some 17 /\ (exists g, lv_gradient l 3 3 x = Some g) /\ lv_initial_rows l = 3%nat.
Proof.
  cbv zeta. split; [reflexivity|]. split; [unfold lv_evaluate, accu, gram; cbn; lra|].
  split; [cbn; f_equal; rewrite Rabs_pos_eq; unfold gram; cbn; lra|].
  split; [rewrite constraint_zero; f_equal; unfold square_sum, total; cbn; lra|].
  split; [eexists; reflexivity|]. rewrite (initial_rows _ 2) by (cbn; lia). reflexivity.
Qed.
Example C76_ex_cross : cross_in_tray (PI / 2) (- (PI / 2)) <> cross_doc (PI / 2) (- (PI / 2)).
Proof.
  pose proof (cross_different (PI / 2) (- (PI / 2))) as B. rewrite sin_neg, sin_PI2 in B. specialize (B ltac:(lra)). lra.
Qed.
