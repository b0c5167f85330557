(** Moving the coordinate system as a whole: rotations, reflections and shifts, and reordering the
    coordinates. *)
From Coq Require Import List Reals.
From Verif.Base Require Import Num Vec Instances.
From Verif.Model Require Import Common Sgd.
Import ListNotations.
Local Open Scope R_scope.

Definition dotR (u v : list R) : R := fold_right Rplus 0 (map2 Rmult u v).
Definition addR (u v : list R) : list R := map2 Rplus u v.

(** [Q] is a rotation or reflection of R^n: linear, and it keeps inner products *)
Record orthogonal (n : nat) (Q : list R -> list R) : Prop := {
  og_len : forall u, length u = n -> length (Q u) = n;
  og_add : forall u v, length u = n -> length v = n -> Q (addR u v) = addR (Q u) (Q v);
  og_scale : forall a u, length u = n -> Q (map (Rmult a) u) = map (Rmult a) (Q u);
  og_dot : forall u v, length u = n -> length v = n -> dotR (Q u) (Q v) = dotR u v }.

(** rotate or reflect, then shift by [b] *)
Definition motion (Q : list R -> list R) (b x : list R) : list R := addR (Q x) b.

(** the Euclidean norm *)
Definition norm (u : list R) : R := sqrt (dotR u u).

(** reordering: coordinate j of the result is coordinate [nth j p] of the argument *)
Definition pick {A : Type} (p : list nat) (d : A) (x : list A) : list A := map (fun i => nth i x d) p.

Section Images.
  Context {N : Num} {X G X' G' : Type}.
  Variables (M : X -> X') (Q : G -> G').         (* what becomes of points and of gradients *)

  (** ** Optimizers with whole-function evaluations *)
  Definition image_ev (e : ev N X G) : ev N X' G' :=
    match e with
    | Begin x => Begin (M x)
    | End x => End (M x)
    | EvG x v g g' => EvG (M x) v (Q g) (Q g')
    | Ev x v => Ev (M x) v
    | Gr x k g g' => Gr (M x) k (Q g) (Q g')
    | St x => St (M x)
    end.
  Definition image_res (r : Res N X G) (r' : Res N X' G') : Prop :=
    o_val r' = o_val r /\ o_x r' = M (o_x r) /\ o_tr r' = map image_ev (o_tr r).
  Definition image_out (o : outc (Res N X G * bool)) (o' : outc (Res N X' G' * bool)) : Prop :=
    match o, o' with
    | Ret (r, t), Ret (r', t') => image_res r r' /\ t' = t
    | Bad, Bad => True
    | More, More => True
    | _, _ => False
    end.
  (** the callbacks answer alike and treat gradients alike, and keep the gradients within [PG] *)
  Definition image_cb (PG : G -> Prop) (cb : CB N X G) (cb' : CB N X' G') : Prop :=
    (forall tr, cs_stop cb' (map image_ev tr) = cs_stop cb tr) /\
    (forall tr x v g, PG g -> PG (cs_grad cb tr x v g) /\ cs_grad cb' (map image_ev tr) (M x) v (Q g) = Q (cs_grad cb tr x v g)).

  (** ** SGD *)
  Definition image_event (e : event N X G) : event N X' G' :=
    match e with
    | BeginOpt x => BeginOpt (M x)
    | EndOpt x => EndOpt (M x)
    | BeginEpoch x n v => BeginEpoch (M x) n v
    | EndEpoch x n v => EndEpoch (M x) n v
    | EvalGrad x b n v g => EvalGrad (M x) b n v (Q g)
    | Step x => Step (M x)
    | Eval x b n v => Eval (M x) b n v
    | Shuffled => Shuffled
    end.
  Definition image_callbacks (PG : G -> Prop) (cb : Callbacks N X G) (cb' : Callbacks N X' G') : Prop :=
    (forall tr, cb_stop cb' (map image_event tr) = cb_stop cb tr) /\
    (forall tr g, PG g -> PG (cb_grad cb tr g) /\ cb_grad cb' (map image_event tr) (Q g) = Q (cb_grad cb tr g)).
  (** the second function has at the image of every point the same value and the image of the gradient *)
  Definition image_function (PX : X -> Prop) (PG : G -> Prop) (f : SepFun N X G) (f' : SepFun N X' G') : Prop :=
    sf_num f' = sf_num f /\
    forall s x b k, PX x ->
      sf_eval f' s (M x) b k = sf_eval f s x b k /\
      PG (snd (sf_evalgrad f s x b k)) /\
      sf_evalgrad f' s (M x) b k = (fst (sf_evalgrad f s x b k), Q (snd (sf_evalgrad f s x b k))).
  Definition image_outcome {U D U' D' : Type} (o : outcome (res N X G U D)) (o' : outcome (res N X' G' U' D')) : Prop :=
    match o, o' with
    | Return r, Return r' => r_val r' = r_val r /\ r_x r' = M (r_x r) /\ r_trace r' = map image_event (r_trace r)
    | UB, UB => True
    | Diverge, Diverge => True
    | _, _ => False
    end.
End Images.
