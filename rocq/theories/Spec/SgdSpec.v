(** Vocabulary in which the SGD properties are stated.  Everything here reads
    only the configuration, the function being optimized and the trace of
    callback events (oldest event first); nothing refers to the loop state of
    the model. *)
From Coq Require Import List Arith Bool.
From Verif.Base Require Import Num Size.
From Verif.Model Require Import Sgd.
Import ListNotations.

Section Spec.
  Context {N : Num} {X G U D : Type}.
  Notation event := (event N X G).

  (** The limit a user sets with maxIterations; 0 means "no limit". *)
  Definition limit (maxIterations : nat) : nat :=
    match maxIterations with O => size_max | S _ => maxIterations end.

  (** The functions evaluated with their gradient, in order; each one is tagged
      with the number of Shuffle() calls that preceded it. *)
  Fixpoint visited (shuffles : nat) (tr : list event) : list (nat * nat) :=
    match tr with
    | [] => []
    | EvalGrad _ b k _ _ :: r => map (pair shuffles) (seq b k) ++ visited shuffles r
    | Shuffled :: r => visited (S shuffles) r
    | _ :: r => visited shuffles r
    end.

  Definition visits (tr : list event) : nat := length (visited 0 tr).

  Definition is_evalgrad (e : event) : bool :=
    match e with EvalGrad _ _ _ _ _ => true | _ => false end.
  Definition is_endopt (e : event) : bool :=
    match e with EndOpt _ => true | _ => false end.
  (** Events at which the optimizer asks the callbacks whether to stop. *)
  Definition asks (e : event) : bool :=
    match e with
    | BeginEpoch _ _ _ | EndEpoch _ _ _ | EvalGrad _ _ _ _ _ | Step _ => true
    | _ => false
    end.

  (** A callback asked to stop at some point of the trace. *)
  Definition stop_requested (cb : Callbacks N X G) (tr : list event) : Prop :=
    exists pre e post, tr = pre ++ e :: post /\ asks e = true /\
                       cb_stop cb (rev (pre ++ [e])) = true.

  (** Sums of the batch objectives of the finished passes, oldest first, given
      the sum [acc] of the pass that is under way. *)
  Fixpoint pass_sums (acc : N) (tr : list event) : list N :=
    match tr with
    | [] => []
    | EvalGrad _ _ _ o _ :: r => pass_sums (nadd acc o) r
    | EndEpoch _ _ _ :: r => acc :: pass_sums n0 r
    | _ :: r => pass_sums acc r
    end.

  (** The batch objectives evaluated since the last finished pass. *)
  Fixpoint since (acc : list N) (tr : list event) : list N :=
    match tr with
    | [] => acc
    | EvalGrad _ _ _ o _ :: r => since (acc ++ [o]) r
    | EndEpoch _ _ _ :: r => since [] r
    | _ :: r => since acc r
    end.
  Definition sum (l : list N) : N := fold_left nadd l n0.

  (** The convergence test on two consecutive pass objectives. *)
  Definition converged (tol prev v : N) : bool :=
    nisnan v || nisinf v || nlt (nabs (nsub prev v)) tol.

  (** [stops_at tol prev ps]: in the sequence of pass objectives [ps] (the first
      one compared with [prev]) the test holds for the last one and for no
      earlier one. *)
  Fixpoint stops_at (tol prev : N) (ps : list N) : Prop :=
    match ps with
    | [] => False
    | [v] => converged tol prev v = true
    | v :: r => converged tol prev v = false /\ stops_at tol v r
    end.
  Fixpoint never_converged (tol prev : N) (ps : list N) : Prop :=
    match ps with
    | [] => True
    | v :: r => converged tol prev v = false /\ never_converged tol v r
    end.

  (** The order of callbacks of one optimization.  [PReady x e acc] : about to
      evaluate a batch in epoch [e], [acc] is the sum of the objectives seen in
      this epoch. *)
  Inductive phase : Type :=
  | PStart
  | PBegun (x : X)
  | PReady (x : X) (epoch : nat) (acc : N)
  | PGrad (x : X) (epoch : nat) (acc : N)
  | PStepped (x : X) (epoch : nat) (acc : N)
  | PEnded (x : X) (epoch : nat) (acc : N)
  | PNext (x : X) (epoch : nat)
  | PFinal (x : X)
  | PDone.

  Variable f : SepFun N X G.
  Variable shuffle exact : bool.

  Inductive pstep : phase -> event -> phase -> Prop :=
  | p_begin x : pstep PStart (BeginOpt x) (PBegun x)
  | p_first x : pstep (PBegun x) (BeginEpoch x 1 n0) (PReady x 1 n0)
  | p_eval x e acc b k o g :
      pstep (PReady x e acc) (EvalGrad x b k o g) (PGrad x e (nadd acc o))
  | p_eval' x e acc b k o g :
      pstep (PStepped x e acc) (EvalGrad x b k o g) (PGrad x e (nadd acc o))
  | p_step x y e acc : pstep (PGrad x e acc) (Step y) (PStepped y e acc)
  | p_end x e acc :
      pstep (PStepped x e acc) (EndEpoch x e (ndiv acc (nofnat (sf_num f)))) (PEnded x e acc)
  | p_next x e acc : shuffle = false ->
      pstep (PEnded x e acc) (BeginEpoch x (S e) acc) (PReady x (S e) n0)
  | p_next' x e acc : shuffle = true ->
      pstep (PEnded x e acc) (BeginEpoch x (S e) acc) (PNext x (S e))
  | p_shuffle x e : pstep (PNext x e) Shuffled (PReady x e n0)
  | p_stop_ret x e acc : pstep (PEnded x e acc) (EndOpt x) PDone
  | p_stop x e acc : pstep (PReady x e acc) (EndOpt x) PDone
  | p_stop' x e acc : pstep (PStepped x e acc) (EndOpt x) PDone
  | p_exact x e acc b k o : exact = true -> pstep (PReady x e acc) (Eval x b k o) (PFinal x)
  | p_exact' x e acc b k o : exact = true -> pstep (PStepped x e acc) (Eval x b k o) (PFinal x)
  | p_exact'' x b k o : exact = true -> pstep (PFinal x) (Eval x b k o) (PFinal x)
  | p_stop_exact x : pstep (PFinal x) (EndOpt x) PDone.

  Inductive runs : phase -> list event -> phase -> Prop :=
  | runs_nil p : runs p [] p
  | runs_cons p e q tr r : pstep p e q -> runs q tr r -> runs p (e :: tr) r.

  (** The starts of the batches of a full evaluation with batches of size [bs]. *)
  Definition batch_starts (bs : nat) : list nat :=
    map (fun k => k * bs) (seq 0 ((sf_num f + bs - 1) / bs)).
  Definition full_objective (bs shuffles : nat) (x : X) : N :=
    fold_left nadd
      (map (fun b => sf_eval f shuffles x b (Nat.min bs (sf_num f - b))) (batch_starts bs)) n0.

  Fixpoint count_shuffles (tr : list event) : nat :=
    match tr with [] => 0 | Shuffled :: r => S (count_shuffles r) | _ :: r => count_shuffles r end.

  (** How the iterate moves.  [moved h (x,u,d,s)]: after the history [h] (newest
      first) the iterate is [x], the policies are in states [u] and [d] and the
      step size is [s]. *)
  Variable up : U -> X -> N -> G -> U * X.
  Variable dp : D -> X -> N -> G -> D * N.
  Variable cb : Callbacks N X G.
  Inductive moved (x0 : X) (u0 : U) (d0 : D) (s0 : N) : list event -> X -> U -> D -> N -> Prop :=
  | mv_start : moved x0 u0 d0 s0 [] x0 u0 d0 s0
  | mv_other h e x u d s :
      moved x0 u0 d0 s0 h x u d s ->
      match e with EvalGrad _ _ _ _ _ | Step _ => False | _ => True end ->
      moved x0 u0 d0 s0 (e :: h) x u d s
  | mv_step h b k o g x u d s :
      moved x0 u0 d0 s0 h x u d s ->
      (* the batch was evaluated at the current iterate *)
      sf_evalgrad f (count_shuffles h) x b k = (o, g) ->
      (* and the step uses the gradient the callbacks handed back *)
      let h1 := EvalGrad x b k o g :: h in
      let g' := cb_grad cb h1 g in
      let x' := snd (up u x s g') in
      moved x0 u0 d0 s0 (Step x' :: h1) x' (fst (up u x s g'))
            (fst (dp d x' s g')) (snd (dp d x' s g')).
End Spec.
