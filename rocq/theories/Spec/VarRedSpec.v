(** Vocabulary for the variance-reduced optimizers (C53, C54).  Traces are oldest first. *)
From Coq Require Import List Arith Bool.
From Verif.Base Require Import Num Vec Size.
From Verif.Model Require Import Common VarRed.
From Verif.Spec Require Import SgdSpec.
Import ListNotations.

Section Spec.
  Context {N : Num}.
  Notation vec := (list N).
  Notation trace := (list (vev N)).

  (** The batches [l] (first function, number of functions) are not empty, not larger
      than b, and contain the functions 0 .. n-1 in order, each once. *)
  Definition split_of (n b : nat) (l : list (nat * nat)) : Prop :=
    flat_map (fun p => seq (fst p) (snd p)) l = seq 0 n /\ Forall (fun p => 0 < snd p <= b) l.

  (** Every evaluation is of functions that exist. *)
  Definition in_range (n b : nat) (e : vev N) : Prop :=
    match e with
    | VEval _ i c _ | VGrad _ i c _ _ | VGradQ _ i c _ => 0 < c <= b /\ i + c <= n
    | _ => True
    end.
  (** The values in the trace are those of the function, in the order the shuffles made so
      far gave it, and the gradients are as the hooks left them. *)
  Definition computed (f : VFun N) (cb : VCB N) (tr : trace) : Prop :=
    forall h e rest, tr = h ++ e :: rest ->
    match e with
    | VEval x i c v => v = vf_eval f (shuffles h) x i c
    | VGrad x i c g g' => g = vf_grad f (shuffles h) x i c /\ g' = vc_hook cb (rev h) x g
    | VGradQ x i c g => g = vf_grad f (shuffles h) x i c
    | _ => True
    end.
  (** A callback asked to stop. *)
  Definition vasks (e : vev N) : bool :=
    match e with VEval _ _ _ _ | VGrad _ _ _ _ _ | VStep _ _ => true | _ => false end.
  Definition vasked (cb : VCB N) (tr : trace) : Prop :=
    exists h e rest, tr = h ++ e :: rest /\ vasks e = true /\ vc_stop cb (e :: rev h) = true.

  (** No step is taken once a callback has asked to stop. *)
  Definition honoured (cb : VCB N) (tr : trace) : Prop :=
    forall h x eta rest, tr = h ++ VStep x eta :: rest -> ~ vasked cb h.

  (** Evaluations of the objective: batch and value; gradient evaluations: batch, value and
      value after the hooks. *)
  Definition oeval : Type := (nat * nat) * N.
  Definition geval : Type := (nat * nat) * (vec * vec).
  Definition evs_of (x : vec) (l : list oeval) : trace := map (fun p => VEval x (fst (fst p)) (snd (fst p)) (snd p)) l.
  Definition grs_of (x : vec) (l : list geval) : trace :=
    map (fun p => VGrad x (fst (fst p)) (snd (fst p)) (fst (snd p)) (snd (snd p))) l.
  Definition total (l : list oeval) : N := fold_left nadd (map snd l) n0.
  Definition vtotal (l : list vec) : vec := match l with [] => [] | g :: r => fold_left vadd r g end.
  Definition over_n (n : nat) (g : vec) : vec := map (fun a => ndiv a (nofnat n)) g.

  (** A step of an inner loop: was the order shuffled first, the point left, the batch, its
      gradient there (before and after the hooks), its gradient at the reference point, the
      point reached. *)
  Record vstep : Type := { t_sh : bool; t_x : vec; t_f : nat; t_c : nat; t_g : vec; t_g' : vec; t_h : vec; t_h' : vec; t_to : vec }.
  (** The functions visited by steps, in order, are 0, 1, .., n-1, 0, 1, ..; a batch is as
      large as it can be; the order is shuffled (if asked for) whenever function 0 is next. *)
  Definition cyclic (n b : nat) (shuffle : bool) (l : list vstep) : Prop :=
    flat_map (fun t => seq (t_f t) (t_c t)) l = map (fun k => k mod n) (seq 0 (list_sum (map t_c l))) /\
    Forall (fun t => 0 < t_c t /\ t_c t = Nat.min b (n - t_f t) /\ t_sh t = (shuffle && (t_f t =? 0))) l.
  (** They end as soon as [inner] functions have been visited. *)
  Definition within (inner : nat) (l : list vstep) : Prop := forall l' t, l = l' ++ [t] -> list_sum (map t_c l') < inner.

  (** ---- SVRG ---- *)
  (** One outer iteration: the snapshot point, the step size, the objective and the gradient
      there, the inner steps, and the events of an inner step that was abandoned. *)
  Record vround : Type := { r_x : vec; r_eta : N; r_evals : list oeval; r_grads : list geval; r_steps : list vstep; r_rest : trace }.
  (** the average gradient at the snapshot point *)
  Definition r_full (n : nat) (r : vround) : vec := over_n n (vtotal (map (fun p => snd (snd p)) (r_grads r))).
  Definition r_end (r : vround) : vec := last (map t_to (r_steps r)) (r_x r).
  Definition step_events (x0 : vec) (eta : N) (t : vstep) : trace :=
    (if t_sh t then [VShuffle] else []) ++
    [VGrad (t_x t) (t_f t) (t_c t) (t_g t) (t_g' t); VGrad x0 (t_f t) (t_c t) (t_h t) (t_h' t); VStep (t_to t) eta].
  Definition round_events (r : vround) : trace :=
    evs_of (r_x r) (r_evals r) ++ grs_of (r_x r) (r_grads r) ++ flat_map (step_events (r_x r) (r_eta r)) (r_steps r) ++ r_rest r.
  (** x - eta * (full + (g - g0) / c) *)
  Fixpoint svrg_steps (x full : vec) (eta : N) (l : list vstep) : Prop :=
    match l with
    | [] => True
    | t :: r => t_x t = x /\ t_to t = vsub x (vscale eta (vadd full (over_n (t_c t) (vsub (t_g' t) (t_h' t))))) /\
                svrg_steps (t_to t) full eta r
    end.
  Definition abandoned (e : vev N) : bool := match e with VShuffle | VGrad _ _ _ _ _ => true | _ => false end.
  Definition svrg_round (n b inner : nat) (shuffle : bool) (r : vround) : Prop :=
    split_of n b (map fst (r_evals r)) /\ split_of n b (map fst (r_grads r)) /\
    svrg_steps (r_x r) (r_full n r) (r_eta r) (r_steps r) /\ cyclic n b shuffle (r_steps r) /\ within inner (r_steps r) /\
    (r_rest r = [] -> inner <= list_sum (map t_c (r_steps r))) /\ forallb abandoned (r_rest r) = true.

  (** the number of batches, n / b rounded up *)
  Definition batches (n b : nat) : nat := (n + (b - 1)) / b.

  (** Rounds that follow one another: each starts where the one before ended, with the step
      size the decay policy chose; the objective at its snapshot has not converged; only the
      last may have an abandoned step. *)
  Fixpoint svrg_rounds {D : Type} (n b inner : nat) (shuffle : bool) (tol : N) (dp : D -> vec -> vec -> vec -> nat -> N -> D * N)
      (x : vec) (d : D) (eta last : N) (rs : list vround) (x' : vec) (d' : D) (eta' last' : N) : Prop :=
    match rs with
    | [] => x' = x /\ d' = d /\ eta' = eta /\ last' = last
    | r :: rs' =>
        r_x r = x /\ r_eta r = eta /\ svrg_round n b inner shuffle r /\ (rs' <> [] -> r_rest r = []) /\
        converged tol last (total (r_evals r)) = false /\
        svrg_rounds n b inner shuffle tol dp (r_end r) (fst (dp d (r_end r) x (r_full n r) (batches n b) eta))
          (snd (dp d (r_end r) x (r_full n r) (batches n b) eta)) (total (r_evals r)) rs' x' d' eta' last'
    end.

  (** What is left after the last full round: the objective and perhaps the gradient at the
      final point, then, for exactObjective, the objective again. *)
  Record vtail : Type := { e_evals : list oeval; e_grads : list geval; e_final : list oeval }.
  Definition tail_events (x : vec) (t : vtail) : trace := evs_of x (e_evals t) ++ grs_of x (e_grads t) ++ evs_of x (e_final t).

  Definition svrg_report {D : Type} (f : VFun N) (cb : VCB N) (b maxIterations : nat) (tol : N) (shuffle exact : bool)
      (dp : D -> vec -> vec -> vec -> nat -> N -> D * N) (innerIterations : nat) (d : D) (eta : N) (x : vec)
      (value : N) (xf : vec) (tr : trace) (conv : bool) (inner' : nat) (d' : D) (eta' : N) : Prop :=
    inner' = (match innerIterations with O => vf_num f | _ => innerIterations end) /\
    exists rs t last,
      tr = VBegin x :: flat_map round_events rs ++ tail_events xf t ++ [VEnd xf] /\
      svrg_rounds (vf_num f) b inner' shuffle tol dp x d eta nmax rs xf d' eta' last /\
      length rs <= limit maxIterations /\
      (e_evals t = [] \/ (split_of (vf_num f) b (map fst (e_evals t)) /\ length rs < limit maxIterations)) /\
      (e_grads t = [] \/ (split_of (vf_num f) b (map fst (e_grads t)) /\ e_evals t <> [])) /\
      if conv then
        split_of (vf_num f) b (map fst (e_evals t)) /\ e_grads t = [] /\ e_final t = [] /\
        converged tol last (total (e_evals t)) = true /\ value = total (e_evals t)
      else
        (length rs = limit maxIterations \/
         vasked cb (VBegin x :: flat_map round_events rs ++ evs_of xf (e_evals t) ++ grs_of xf (e_grads t))) /\
        if exact then split_of (vf_num f) b (map fst (e_final t)) /\ value = total (e_final t)
        else e_final t = [] /\
             value = match e_evals t with [] => match rs with [] => n0 | _ => last end | _ => total (e_evals t) end.
End Spec.
