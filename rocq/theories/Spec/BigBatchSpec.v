(** Vocabulary for big-batch SGD (C55).  Traces are oldest first. *)
From Coq Require Import List Arith Bool ZArith.
From Verif.Base Require Import Num Vec Size.
From Verif.Model Require Import Common VarRed BigBatch.
From Verif.Spec Require Import SgdSpec VarRedSpec.
Import ListNotations.
Local Open Scope nat_scope.

Section Spec.
  Context {N : Num}.
  Notation vec := (list N).
  Notation trace := (list (bev N)).

  (** Every evaluation is of functions that exist. *)
  Definition bin_range (n : nat) (e : bev N) : Prop :=
    match e with
    | BGrad _ i _ _ | BGradQ _ i _ => i < n
    | BEvalQ _ i c _ | BEval _ i c _ => 0 < c /\ i + c <= n
    | _ => True
    end.
  Definition bcomputed (f : VFun N) (cb : BCB N) (tr : trace) : Prop :=
    forall h e rest, tr = h ++ e :: rest ->
    match e with
    | BEval x i c v | BEvalQ x i c v => v = vf_eval f (bshuffles h) x i c
    | BGrad x i g g' => g = vf_grad f (bshuffles h) x i 1 /\ g' = bc_hook cb (rev h) x g
    | BGradQ x i g => g = vf_grad f (bshuffles h) x i 1
    | _ => True
    end.
  Definition basks (e : bev N) : bool :=
    match e with BEval _ _ _ _ | BGrad _ _ _ _ | BStep _ _ | BEndEpoch _ _ | BBeginEpoch _ _ => true | _ => false end.
  Definition basked (cb : BCB N) (tr : trace) : Prop :=
    exists h e rest, tr = h ++ e :: rest /\ basks e = true /\ bc_stop cb (e :: rev h) = true.
  Definition bhonoured (cb : BCB N) (tr : trace) : Prop :=
    forall h x eta rest, tr = h ++ BStep x eta :: rest -> ~ basked cb h.

  (** Where a run is between two steps: functions visited, next function, batch size, point,
      the policy's memory, step size, number of the epoch, sum of this epoch's objectives and
      that of the previous epoch. *)
  Record bpos : Type := { p_i : nat; p_f : nat; p_bs : nat; p_x : vec; p_prev : vec; p_eta : N; p_k : nat; p_over : N; p_last : N }.
  (** A step: by how much the batch grew (a list of increments), the gradients evaluated for
      it (function, value, value after the hooks), what the policy evaluated, the point and
      the direction it left, the step taken and the objective there. *)
  Record bstep : Type := { u_grow : list nat; u_g : list (nat * (vec * vec)); u_pol : trace; u_x1 : vec; u_g1 : vec; u_val : N }.

  Variables (n lim : nat) (shuffle : bool) (tol : N) (norm : vec -> N) (pol : bpolicy N).

  Definition first_batch (s : bpos) : nat := Nat.min (Nat.min (p_bs s) (lim - p_i s)) (n - p_f s).
  Definition u_c (s : bpos) (t : bstep) : nat := first_batch s + list_sum (u_grow t).
  (** An increment o of a batch [f, f+bs) visits the o functions from f+bs-1 on. *)
  Fixpoint grown (f bs : nat) (l : list nat) : list nat :=
    match l with [] => [] | o :: r => seq (f + bs - 1) o ++ grown f (bs + o) r end.
  Definition u_sum (t : bstep) : vec := vtotal (map (fun p => snd (snd p)) (u_g t)).
  Definition mean_sq (c : nat) (g : vec) : N := nmul (norm (over_n c g)) (norm (over_n c g)).

  (** Evaluations on the batch [f, f+c) nobody is told about. *)
  Definition on_batch (f c : nat) (e : bev N) : Prop :=
    match e with
    | BEvalQ _ i m _ => i = f /\ m = c
    | BGradQ _ i _ => f <= i < f + c
    | _ => False
    end.
  (** The search for a step along -g from x, starting with the step size [eta0]: by the values in the
      trace, the Armijo condition on the batch held for [eta], found by shrinking [eta0]
      a number of times, and for none of the step sizes before. *)
  Definition first_armijo (l : trace) (shrink : N -> N) (sp : N) (x g : vec) (f c : nat) (eta0 eta gB : N) : Prop :=
    exists k v0, eta = Nat.iter k shrink eta0 /\ In (BEvalQ x f c v0) l /\
      (exists v1, In (BEvalQ (vsub x (vscale eta g)) f c v1) l /\ nlt (nsub v0 (nmul (nmul sp eta) gB)) v1 = false) /\
      forall j, j < k -> let e := Nat.iter j shrink eta0 in
        exists v, In (BEvalQ (vsub x (vscale e g)) f c v) l /\ nlt (nsub v0 (nmul (nmul sp e) gB)) v = true.
  Definition policy_ok (s : bpos) (t : bstep) (eta' : N) (prev' : vec) : Prop :=
    Forall (on_batch (p_f s) (u_c s t)) (u_pol t) /\
    match pol with
    | Backtrack sp =>
        u_x1 t = p_x s /\ u_g1 t = u_sum t /\ prev' = p_prev s /\
        first_armijo (u_pol t) (fun e => ndiv e (nofZ 2%Z)) sp (p_x s) (u_sum t) (p_f s) (u_c s t)
          (match u_grow t with [] => p_eta s | _ => nmul (p_eta s) (nofZ 2%Z) end) eta' (mean_sq (u_c s t) (u_sum t))
    | Adaptive bts sp =>
        exists eta1 gs, u_x1 t = vsub (p_x s) (vscale eta1 (u_sum t)) /\ prev' = u_x1 t /\
        first_armijo (u_pol t) (fun e => nmul e bts) sp (p_x s) (u_sum t) (p_f s) (u_c s t) (p_eta s) eta1 (mean_sq (u_c s t) (u_sum t)) /\
        map fst gs = seq (p_f s) (u_c s t) /\ Forall (fun p => In (BGradQ (u_x1 t) (fst p) (snd p)) (u_pol t)) gs /\
        u_g1 t = vtotal (map snd gs) /\
        exists eta2, first_armijo (u_pol t) (fun e => nmul e bts) sp (u_x1 t) (u_g1 t) (p_f s) (u_c s t) eta2 eta' (mean_sq (u_c s t) (u_g1 t))
    end.

  (** The gradients for the batch. *)
  Definition batch_ok (s : bpos) (grow : list nat) (g : list (nat * (vec * vec))) : Prop :=
    Forall (fun o => 0 < o) grow /\
    (grow <> [] -> first_batch s = p_bs s /\ p_f s + p_bs s + list_sum grow < n) /\
    map fst g = seq (p_f s) (first_batch s) ++ grown (p_f s) (p_bs s) grow.

  (** A step and the end of the epoch, if the batch reaches the last function. *)
  Definition u_to (t : bstep) (eta : N) : vec := vsub (u_x1 t) (vscale eta (u_g1 t)).
  Definition ends (s : bpos) (t : bstep) : bool := p_f s + u_c s t =? n.
  Definition more (s : bpos) (t : bstep) : bool := ends s t && negb (p_i s + u_c s t =? lim).
  Definition step_ok (s : bpos) (t : bstep) (s' : bpos) : Prop :=
    p_f s < n /\ p_i s < lim /\ 0 < first_batch s /\ batch_ok s (u_grow t) (u_g t) /\ policy_ok s t (p_eta s') (p_prev s') /\
    p_i s' = p_i s + u_c s t /\ p_f s' = (if more s t then 0 else p_f s + u_c s t) /\
    p_bs s' = p_bs s + list_sum (u_grow t) /\ p_x s' = u_to t (p_eta s') /\
    p_k s' = (if ends s t then S (p_k s) else p_k s) /\
    p_over s' = (if more s t then n0 else nadd (p_over s) (u_val t)) /\
    p_last s' = (if more s t then nadd (p_over s) (u_val t) else p_last s).
  Definition grad_events (x : vec) (l : list (nat * (vec * vec))) : trace :=
    map (fun p => BGrad x (fst p) (fst (snd p)) (snd (snd p))) l.
  Definition move_events (s : bpos) (t : bstep) (s' : bpos) : trace :=
    grad_events (p_x s) (u_g t) ++ u_pol t ++ [BStep (p_x s') (p_eta s'); BEval (p_x s') (p_f s) (u_c s t) (u_val t)].
  Definition epoch_events (s : bpos) (t : bstep) : trace :=
    if ends s t then [BEndEpoch (p_k s) (ndiv (nadd (p_over s) (u_val t)) (nofnat n)); BBeginEpoch (S (p_k s)) (nadd (p_over s) (u_val t))] ++
                     (if shuffle then [BShuffle] else [])
    else [].
  Definition converged_at (s : bpos) (t : bstep) : bool := converged tol (p_last s) (nadd (p_over s) (u_val t)).

  (** Steps from s to s', with their events. *)
  Fixpoint brun (s : bpos) (l : list (bstep * bpos)) (s' : bpos) : Prop :=
    match l with
    | [] => s' = s
    | (t, m) :: r => step_ok s t m /\ (ends s t = true -> converged_at s t = false) /\ brun m r s'
    end.
  Fixpoint brun_events (s : bpos) (l : list (bstep * bpos)) : trace :=
    match l with [] => [] | (t, m) :: r => move_events s t m ++ epoch_events s t ++ brun_events m r end.

  (** the batches of the steps (first function, number of functions) *)
  Fixpoint batches_of (s : bpos) (l : list (bstep * bpos)) : list (nat * nat) :=
    match l with [] => [] | (t, m) :: r => (p_f s, u_c s t) :: batches_of m r end.

  Definition bstart (b : nat) (eta : N) (prev x : vec) : bpos :=
    {| p_i := 0; p_f := 0; p_bs := b; p_x := x; p_prev := prev; p_eta := eta; p_k := 1; p_over := n0; p_last := nmax |}.

  (** What a call reports.  It ends after an epoch that meets the tolerance (or whose
      objective is not finite), or when a callback asked to stop, perhaps while the gradients
      [gs] of one more batch were evaluated, or after [lim] functions. *)
  Definition bb_report (cb : BCB N) (exact : bool) (b : nat) (eta : N) (prev x : vec)
      (value : N) (tr : trace) (conv : bool) (s' : bpos) : Prop :=
    exists l s,
      brun (bstart b eta prev x) l s /\
      if conv then
        exists t, step_ok s t s' /\ ends s t = true /\ converged_at s t = true /\
          tr = BBegin x :: brun_events (bstart b eta prev x) l ++ move_events s t s' ++
               [BEndEpoch (p_k s) (ndiv (nadd (p_over s) (u_val t)) (nofnat n)); BEnd (p_x s')] /\
          value = nadd (p_over s) (u_val t)
      else
        exists grow gs final,
          tr = BBegin x :: brun_events (bstart b eta prev x) l ++ grad_events (p_x s) gs ++
               map (fun p => BEval (p_x s) (fst (fst p)) (snd (fst p)) (snd p)) final ++ [BEnd (p_x s)] /\
          (gs = [] /\ grow = [] \/ batch_ok s grow gs /\ 0 < first_batch s) /\
          s' = {| p_i := p_i s; p_f := p_f s; p_bs := p_bs s + list_sum grow; p_x := p_x s; p_prev := p_prev s; p_eta := p_eta s;
                  p_k := p_k s; p_over := p_over s; p_last := p_last s |} /\
          (basked cb (BBegin x :: brun_events (bstart b eta prev x) l ++ grad_events (p_x s) gs) \/ (gs = [] /\ lim <= p_i s)) /\
          if exact then split_of n (p_bs s') (map fst final) /\ value = total final
          else final = [] /\ value = p_over s.
End Spec.
