(** Vocabulary for SPALeRA SGD (C56).  Traces are oldest first. *)
From Coq Require Import List Arith Bool ZArith Reals.
From Verif.Base Require Import Num Vec Size Instances.
From Verif.Model Require Import Common VarRed Spalera.
From Verif.Spec Require Import SgdSpec VarRedSpec LpSpec.
Import ListNotations.
Local Open Scope nat_scope.

(** ---- the Page-Hinkley test ---- *)
Section PH.
  Local Open Scope R_scope.
  (** A history is the list of (objective, batch size / number of functions), newest first. *)
  Notation hist := (list (R * R)).
  (** The relaxed objective: the average of the objectives as long as there are at most
      1 / ratio of them, then an exponential average. *)
  Fixpoint relaxed (h : hist) : R :=
    match h with
    | [] => 0
    | (o, m) :: t => if Rlt_dec (1 / m) (INR (length t)) then (1 - m) * relaxed t + m * o
                     else (INR (length t) * relaxed t + o) / (INR (length t) + 1)
    end.
  (** the non-empty final segments (histories at earlier times), longest first *)
  Fixpoint tails (h : hist) : list hist := match h with [] => [] | _ :: t => h :: tails t end.
  Definition mean_relaxed (h : hist) : R := sumR (map relaxed (tails h)) / INR (length h).
  (** the cumulative deviation of the relaxed objective from its mean *)
  Definition drift (h : hist) : R := sumR (map (fun t => relaxed t - mean_relaxed t) (tails h)).
  (** its smallest value so far, 0 included *)
  Definition lowest (h : hist) : R := fold_right Rmin 0 (map drift (tails h)).
  Definition changed (lambda : R) (h : hist) : Prop := lambda < drift h - lowest h.
End PH.

(** ---- runs of the policy ---- *)
Section Runs.
  Context {N : Num}.
  Variables (npow : N -> nat -> N) (nexp : N -> N) (tiny alpha epsilon rate lambda : N) (n : nat).
  (** One call of Update(stepSize, objective, batchSize, n, iterate, gradient). *)
  Record ucall : Type := { c_eta : N; c_obj : N; c_b : nat; c_g : list N }.
  (** A sequence of calls: each with the iterate before and after it, the answer and the
      policy after it. *)
  Record uout : Type := { o_in : ucall; o_x : list N; o_to : list N; o_ok : bool; o_pol : pst N }.
  Fixpoint calls (x : list N) (s : pst N) (l : list uout) : Prop :=
    match l with
    | [] => True
    | o :: r => o_x o = x /\
        update npow nexp tiny alpha epsilon rate lambda (c_eta (o_in o)) (c_obj (o_in o)) (c_b (o_in o)) n x (c_g (o_in o)) s
          = Some (o_to o, o_ok o, o_pol o) /\
        (r <> [] -> o_ok o = true) /\ calls (o_to o) (o_pol o) r
    end.
End Runs.
Arguments ucall : clear implicits. Arguments uout : clear implicits.

(** The history the test looks at after the calls [l] (oldest first): what came since the
    last detected change. *)
Fixpoint since (mx lambda : R) (n : nat) (l : list (uout (RNum mx))) (h : list (R * R)) : list (R * R) :=
  match l with
  | [] => h
  | o :: r => let h' := (c_obj (o_in o), (INR (c_b (o_in o)) / INR n)%R) :: h in
              since mx lambda n r (if Rlt_dec lambda (drift h' - lowest h')%R then [] else h')
  end.

(** ---- the optimizer ---- *)
Section Spec.
  Context {N : Num}.
  Notation vec := (list N).
  Notation trace := (list (pev N)).
  Definition pin_range (n b : nat) (e : pev N) : Prop :=
    match e with
    | PEval _ i c _ | PBoth _ i c _ _ _ => 0 < c <= b /\ i + c <= n
    | _ => True
    end.
  Definition pcomputed (f : VFun N) (cb : PCB N) (tr : trace) : Prop :=
    forall h e rest, tr = h ++ e :: rest ->
    match e with
    | PEval x i c v => v = vf_eval f (pshuffles h) x i c
    | PBoth x i c v g g' => v = vf_eval f (pshuffles h) x i c /\ g = vf_grad f (pshuffles h) x i c /\ g' = pc_hook cb (rev h) x g
    | _ => True
    end.
  Definition pasks (e : pev N) : bool :=
    match e with PBegin _ | PShuffle | PEnd _ => false | _ => true end.
  Definition pasked (cb : PCB N) (tr : trace) : Prop :=
    exists h e rest, tr = h ++ e :: rest /\ pasks e = true /\ pc_stop cb (e :: rev h) = true.
  Definition phonoured (cb : PCB N) (tr : trace) : Prop :=
    forall h x eta rest, tr = h ++ PStep x eta :: rest -> ~ pasked cb h.

  Context {D : Type}.
  Variables (upd : N -> N -> nat -> vec -> vec -> pst N -> option (vec * bool * pst N)).   (* Update of the policy *)
  Variable decay : D -> vec -> N -> vec -> D * N.
  Variables (n b lim : nat) (shuffle : bool) (tol : N).

  (** Where a run is between two steps. *)
  Record ppos : Type := { q_i : nat; q_f : nat; q_x : vec; q_pol : pst N; q_eta : N; q_d : D; q_k : nat; q_over : N; q_last : N }.
  (** A step: the objective of its batch, the gradient before and after the hooks. *)
  Record pstep : Type := { w_val : N; w_g : vec; w_g' : vec }.
  Definition w_c (s : ppos) : nat := Nat.min (Nat.min b (lim - q_i s)) (n - q_f s).
  Definition w_over (s : ppos) (t : pstep) : N := nadd (q_over s) (w_val t).
  Definition pends (s : ppos) : bool := q_f s + w_c s =? n.
  Definition pmore (s : ppos) : bool := pends s && negb (q_i s + w_c s =? lim).
  Definition pstep_ok (s : ppos) (t : pstep) (s' : ppos) : Prop :=
    q_f s < n /\ q_i s < lim /\ 0 < w_c s /\
    upd (q_eta s) (w_val t) (w_c s) (q_x s) (w_g' t) (q_pol s) = Some (q_x s', true, q_pol s') /\
    decay (q_d s) (q_x s') (q_eta s) (w_g' t) = (q_d s', q_eta s') /\
    q_i s' = q_i s + w_c s /\ q_f s' = (if pmore s then 0 else q_f s + w_c s) /\
    q_k s' = (if pends s then S (q_k s) else q_k s) /\
    q_over s' = (if pmore s then n0 else w_over s t) /\ q_last s' = (if pmore s then w_over s t else q_last s).
  Definition pmove_events (s : ppos) (t : pstep) (s' : ppos) : trace :=
    [PBoth (q_x s) (q_f s) (w_c s) (w_val t) (w_g t) (w_g' t); PStep (q_x s') (q_eta s)].
  Definition pepoch_events (s : ppos) (t : pstep) (s' : ppos) : trace :=
    if pends s then [PEndEpoch (q_k s) (ndiv (w_over s t) (nofnat n)); PBeginEpoch (S (q_k s)) (q_over s')] ++ (if shuffle then [PShuffle] else [])
    else [].
  Definition pconverged (s : ppos) (t : pstep) : bool := converged tol (q_last s) (w_over s t).
  Fixpoint prun (s : ppos) (l : list (pstep * ppos)) (s' : ppos) : Prop :=
    match l with
    | [] => s' = s
    | (t, m) :: r => pstep_ok s t m /\ (pends s = true -> pconverged s t = false) /\ prun m r s'
    end.
  Fixpoint prun_events (s : ppos) (l : list (pstep * ppos)) : trace :=
    match l with [] => [] | (t, m) :: r => pmove_events s t m ++ pepoch_events s t m ++ prun_events m r end.
  Definition pevs (x : vec) (l : list oeval) : trace := map (fun p => PEval x (fst (fst p)) (snd (fst p)) (snd p)) l.

  (** What a call reports: a pass over the functions that gives the objective F at the start,
      then steps; the objective of the first epoch is counted on top of F.  It ends after an
      epoch that meets the tolerance, or because the learning rates became too small, or when a
      callback asked to stop, perhaps while [rest] of one more batch was evaluated, or after
      [lim] functions. *)
  Definition pstart (over : N) (pol : pst N) (eta : N) (d : D) (x : vec) : ppos :=
    {| q_i := 0; q_f := 0; q_x := x; q_pol := pol; q_eta := eta; q_d := d; q_k := 1; q_over := over; q_last := nmax |}.
  Definition spalera_report (cb : PCB N) (exact : bool) (first : list oeval) (pol : pst N) (eta : N) (d : D) (x : vec)
      (value : N) (tr : trace) (e : pend) (s' : ppos) : Prop :=
    split_of n b (map fst first) /\
    let s0 := pstart (total first) pol eta d x in
    let pre := PBegin x :: pevs x first ++ [PBeginEpoch 1 (total first)] in
    exists l s, prun s0 l s /\
      match e with
      | PConverged =>
          exists t, pstep_ok s t s' /\ pends s = true /\ pconverged s t = true /\
            tr = pre ++ prun_events s0 l ++ pmove_events s t s' ++ [PEndEpoch (q_k s) (ndiv (w_over s t) (nofnat n)); PEnd (q_x s')] /\
            value = w_over s t
      | PFailed =>
          exists t, q_f s < n /\ q_i s < lim /\ 0 < w_c s /\
            upd (q_eta s) (w_val t) (w_c s) (q_x s) (w_g' t) (q_pol s) = Some (q_x s', false, q_pol s') /\
            tr = pre ++ prun_events s0 l ++ [PBoth (q_x s) (q_f s) (w_c s) (w_val t) (w_g t) (w_g' t); PEnd (q_x s')] /\
            value = q_over s
      | PLimit =>
          s' = s /\ exists rest final,
            tr = pre ++ prun_events s0 l ++ rest ++ pevs (q_x s) final ++ [PEnd (q_x s)] /\
            (rest = [] \/ exists v g g', rest = [PBoth (q_x s) (q_f s) (w_c s) v g g']) /\
            (pasked cb (pre ++ prun_events s0 l ++ rest) \/ (rest = [] /\ lim <= q_i s)) /\
            if exact then split_of n b (map fst final) /\ value = total final
            else final = [] /\ value = q_over s
      end.
End Spec.
