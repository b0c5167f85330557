(** Vocabulary for SARAH and Katyusha (C54).  Traces are oldest first. *)
From Coq Require Import List Arith Bool ZArith.
From Verif.Base Require Import Num Vec Size.
From Verif.Model Require Import Common VarRed.
From Verif.Spec Require Import SgdSpec VarRedSpec.
Import ListNotations.
Local Open Scope nat_scope.

Section Sarah.
  Context {N : Num}.
  Notation vec := (list N).
  Notation trace := (list (vev N)).
  Variables (n b inner : nat) (shuffle : bool) (eta : N) (norm : vec -> N) (early : vec -> N -> bool).

  (** gradient evaluations no callback is told about *)
  Definition grq_of (x : vec) (l : list (@geval N)) : trace := map (fun p => VGradQ x (fst (fst p)) (snd (fst p)) (fst (snd p))) l.

  (** An inner step: the move, the estimate v it used, and whether StepTaken was called. *)
  Record sstep : Type := { m_t : @vstep N; m_v : vec; m_told : bool }.

  (** v + (g(x) - g(previous point)) / c, and x - eta * v.  In the first inner step of a round
      there is no previous point and the difference is g(x) - g(x).  Only a step that ends the
      inner loop early (SARAH+) is not reported. *)
  Fixpoint sarah_steps (vNorm : N) (prev : option vec) (x v : vec) (l : list sstep) : Prop :=
    match l with
    | [] => True
    | s :: r =>
        t_x (m_t s) = x /\ (prev = None -> t_h' (m_t s) = t_g' (m_t s)) /\
        m_v s = vadd v (over_n (t_c (m_t s)) (vsub (t_g' (m_t s)) (t_h' (m_t s)))) /\
        t_to (m_t s) = vsub x (vscale eta (m_v s)) /\
        m_told s = negb (early (m_v s) vNorm) /\ (m_told s = false -> r = []) /\
        sarah_steps vNorm (Some x) (t_to (m_t s)) (m_v s) r
    end.
  (** both gradients are taken on the same batch, the second at the previous point *)
  Fixpoint sarah_events (prev : option vec) (l : list sstep) : trace :=
    match l with
    | [] => []
    | s :: r =>
        let t := m_t s in
        (if t_sh t then [VShuffle] else []) ++
        [VGrad (t_x t) (t_f t) (t_c t) (t_g t) (t_g' t)] ++
        (match prev with None => [] | Some p => [VGrad p (t_f t) (t_c t) (t_h t) (t_h' t)] end) ++
        (if m_told s then [VStep (t_to t) eta] else []) ++ sarah_events (Some (t_x t)) r
    end.

  (** the gradients used are those of one batch of all n functions, at the point and at the previous one *)
  Fixpoint batch_grads (G : vec -> nat -> nat -> vec) (m : nat) (prev : option vec) (l : list sstep) : Prop :=
    match l with
    | [] => True
    | s :: r =>
        t_f (m_t s) = 0 /\ t_c (m_t s) = m /\ t_g' (m_t s) = G (t_x (m_t s)) (t_f (m_t s)) (t_c (m_t s)) /\
        (match prev with None => True | Some q => t_h' (m_t s) = G q (t_f (m_t s)) (t_c (m_t s)) end) /\
        batch_grads G m (Some (t_x (m_t s))) r
    end.

  Record sround : Type := { y_x : vec; y_evals : list (@oeval N); y_first : @geval N; y_grads : list (@geval N);
                            y_steps : list sstep; y_rest : trace }.
  (** the average gradient at the snapshot; the hooks see its first batch only *)
  Definition y_v (r : sround) : vec := over_n n (fold_left vadd (map (fun p => fst (snd p)) (y_grads r)) (snd (snd (y_first r)))).
  Definition y_start (r : sround) : vec := vsub (y_x r) (vscale eta (y_v r)).
  Definition y_end (r : sround) : vec := last (map (fun s => t_to (m_t s)) (y_steps r)) (y_start r).
  Definition sround_events (r : sround) : trace :=
    evs_of (y_x r) (y_evals r) ++ grs_of (y_x r) [y_first r] ++ grq_of (y_x r) (y_grads r) ++
    sarah_events None (y_steps r) ++ y_rest r.
  Definition ended_early (l : list sstep) : Prop := exists l' s, l = l' ++ [s] /\ m_told s = false.
  Definition sarah_round (r : sround) : Prop :=
    split_of n b (map fst (y_evals r)) /\ split_of n b (map fst (y_first r :: y_grads r)) /\
    sarah_steps (norm (y_v r)) None (y_start r) (y_v r) (y_steps r) /\
    cyclic n b shuffle (map m_t (y_steps r)) /\ within inner (map m_t (y_steps r)) /\
    (y_rest r = [] -> inner <= list_sum (map t_c (map m_t (y_steps r))) \/ ended_early (y_steps r)) /\
    forallb abandoned (y_rest r) = true.
  Fixpoint sarah_rounds (tol : N) (x : vec) (last : N) (rs : list sround) (x' : vec) (last' : N) : Prop :=
    match rs with
    | [] => x' = x /\ last' = last
    | r :: rs' => y_x r = x /\ sarah_round r /\ (rs' <> [] -> y_rest r = []) /\
                  converged tol last (total (y_evals r)) = false /\
                  sarah_rounds tol (y_end r) (total (y_evals r)) rs' x' last'
    end.

  (** After the last round: nothing, or the objective, or the objective and the gradient at
      the final point; then, for exactObjective, the objective. *)
  Record stail : Type := { u_evals : list (@oeval N); u_grads : option (@geval N * list (@geval N)); u_final : list (@oeval N) }.
  Definition u_events (x : vec) (t : stail) : trace :=
    evs_of x (u_evals t) ++ match u_grads t with None => [] | Some (p, l) => grs_of x [p] ++ grq_of x l end.

  Definition sarah_report (cb : VCB N) (maxIterations : nat) (tol : N) (exact : bool) (x : vec) (value : N) (xf : vec) (tr : trace) (conv : bool) : Prop :=
    exists rs t last,
      tr = VBegin x :: flat_map sround_events rs ++ u_events xf t ++ evs_of xf (u_final t) ++ [VEnd xf] /\
      sarah_rounds tol x nmax rs xf last /\
      length rs <= limit maxIterations /\
      (u_evals t = [] \/ (split_of n b (map fst (u_evals t)) /\ length rs < limit maxIterations)) /\
      (match u_grads t with None => True | Some (p, l) => split_of n b (map fst (p :: l)) /\ u_evals t <> [] end) /\
      if conv then
        split_of n b (map fst (u_evals t)) /\ u_grads t = None /\ u_final t = [] /\
        converged tol last (total (u_evals t)) = true /\ value = total (u_evals t)
      else
        (length rs = limit maxIterations \/ vasked cb (VBegin x :: flat_map sround_events rs ++ u_events xf t)) /\
        if exact then split_of n b (map fst (u_final t)) /\ value = total (u_final t)
        else u_final t = [] /\
             value = match u_evals t with [] => match rs with [] => n0 | _ => last end | _ => total (u_evals t) end.
End Sarah.

Section Katyusha.
  Context {N : Num}.
  Notation vec := (list N).
  Notation trace := (list (vev N)).
  Variables (n b inner : nat) (shuffle proximal : bool) (lipschitz tau1 tau2 alpha r normalizer : N).

  (** The coupling steps: [t_x t = t_to t] is
        x' = tau1 z + tau2 x0 + (1 - tau1 - tau2) y,
      then z' = z - alpha (full + (g(x') - g(x0)) / b) and y' = x' + tau1 (z' - z)
      (Proximal: x' + w / (3 L)); w adds up the points with weights 1, r, r^2, ... *)
  Definition cpl_x (x0 y z : vec) : vec := vadd (vadd (vscale tau1 z) (vscale tau2 x0)) (vscale (nsub (nsub n1 tau1) tau2) y).
  Definition cpl_z (z full g h : vec) : vec := vsub z (vscale alpha (vadd full (over_n b (vsub g h)))).
  Definition cpl_y (x w z z' : vec) : vec :=
    if proximal then vadd x (vscale (ndiv n1 (nmul (nofZ 3%Z) lipschitz)) w) else vadd x (vscale tau1 (vsub z' z)).
  Fixpoint kat_steps (x0 full y z w : vec) (cw : N) (l : list (@vstep N)) (y' z' w' : vec) : Prop :=
    match l with
    | [] => y' = y /\ z' = z /\ w' = w
    | t :: l' =>
        t_x t = cpl_x x0 y z /\ t_to t = t_x t /\
        kat_steps x0 full (cpl_y (t_x t) w z (cpl_z z full (t_g' t) (t_h' t))) (cpl_z z full (t_g' t) (t_h' t))
          (vadd w (vscale cw (t_x t))) (nmul cw r) l' y' z' w'
    end.
  Definition kstep_events (x0 : vec) (t : @vstep N) : trace :=
    (if t_sh t then [VShuffle] else []) ++
    [VStep (t_to t) alpha; VGrad (t_x t) (t_f t) (t_c t) (t_g t) (t_g' t); VGrad x0 (t_f t) (t_c t) (t_h t) (t_h' t)].

  (** A round: the iterate, the snapshot and y, z when it starts; the first batch of the
      gradient is taken at the iterate, the others at the snapshot. *)
  Record kround : Type := { g_x : vec; g_x0 : vec; g_y : vec; g_z : vec; g_evals : list (@oeval N); g_first : @geval N; g_grads : list (@geval N);
                            g_steps : list (@vstep N); g_y' : vec; g_z' : vec; g_w' : vec }.
  Definition g_full (q : kround) : vec := over_n n (fold_left vadd (map (fun p => fst (snd p)) (g_grads q)) (snd (snd (g_first q)))).
  Definition g_end (q : kround) : vec := last (map t_to (g_steps q)) (g_x q).
  Definition kround_events (q : kround) : trace :=
    evs_of (g_x0 q) (g_evals q) ++ grs_of (g_x q) [g_first q] ++ grs_of (g_x0 q) (g_grads q) ++ flat_map (kstep_events (g_x0 q)) (g_steps q).
  Definition kat_round (q : kround) : Prop :=
    split_of n b (map fst (g_evals q)) /\ split_of n b (map fst (g_first q :: g_grads q)) /\
    kat_steps (g_x0 q) (g_full q) (g_y q) (g_z q) (map (fun _ => n0) (g_x q)) n1 (g_steps q) (g_y' q) (g_z' q) (g_w' q) /\
    cyclic n b shuffle (g_steps q) /\ within inner (g_steps q).
  Definition g_complete (q : kround) : Prop := inner <= list_sum (map t_c (g_steps q)).
  Fixpoint kat_rounds (tol : N) (x x0 y z : vec) (last : N) (rs : list kround) (x' x0' : vec) (last' : N) : Prop :=
    match rs with
    | [] => x' = x /\ x0' = x0 /\ last' = last
    | q :: rs' => g_x q = x /\ g_x0 q = x0 /\ g_y q = y /\ g_z q = z /\ kat_round q /\ (rs' <> [] -> g_complete q) /\
                  converged tol last (total (g_evals q)) = false /\
                  kat_rounds tol (g_end q) (vscale normalizer (g_w' q)) (g_y' q) (g_z' q) (total (g_evals q)) rs' x' x0' last'
    end.

  (** [xs] is the snapshot when the call ends; the value (without exactObjective) is that of
      the last snapshot evaluated. *)
  Definition katyusha_report (cb : VCB N) (maxIterations : nat) (tol : N) (exact : bool) (x : vec) (value : N) (xf : vec) (tr : trace) (conv : bool) : Prop :=
    exists rs xs last evals final,
      tr = VBegin x :: flat_map kround_events rs ++ evs_of xs evals ++ evs_of xf final ++ [VEnd xf] /\
      kat_rounds tol x x x x nmax rs xf xs last /\ length rs <= limit maxIterations /\
      if conv then
        split_of n b (map fst evals) /\ length rs < limit maxIterations /\ final = [] /\
        converged tol last (total evals) = true /\ value = total evals
      else
        evals = [] /\
        (vasked cb (VBegin x :: flat_map kround_events rs) \/ (length rs = limit maxIterations /\ Forall g_complete rs)) /\
        if exact then split_of n b (map fst final) /\ value = total final
        else final = [] /\ value = match rs with [] => n0 | _ => last end.
End Katyusha.
