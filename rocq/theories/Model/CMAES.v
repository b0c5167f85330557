(** Model of ens::CMAES::Optimize and ens::ActiveCMAES::Optimize with the selection
    policies FullSelection and RandomSelection.
    Files: /repo/include/ensmallen_bits/cmaes/cmaes_impl.hpp (68-383),
    active_cmaes_impl.hpp (65-367), full_selection.hpp, random_selection.hpp.

    The covariance matrix adaptation itself (ps, pc, C, the Cholesky and eigenvalue
    decompositions and the new step size) is a parameter: [sample] gives the steps
    drawn from the current distribution and [adapt] the next distribution and step
    size.  So everything proved holds for every adaptation rule, in particular for
    those of CMAES and ActiveCMAES, which differ only there and in the weights. *)
From Coq Require Import List Arith Bool.
From Verif.Base Require Import Num Size Vec.
From Verif.Model Require Import Common SA.
Import ListNotations.

(** The (begin, batch) pairs of "for (f = 0; f < n; f += bs)" (138-147,
    full_selection.hpp 44-52).  With bs = 0 the loop does not end: None. *)
Fixpoint chunks_from (fuel n bs f : nat) : list (nat * nat) :=
  match fuel with
  | O => []
  | S k => if f <? n then (f, Nat.min bs (n - f)) :: chunks_from k n bs (f + bs) else []
  end.
Definition full_chunks (n bs : nat) : option (list (nat * nat)) :=
  if (bs =? 0) && (0 <? n) then None else Some (chunks_from n n bs 0).
(** random_selection.hpp 63-76: [m] is floor(n * fraction), [sel] the random starts *)
Definition random_chunks (n m bs : nat) (sel : nat -> nat) : option (list (nat * nat)) :=
  match full_chunks m bs with
  | None => None
  | Some l => Some (map (fun c => (sel (fst c) mod n, Nat.min bs (n - sel (fst c) mod n))) l)
  end.

(** Shapes (rows, columns) of the sampled steps, 206-216: covLower is n_elem x n_elem.
    None: Armadillo throws because the shapes do not fit. *)
Definition mul_shape (a b : nat * nat) : option (nat * nat) :=
  if snd a =? fst b then Some (fst a, snd b) else None.
Definition draw_shape (rows cols : nat) : option (nat * nat) :=
  let c := (rows * cols, rows * cols) in
  if cols <? rows then mul_shape c (rows, cols) else mul_shape (rows, cols) c.

Section CMAES.
  Context {N : Num}.
  Notation vec := (list N).
  Notation ev := (ev N vec vec).
  Variables (maxIterations lambda patience : nat) (tolerance big : N).   (* big = 1e14 *)
  Variable feval : vec -> nat -> nat -> N.      (* function.Evaluate(x, begin, batch) *)
  Variable init_chunks : list (nat * nat).      (* 138-147 *)
  Variable select : nat -> nat -> list (nat * nat).  (* the chunks Select() uses: generation, call *)
  Variable transform : vec -> vec.
  Variable w : list N.                          (* parent weights (112-115; active: 1/mu) *)
  Variable A : Type.
  Variable sample : nat -> A -> option (list vec).   (* None: the loop of 199-200 does not end *)
  Variable adapt : nat -> A -> N -> list vec -> list nat -> vec -> A * N.
  Variable sort_index : list N -> list nat.
  Variable cb : CB N vec vec.
  Local Open Scope num_scope.

  (** 138-147 (running = false) and Select() (running = true, which shows the
      callbacks the sum so far) *)
  Fixpoint evaluate (running : bool) (x : vec) (cs : list (nat * nat)) (acc : N) (tr : list ev) (term : bool) : N * list ev * bool :=
    match cs with
    | [] => (acc, tr, term)
    | (f, b) :: r =>
        let o := feval x f b in
        let tr' := Ev x (if running then acc + o else o) :: tr in
        evaluate running x r (acc + o) tr' (term || cs_stop cb tr')
    end.

  (** 204-226: the draws go to the places idx(0), idx(1), ... *)
  Fixpoint population (i j : nat) (m : vec) (sigma : N) (draws : list vec) (idx : list nat)
      (steps : list vec) (objs : list N) (tr : list ev) (term : bool) : list vec * list N * list ev * bool :=
    match draws, idx with
    | s :: ds, k :: ix =>
        let '(o, tr1, t1) := evaluate true (transform (vadd m (vscale sigma s))) (select i j) n0 tr term in
        population i (S j) m sigma ds ix (set_nth k s steps) (set_nth k o objs) tr1 t1
    | _, _ => (steps, objs, tr, term)
    end.

  (** 231-233 *)
  Definition recombine (steps : list vec) (idx : list nat) : option vec :=
    match map2 (fun c k => vscale c (nth k steps [])) w idx with
    | [] => None                                  (* w(0) does not exist *)
    | s :: r => Some (fold_left vadd r s)
    end.

  Record cst : Type := {
    c_mean : vec; c_it : vec; c_best : N; c_last : N; c_count : nat;
    c_idx : list nat; c_steps : list vec; c_objs : list N; c_sigma : N; c_a : A; c_tr : list ev
  }.

  Definition finish (b : vec) (v : N) (tr : list ev) : Res N vec vec :=
    {| o_val := v; o_x := transform b; o_tr := rev (End (transform b) :: tr) |}.

  (** 190-376; [k] generations left, [i] the generation number *)
  Fixpoint cma_loop (k i : nat) (s : cst) (term : bool) : outc (Res N vec vec) :=
    match k, term with
    | O, _ | _, true => Ret (finish (c_it s) (c_best s) (c_tr s))
    | S k', false =>
        match sample i (c_a s) with
        | None => More
        | Some draws =>
            let '(steps, objs, tr1, t1) :=
              population i 0 (c_mean s) (c_sigma s) draws (c_idx s) (c_steps s) (c_objs s) (c_tr s) false in
            if existsb nisnan objs then Bad                     (* sort_index() throws *)
            else
            let idx := sort_index objs in
            match recombine steps idx with
            | None => Bad
            | Some step =>
                let m := vadd (c_mean s) (vscale (c_sigma s) step) in
                let '(cur, tr2, t2) := evaluate true (transform m) (select i lambda) n0 tr1 t1 in
                let better := nlt cur (c_best s) in
                let it := if better then m else c_it s in
                let best := if better then cur else c_best s in
                let tr3 := if better then St (transform it) :: tr2 else tr2 in
                let t3 := if better then t2 || cs_stop cb tr3 else t2 in
                let '(a, sigma) := adapt i (c_a s) (c_sigma s) steps idx step in
                if nisnan sigma || nlt big sigma then Ret (finish it best tr3)
                else if nisnan best || nisinf best then Ret (finish it best tr3)
                else
                  let small := nlt (nabs (c_last s - best)) tolerance in
                  if small && (patience <? c_count s)%nat then Ret (finish it best tr3)
                  else cma_loop k' (S i)
                         {| c_mean := m; c_it := it; c_best := best; c_last := best;
                            c_count := S (if small then c_count s else 0%nat);
                            c_idx := idx; c_steps := steps; c_objs := objs; c_sigma := sigma; c_a := a; c_tr := tr3 |} t3
            end
        end
    end.

  (** 68-382.  [a0], [sigma0] the initial distribution and step size.  The initial
      contents of pStep and pObjective are never read: every place is assigned. *)
  Definition cma_optimize (a0 : A) (sigma0 : N) (x : vec) : outc (Res N vec vec) :=
    let '(cur, tr, t) := evaluate false (transform x) init_chunks n0 [] false in
    cma_loop (bound maxIterations - 1) 1
      {| c_mean := x; c_it := x; c_best := cur; c_last := nmax; c_count := 0;
         c_idx := seq 0 lambda; c_steps := repeat [] lambda; c_objs := repeat n0 lambda;
         c_sigma := sigma0; c_a := a0; c_tr := Begin (transform x) :: tr |} t.
End CMAES.
