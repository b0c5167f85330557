(** Model of ens::MOEAD::Optimize (MOEA/D-DE).
    Files: /repo/include/ensmallen_bits/moead/moead_impl.hpp and
    moead/decomposition_policies/*.hpp.
    A matrix with [rows] rows is flattened column by column into a list; random draws,
    std::pow, arma::stable_sort_index, the weight matrix made by the initialisation
    policy (Model/DasDennis.v) and the objectives are parameters; conversions between
    element types are dropped. *)
From Coq Require Import List Arith Bool ZArith.
From Verif.Base Require Import Num Vec.
From Verif.Model Require Import SA Pareto NSGA2.
Import ListNotations.

(** One comparison of 270-281: the sub-problem and the two decomposed values. *)
Record trial (N : Num) : Type := { t_pick : nat; t_child : N; t_parent : N }.
Arguments Build_trial {N}. Arguments t_pick {N}. Arguments t_child {N}. Arguments t_parent {N}.

(** What happened for one child (200-283), for the theorems. *)
Record child (N : Num) : Type := {
  c_sub : nat;                      (* subProblemIdx                        *)
  c_nb : bool;                      (* sampleNeighbor                       *)
  c_a : nat; c_b : nat;             (* the other two parents                *)
  c_x : list N;                     (* candidate                            *)
  c_ideal : list N;                 (* idealPoint while it is compared      *)
  c_trials : list (trial N);
  c_old : list (list N);            (* the population before ...            *)
  c_new : list (list N)             (* ... and after                        *)
}.
Arguments Build_child {N}.
Arguments c_sub {N}. Arguments c_nb {N}. Arguments c_a {N}. Arguments c_b {N}. Arguments c_x {N}.
Arguments c_ideal {N}. Arguments c_trials {N}. Arguments c_old {N}. Arguments c_new {N}.

Section MOEAD.
  Context {N : Num}.
  Notation vec := (list N).
  Variables (populationSize maxGenerations : nat).
  Variables (crossoverProb neighborProb : N).
  Variable neighborSize : nat.
  Variables (distributionIndex differentialWeight : N).
  Variable maxReplace : nat.
  Variables (lowerBound upperBound : vec).
  Variable apply : vec -> vec -> vec -> N.            (* DecompPolicyType::Apply(weight, ideal, fitness) *)
  Variable weights : list vec.                        (* the columns of initPolicy.Generate(...), 133 *)
  Variable fs : list (vec -> N).
  Variable stop : list (nev N) -> bool.               (* GenerationalStepTaken, given the history *)
  Variable npow : N -> N -> N.                        (* std::pow *)
  Variable ssort : list N -> list nat.                (* arma::stable_sort_index *)

  (** The draws for one child. *)
  Record mdraws : Type := {
    w_nb : N;                       (* 195 *)
    w_a : nat; w_b : nat;           (* the arma::randi of 343 and 347 *)
    w_cross : nat -> N;             (* 207, for gene i *)
    w_lo : nat -> N; w_hi : nat -> N;   (* 217 and 222 *)
    w_mut : nat -> N; w_rand : nat -> N;  (* 376 and 384 *)
    w_shuf : nat -> list nat;       (* arma::shuffle of 0 .. k-1 (256) *)
    w_blank : vec                   (* the memory candidate is created with (203) *)
  }.
  Variable init : nat -> vec.                         (* randu of 153 for individual i *)
  Variable shuf : nat -> list nat.                    (* the shuffle of 186 in generation g *)
  Variable shuf_front : nat -> list nat.              (* the shuffle of 287 in generation g *)
  Variable rnd : nat -> nat -> mdraws.                (* generation, position in the shuffle *)

  (** 141-142: distance of two weight vectors *)
  Definition dist (u v : vec) : N := nsqrt (vsum (map (fun a => nmul a a) (vsub u v))).

  (** 137-146: arma::stable_sort_index throws when it meets NaN; span(1, neighborSize)
      drops the first of the sorted indices.  None: it threw. *)
  Definition neighbours (i : nat) : option (list nat) :=
    let ds := map (dist (nth i weights [])) weights in
    if existsb nisnan ds then None else Some (firstn neighborSize (skipn 1 (ssort ds))).
  Fixpoint all_some {A : Type} (l : list (option A)) : option (list A) :=
    match l with
    | [] => Some []
    | Some a :: r => match all_some r with Some s => Some (a :: s) | None => None end
    | None :: _ => None
    end.

  (** arma::min of two vectors: std::min(a, b) is b < a ? b : a *)
  Definition vmin (u v : vec) : vec := map2 (fun a b => if nlt b a then b else a) u v.

  (** 334-360: [col] is the column of neighborIndices.  None: an index past the end. *)
  Definition mating (col : list nat) (nb : bool) (ra rb : nat) : option (nat * nat) :=
    let get r := if nb then nth_error col r else Some r in
    match get ra, get rb with
    | Some a, Some b =>
        Some (if Nat.eqb a b then ((if Nat.eqb a (populationSize - 1) then a - 1 else a + 1), b) else (a, b))
    | _, _ => None
    end.

  (** 207-226: gene i *)
  Definition de_gene (w : mdraws) (lo hi : vec) (p1 p2 p3 : vec) (i : nat) : N :=
    let g1 := nth i p1 n0 in
    if nlt (w_cross w i) crossoverProb then
      let l := nth i lo n0 in let h := nth i hi n0 in
      let c := nadd g1 (nmul differentialWeight (nsub (nth i p2 n0) (nth i p3 n0))) in
      let c := if nlt c l then nadd l (nmul (w_lo w i) (nsub g1 l)) else c in
      if nlt h c then nsub h (nmul (w_hi w i) (nsub h g1)) else c
    else g1.

  (** 203-226: only the first [rows] elements are written *)
  Definition crossed (w : mdraws) (rows : nat) (lo hi p1 p2 p3 : vec) : vec :=
    fold_left (fun c i => set_nth i (de_gene w lo hi p1 p2 p3 i) c) (seq 0 rows) (w_blank w).

  (** 374-399: gene i; mutationRate is 1 / rows (228) *)
  Definition mutated_gene (w : mdraws) (rows : nat) (lo hi c : vec) (i : nat) : N :=
    let g := nth i c n0 in
    if nlt (ndiv n1 (nofnat rows)) (w_mut w i) then g else
    let l := nth i lo n0 in let h := nth i hi n0 in
    let range := nsub h l in
    let lowerDelta := ndiv (nsub g l) range in
    let upperDelta := ndiv (nsub h g) range in
    let d1 := nadd distributionIndex n1 in
    let power := ndiv n1 d1 in
    let r := w_rand w i in
    let two := nofZ 2 in let half := ndiv n1 two in
    let factor :=
      if nlt r half
      then nsub (npow (nadd (nmul two r) (nmul (nsub n1 (nmul two r)) (npow upperDelta d1))) power) n1
      else nsub n1 (npow (nadd (nmul two (nsub n1 r)) (nmul (nmul two (nsub r half)) (npow lowerDelta d1))) power) in
    nadd g (nmul factor range).

  (** 366-402 *)
  Definition polynomial (w : mdraws) (rows : nat) (lo hi c : vec) : vec :=
    clip lo hi (fold_left (fun c' i => set_nth i (mutated_gene w rows lo hi c' i) c') (seq 0 rows) c).

  (** 204-229 *)
  Definition reproduce (w : mdraws) (rows : nat) (lo hi p1 p2 p3 : vec) : vec :=
    polynomial w rows lo hi (crossed w rows lo hi p1 p2 p3).

  (** 259-282.  None: an index past the end. *)
  Fixpoint trials (nb : bool) (col : list nat) (idxs : list nat) (ideal x fx : vec) (count : nat)
      (pop fits : list vec) (log : list (trial N)) : option (list vec * list vec * list (trial N)) :=
    match idxs with
    | [] => Some (pop, fits, rev log)
    | i :: r =>
        if Nat.leb maxReplace count then Some (pop, fits, rev log) else
        match (if nb then nth_error col i else Some i) with
        | Some k =>
            match nth_error weights k, nth_error fits k with
            | Some w, Some fk =>
                let a := apply w ideal fx in
                let b := apply w ideal fk in
                let log := {| t_pick := k; t_child := a; t_parent := b |} :: log in
                if nlt a b
                then trials nb col r ideal x fx (count + 1) (set_nth k x pop) (set_nth k fx fits) log
                else trials nb col r ideal x fx count pop fits log
            | _, _ => None
            end
        | None => None
        end
    end.

  Record mst : Type := { m_pop : list vec; m_fits : list vec; m_ideal : vec;
                         m_log : list (child N); m_tr : list (nev N) }.

  (** EvaluateObjectives on a vector of points (405-436) *)
  Definition evaluated (pop : list vec) : list vec :=
    fst (evaluate (length pop) fs 0 pop (repeat (repeat n0 (length fs)) (length pop), 0)).

  (** 188-283 *)
  Definition one_child (rows : nat) (lo hi : vec) (nbr : list (list nat)) (w : mdraws) (sub : nat) (s : mst) : option mst :=
    let nb := nlt (w_nb w) neighborProb in
    match nth_error nbr sub with
    | Some col =>
        match mating col nb (w_a w) (w_b w) with
        | Some (a, b) =>
            match nth_error (m_pop s) sub, nth_error (m_pop s) a, nth_error (m_pop s) b with
            | Some p1, Some p2, Some p3 =>
                let x := reproduce w rows lo hi p1 p2 p3 in
                let fx := nth 0 (evaluated [x]) [] in
                let ideal := vmin (m_ideal s) fx in
                match trials nb col (w_shuf w (if nb then neighborSize else populationSize)) ideal x fx 0
                        (m_pop s) (m_fits s) [] with
                | Some (pop, fits, log) =>
                    Some {| m_pop := pop; m_fits := fits; m_ideal := ideal;
                            m_log := {| c_sub := sub; c_nb := nb; c_a := a; c_b := b; c_x := x; c_ideal := ideal;
                                        c_trials := log; c_old := m_pop s; c_new := pop |} :: m_log s;
                            m_tr := m_tr s |}
                | None => None
                end
            | _, _, _ => None
            end
        | None => None
        end
    | None => None
    end.

  (** 188-284: the pass over the shuffled sub-problems *)
  Fixpoint pass (rows : nat) (lo hi : vec) (nbr : list (list nat)) (gen j : nat) (subs : list nat) (s : mst) : option mst :=
    match subs with
    | [] => Some s
    | sub :: r =>
        match one_child rows lo hi nbr (rnd gen j) sub s with
        | Some s' => pass rows lo hi nbr gen (j + 1) r s'
        | None => None
        end
    end.

  (** 183-292 *)
  Fixpoint mgenerations (k gen rows : nat) (lo hi : vec) (nbr : list (list nat)) (x : vec) (term : bool) (s : mst) : option mst :=
    match k with
    | O => Some s
    | S k =>
        if term then Some s else
        match pass rows lo hi nbr gen 0 (shuf gen) s with
        | Some s =>
            let tr := NGen x (m_fits s) [shuf_front gen] :: m_tr s in
            mgenerations k (gen + 1) rows lo hi nbr x (stop tr)
              {| m_pop := m_pop s; m_fits := m_fits s; m_ideal := m_ideal s; m_log := m_log s; m_tr := tr |}
        | None => None
        end
    end.

  Record mres : Type := {
    q_set : list vec;                 (* ParetoSet()   *)
    q_front : list vec;               (* ParetoFront() *)
    q_x : vec;                        (* the iterate on return *)
    q_val : N;                        (* the returned value *)
    q_init : list vec;                (* the first population, for the theorems *)
    q_log : list (child N);           (* the children, oldest first, for the theorems *)
    q_tr : list (nev N)               (* events, oldest first *)
  }.

  (** 319-325: the loop runs over the objectives but indexes the population.
      None: an index past the end. *)
  Definition mperformance (fits : list vec) : option N :=
    fold_left (fun best i => match best, nth_error fits i with
                             | Some best, Some f => Some (if nlt (vsum f) best then vsum f else best)
                             | _, _ => None
                             end)
      (seq 0 (length fs)) (Some nmax).

  (** 88-328 *)
  Definition moead (rows : nat) (x : vec) : nout mres :=
    if Nat.ltb populationSize 3 then NThrow else
    if Nat.ltb neighborSize 2 then NThrow else
    if Nat.ltb (populationSize - 1) neighborSize then NThrow else
    let d := length x in
    let lo := spread d lowerBound in
    let hi := spread d upperBound in
    match all_some (map neighbours (seq 0 populationSize)) with
    | None => NThrow
    | Some nbr =>
        let pop := map (fun i => clip lo hi (vadd (map (fun u => nsub u (ndiv n1 (nofZ 2))) (init i)) x)) (seq 0 populationSize) in
        let fits := evaluated pop in
        let ideal := fold_left vmin fits (repeat nmax (length fs)) in
        match mgenerations maxGenerations 1 rows lo hi nbr x false
                {| m_pop := pop; m_fits := fits; m_ideal := ideal; m_log := []; m_tr := [NBegin x] |} with
        | Some s =>
            match m_pop s, mperformance (m_fits s) with
            | first :: _, Some v =>
                NRet {| q_set := m_pop s; q_front := m_fits s; q_x := first; q_val := v;
                        q_init := pop; q_log := rev (m_log s); q_tr := rev (NEnd first :: m_tr s) |}
            | _, _ => NBad
            end
        | None => NBad
        end
    end.

  (** weighted_decomposition.hpp 49-54 *)
  Definition weighted_average (w ideal f : vec) : N := vdot w f.

  (** tchebycheff_decomposition.hpp 54-59.  arma::max starts from minus infinity; here
      from the first element, which differs only if that is NaN.  It throws on an
      empty vector (here 0). *)
  Definition tchebycheff (w ideal f : vec) : N :=
    match vmul w (map nabs (vsub f ideal)) with
    | [] => n0
    | v :: r => fold_left (fun m v => if nlt m v then v else m) r v
    end.

  (** pbi_decomposition.hpp 57-70 *)
  Definition pbi (theta : N) (w ideal f : vec) : N :=
    let norm u := nsqrt (vsum (map (fun a => nmul a a) u)) in
    let dir := map (fun a => ndiv a (norm w)) w in
    let d1 := vdot (vsub f ideal) dir in
    let d2 := norm (vsub f (vadd ideal (vscale d1 dir))) in
    nadd d1 (nmul theta d2).
End MOEAD.
