(** Model of ens::NSGA2::Optimize.
    File: /repo/include/ensmallen_bits/nsga2/nsga2_impl.hpp.
    Matrices are flattened to lists; random draws, std::sort and the objective
    functions are parameters; conversions between element types are dropped. *)
From Coq Require Import List Arith Bool ZArith.
From Verif.Base Require Import Num Vec.
From Verif.Model Require Import SA Pareto.
Import ListNotations.

(** What a callback sees (146, 197, 227). *)
Inductive nev (N : Num) : Type :=
| NBegin (x : list N)
| NGen (x : list N) (objs : list (list N)) (fronts : list (list nat))
| NEnd (x : list N).
Arguments NBegin {N}. Arguments NGen {N}. Arguments NEnd {N}.

Inductive nout (A : Type) : Type :=
| NRet (a : A)
| NThrow             (* std::logic_error, 75 *)
| NBad               (* access past the end of a std::vector *)
| NMore.             (* a while loop did not finish within the fuel *)
Arguments NRet {A}. Arguments NThrow {A}. Arguments NBad {A}. Arguments NMore {A}.

Section NSGA2.
  Context {N : Num}.
  Notation vec := (list N).
  Variables (populationSize maxGenerations : nat).
  Variables (crossoverProb mutationProb mutationStrength epsilon : N).
  Variables (lowerBound upperBound : vec).           (* as given to the constructor *)
  Variable fs : list (vec -> N).                     (* the tuple of objectives *)
  Variable stop : list (nev N) -> bool.              (* GenerationalStepTaken, given the history (newest first) *)

  (** The draws for one pair of children: the two parents (275-276), the crossover
      matrix (316) and, for either child, the two matrices of Mutate (331-332). *)
  Record draws : Type := { d_a : nat; d_b : nat; d_cross : vec;
                           d_ua : vec; d_na : vec; d_ub : vec; d_nb : vec }.
  Variable init : nat -> vec.                        (* randu of 137 for individual i *)
  Variable rnd : nat -> nat -> draws.                (* generation, pair *)

  (** std::sort with a comparison, on individuals (175) and on front positions (447) *)
  Variable sortp : (vec -> vec -> bool) -> list vec -> list vec.
  Variable sorti : (nat -> nat -> bool) -> list nat -> list nat.

  (** 91-96: a bound with one row is spread over all coordinates *)
  Definition spread (d : nat) (b : vec) : vec := match b with [x] => repeat x d | _ => b end.

  (** arma::min(arma::max(x, lower), upper); element-wise std::max(a, b) is
      a < b ? b : a and std::min(a, b) is b < a ? b : a *)
  Definition clip1 (lo hi x : N) : N :=
    let y := if nlt x lo then lo else x in if nlt hi y then hi else y.
  Fixpoint clip (lo hi x : vec) : vec :=
    match lo, hi, x with
    | l :: lo, h :: hi, a :: x => clip1 l h a :: clip lo hi x
    | _, _, _ => []
    end.

  Definition ind (b : bool) : N := if b then n1 else n0.

  (** 309-322; note that childB is built from parentA alone (321) *)
  Definition crossover (idx pa pb : vec) : vec * vec :=
    let bits := map (fun u => ind (nlt u crossoverProb)) idx in
    let inv := map (fun b => nsub n1 b) bits in
    (vadd (vmul pa bits) (vmul pb inv), vadd (vmul pa inv) (vmul pa bits)).

  (** 326-335 *)
  Definition mutate (lo hi : vec) (child u g : vec) : vec :=
    clip lo hi (vadd child (vmul (map (fun x => ind (nlt x mutationProb)) u) (vscale mutationStrength g))).

  (** 279-285 *)
  Definition other (a b : nat) : nat :=
    if Nat.eqb a b then (if Nat.ltb b (populationSize - 1) then b + 1 else b - 1) else b.

  (** 272-301 *)
  Fixpoint children (fuel gen j : nat) (lo hi : vec) (pop acc : list vec) : nout (list vec) :=
    if Nat.ltb (length acc) (length pop) then
      match fuel with
      | O => NMore
      | S fuel =>
          let d := rnd gen j in
          match nth_error pop (d_a d), nth_error pop (other (d_a d) (d_b d)) with
          | Some pa, Some pb =>
              let '(ca, cb) := crossover (d_cross d) pa pb in
              children fuel gen (j + 1) lo hi pop
                (acc ++ [mutate lo hi ca (d_ua d) (d_na d); mutate lo hi cb (d_ub d) (d_nb d)])
          | _, _ => NBad
          end
      end
    else NRet acc.

  (** 248-266.  The recursive call sits inside the loop over the individuals, so the
      later objectives are evaluated again for every individual.  [calls] counts the
      calls of Evaluate(). *)
  Fixpoint evaluate (gs : list (vec -> N)) (m : nat) (pop : list vec) (st : list vec * nat) : list vec * nat :=
    match gs with
    | [] => st
    | g :: gs' =>
        fold_left (fun st i =>
            let '(objs, calls) := st in
            evaluate gs' (m + 1) pop
              (set_nth i (set_nth m (g (nth i pop [])) (nth i objs [])) objs, calls + 1))
          (seq 0 populationSize) st
    end.

  (** 425-470.  The distances
      of the members of one front, objective by objective (sortedIdx is carried over
      from one objective to the next). *)
  Definition crowd_one (objs : list vec) (front : list nat) (st : list N * list nat) (m : nat) : list N * list nat :=
    let '(cd, sortedIdx) := st in
    let val k := nth m (nth (nth k front 0) objs []) n0 in
    let sortedIdx := sorti (fun a b => nlt (val a) (val b)) sortedIdx in
    let fSize := length front in
    let at_ k := nth k sortedIdx 0 in
    let cd := set_nth (nth (at_ 0) front 0) nmax cd in
    let cd := set_nth (nth (at_ (fSize - 1)) front 0) nmax cd in
    let range := nabs (nsub (val (at_ (fSize - 1))) (val (at_ 0))) in
    let scale := if neq range n0 then n1 else range in
    (fold_left (fun cd i =>
         let k := nth (at_ i) front 0 in
         set_nth k (nadd (nth k cd n0) (ndiv (nsub (val (at_ (i + 1))) (val (at_ (i - 1)))) scale)) cd)
       (seq 1 (fSize - 2)) cd,
     sortedIdx).
  Definition crowding (objs : list vec) (cd : list N) (front : list nat) : list N :=
    fst (fold_left (crowd_one objs front) (seq 0 (length fs)) (cd, seq 0 (length front))).

  (** 475-486 *)
  Definition crowding_operator (ranks : list nat) (cd : list N) (p q : nat) : bool :=
    let rp := nth p ranks 0 in let rq := nth q ranks 0 in
    Nat.ltb rp rq || (Nat.eqb rp rq && nlt (nth q cd n0) (nth p cd n0)).

  (** arma::approx_equal(., ., "absdiff", epsilon) *)
  Definition approx_equal (x y : vec) : bool :=
    forallb (fun ab => nle (nabs (nsub (fst ab) (snd ab))) epsilon) (combine x y).

  (** 179-187: the last position with an approximately equal individual *)
  Definition find_last (pop : list vec) (x : vec) : nat :=
    fold_left (fun k i => if approx_equal (nth i pop []) x then i else k) (seq 0 (length pop)) 0.

  Record nst : Type := { n_pop : list vec; n_objs : list vec; n_fronts : list (list nat);
                         n_ranks : list nat; n_tr : list (nev N);
                         n_parents : list vec      (* ghost: the population the generation started from *) }.

  (** std::vector<size_t>::resize *)
  Definition resize {A : Type} (d : A) (k : nat) (l : list A) : list A := firstn k l ++ repeat d (k - length l).

  (** 148-199: one generation *)
  Definition generation (fuel gen : nat) (lo hi x : vec) (s : nst) : nout nst :=
    match children fuel gen 0 lo hi (n_pop s) [] with
    | NRet cs =>
        let pop := n_pop s ++ cs in
        let objs := fst (evaluate fs 0 pop (repeat (repeat n0 (length fs)) (length pop), 0)) in
        match fnds populationSize (dom_at objs) fuel (resize 0 (length pop) (n_ranks s)) with
        | Some (fronts, ranks) =>
            let cd := fold_left (crowding objs) fronts (repeat n0 (length pop)) in
            let sorted := sortp (fun p q => crowding_operator ranks cd (find_last pop p) (find_last pop q)) pop in
            NRet {| n_pop := resize [] populationSize sorted; n_objs := objs; n_fronts := fronts;
                    n_ranks := ranks; n_tr := NGen x objs fronts :: n_tr s;
                    n_parents := n_pop s |}
        | None => NMore
        end
    | NThrow => NThrow | NBad => NBad | NMore => NMore
    end.

  Fixpoint generations (k : nat) (fuel gen : nat) (lo hi x : vec) (term : bool) (s : nst) : nout nst :=
    match k with
    | O => NRet s
    | S k =>
        if term then NRet s else
        match generation fuel gen lo hi x s with
        | NRet s' => generations k fuel (gen + 1) lo hi x (stop (n_tr s')) s'
        | e => e
        end
    end.

  Record nres : Type := {
    r_set : list vec;                 (* ParetoSet()   *)
    r_front : list vec;               (* ParetoFront() *)
    r_x : vec;                        (* the iterate on return *)
    r_val : N;                        (* the returned value *)
    r_pop : list vec;                 (* the last population, for the theorems *)
    r_parents : list vec;             (* the population whose objectives were last evaluated *)
    r_tr : list (nev N)               (* events, oldest first *)
  }.

  (** v[idx] for every idx; None if one is past the end *)
  Fixpoint take_all {A : Type} (l : list A) (idx : list nat) : option (list A) :=
    match idx with
    | [] => Some []
    | i :: r => match nth_error l i, take_all l r with Some a, Some b => Some (a :: b) | _, _ => None end
    end.

  (** 229-233 *)
  Definition performance (objs : list vec) : N :=
    fold_left (fun best o => if nlt (vsum o) best then vsum o else best) objs nmax.

  (** 67-236 *)
  Definition optimize (fuel : nat) (x : vec) : nout nres :=
    if Nat.ltb populationSize 4 && negb (Nat.eqb (populationSize mod 4) 0) then NThrow else
    let d := length x in
    let lo := spread d lowerBound in
    let hi := spread d upperBound in
    let pop := map (fun i => clip lo hi (vadd (map (fun u => nsub u (ndiv n1 (nofZ 2))) (init i)) x)) (seq 0 populationSize) in
    match generations maxGenerations fuel 1 lo hi x false
            {| n_pop := pop; n_objs := repeat [] populationSize; n_fronts := []; n_ranks := []; n_tr := [NBegin x];
               n_parents := [] |} with
    | NRet s =>
        match n_fronts s with
        | (i :: r) :: _ =>
            match take_all (n_pop s) (i :: r), take_all (n_objs s) (i :: r) with
            | Some ps, Some pf =>
                NRet {| r_set := ps; r_front := pf; r_x := hd [] ps; r_val := performance (n_objs s);
                        r_pop := n_pop s; r_parents := n_parents s; r_tr := rev (NEnd (hd [] ps) :: n_tr s) |}
            | _, _ => NBad
            end
        | _ => NBad                 (* fronts[0] or fronts[0][0] does not exist *)
        end
    | NThrow => NThrow | NBad => NBad | NMore => NMore
    end.
End NSGA2.
