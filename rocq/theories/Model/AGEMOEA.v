(** Model of ens::AGEMOEA::Optimize.
    File: /repo/include/ensmallen_bits/agemoea/agemoea_impl.hpp.
    The iterate is a column vector (Mutate() only reaches the first n_rows elements);
    random draws, std::sort, the objective functions, std::pow, std::log and
    arma::solve are parameters; conversions between element types are dropped.
    Pareto.v has FastNonDominatedSort and Dominates, NSGA2.v the parts the two
    optimizers share ([spread], [clip], [other], [evaluate], [approx_equal],
    [find_last], [resize], [performance] and the events). *)
From Coq Require Import List Arith Bool ZArith.
From Verif.Base Require Import Num Vec.
From Verif.Model Require Import SA Pareto NSGA2.
Import ListNotations.

Section AGEMOEA.
  Context {N : Num}.
  Notation vec := (list N).
  Variables (populationSize maxGenerations : nat).
  Variables (crossoverProb distributionIndex epsilon eta : N).
  Variables (lowerBound upperBound : vec).           (* as given to the constructor *)
  Variable fs : list (vec -> N).                     (* the tuple of objectives *)
  Variable stop : list (nev N) -> bool.              (* GenerationalStepTaken, given the history (newest first) *)
  Variable pw : N -> N -> N.                         (* std::pow *)
  Variable lg : N -> N.                              (* std::log *)
  Variable solve : list vec -> option vec.           (* arma::solve(extremes.t(), ones); None: it throws *)
  Variables (inf tiny14 tiny10 tiny6 : N).           (* datum::inf, 1e-14, 1e-10, 1e-6 *)

  (** The draws for one pair of children: the two parents (291-292), the decision for
      the crossover (306), the three matrices of Crossover() (358, 375, 378) and, for
      every gene of either child, the two numbers of Mutate() (396, 406). *)
  Record adraws : Type := { a_a : nat; a_b : nat; a_u : N; a_us1 : vec; a_us2 : vec; a_us3 : vec;
                            a_ma : list (N * N); a_mb : list (N * N) }.
  Variable init : nat -> vec.                        (* randu of 133 for individual i *)
  Variable rnd : nat -> nat -> adraws.               (* generation, pair *)
  Variable sortp : (vec -> vec -> bool) -> list vec -> list vec.   (* std::sort (182) *)

  Local Open Scope num_scope.
  Notation two := (nofZ 2).
  Definition half : N := n1 / two.
  Definition ind (b : bool) : N := if b then n1 else n0.

  (** 339-382 for one gene, past the test of 342: the genes of the two children.
      [betaq2] takes its first half from mask1 (365). *)
  Definition cross_gene (lo hi a b u1 u2 u3 : N) : N * N :=
    let mn := if nlt b a then b else a in
    let mx := if nlt a b then b else a in
    let d0 := mx - mn in
    let diff := if nlt d0 tiny10 then tiny10 else d0 in                            (* 348-350 *)
    let beta1 := n1 + two * (mn - lo) / diff in
    let beta2 := n1 + two * (hi - mx) / diff in
    let alpha1 := two - pw beta1 (- (eta + n1)) in
    let alpha2 := two - pw beta2 (- (eta + n1)) in
    let mask1 := nlt (n1 / alpha1) u1 in
    let mask2 := nlt (n1 / alpha2) u1 in
    let e := n1 / (eta + n1) in
    let betaq1 := pw (u1 * alpha1) e * ind (negb mask1) + pw (n1 / (two - u1 * alpha1)) e * ind mask1 in
    let betaq2 := pw (u1 * alpha2) e * ind (negb mask1) + pw (n1 / (two - u1 * alpha2)) e * ind mask2 in
    let c1 := clip1 lo hi (half * ((mn + mx) - betaq1 * diff)) in
    let c2 := clip1 lo hi (half * ((mn + mx) + betaq2 * diff)) in
    let a0 := a * ind (nle u2 half) in                                             (* 376-377 *)
    let b0 := b * ind (nle u2 half) in
    let a1 := a0 + c1 * (ind (nle u3 half) * ind (neq a0 n0)) in                   (* 379-382 *)
    let a2 := a1 + c2 * (ind (nlt half u3) * ind (neq a1 n0)) in
    let b1 := b0 + c2 * (ind (nle u3 half) * ind (neq b0 n0)) in
    let b2 := b1 + c1 * (ind (nlt half u3) * ind (neq b1 n0)) in
    (a2, b2).
  Fixpoint cross_genes (lo hi a b u1 u2 u3 : vec) : list (N * N) :=
    match lo, hi, a, b, u1, u2, u3 with
    | l :: lo, h :: hi, x :: a, y :: b, p :: u1, q :: u2, r :: u3 =>
        cross_gene l h x y p q r :: cross_genes lo hi a b u1 u2 u3
    | _, _, _, _, _, _, _ => []
    end.

  (** 326-383.  The children are the parents if in some gene the first parent is not
      larger than the second (342: accu() of the comparison is not zero). *)
  Definition crossover (lo hi a b : vec) (w : adraws) : vec * vec :=
    if existsb (fun d => nlt d tiny14) (vsub a b) then (a, b)
    else let g := cross_genes lo hi a b (a_us1 w) (a_us2 w) (a_us3 w) in (map fst g, map snd g).

  (** 395-422: one gene *)
  Definition mutate_gene (rate lo hi x : N) (u : N * N) : N :=
    if nlt rate (fst u) then x
    else
      let range := hi - lo in
      let lowerDelta := (x - lo) / range in
      let upperDelta := (hi - x) / range in
      let power := n1 / (distributionIndex + n1) in
      let r := snd u in
      let factor :=
        if nlt r half
        then pw (two * r + (n1 - two * r) * pw upperDelta (distributionIndex + n1)) power - n1
        else n1 - pw (two * (n1 - r) + two * (r - half) * pw lowerDelta (distributionIndex + n1)) power in
      x + factor * range.
  Fixpoint mutate_genes (rate : N) (lo hi x : vec) (us : list (N * N)) : vec :=
    match lo, hi, x, us with
    | l :: lo, h :: hi, a :: x, u :: us => mutate_gene rate l h a u :: mutate_genes rate lo hi x us
    | _, _, _, _ => []
    end.
  (** 387-425 *)
  Definition mutate (lo hi x : vec) (us : list (N * N)) : vec :=
    clip lo hi (mutate_genes (n1 / nofnat (length x)) lo hi x us).

  (** 282-322 *)
  Fixpoint children (fuel gen j : nat) (lo hi : vec) (pop acc : list vec) : nout (list vec) :=
    if Nat.ltb (length acc) (length pop) then
      match fuel with
      | O => NMore
      | S fuel =>
          let w := rnd gen j in
          match nth_error pop (a_a w), nth_error pop (other populationSize (a_a w) (a_b w)) with
          | Some pa, Some pb =>
              let '(ca, cb) := if nle (a_u w) crossoverProb then crossover lo hi pa pb w else (pa, pb) in
              children fuel gen (j + 1) lo hi pop
                (acc ++ [mutate lo hi ca (a_ma w); mutate lo hi cb (a_mb w)])
          | _, _ => NBad
          end
      end
    else NRet acc.

  (** ** SurvivalScoreAssignment *)
  Notation M := (length fs).
  Definition row (objs : list vec) (front : list nat) (i : nat) : vec := nth (nth i front 0%nat) objs [].
  Definition sqsum (v : vec) : N := vsum (map (fun e => e * e) v).
  Definition ones : vec := repeat n1 M.

  (** arma::index_min and index_max: the first best element that is better than
      +inf (-inf); NaNs never are *)
  Fixpoint index_min_from (i best : nat) (b : N) (l : vec) : nat :=
    match l with
    | [] => best
    | v :: l => if nlt v b then index_min_from (S i) i v l else index_min_from (S i) best b l
    end.
  Definition index_min (l : vec) : nat := index_min_from 0 0 inf l.
  Fixpoint index_max_from (i best : nat) (b : N) (l : vec) : nat :=
    match l with
    | [] => best
    | v :: l => if nlt b v then index_max_from (S i) i v l else index_max_from (S i) best b l
    end.
  Definition index_max (l : vec) : nat := index_max_from 0 0 (- inf) l.

  (** 560-582, from the origin (both callers) to [b] *)
  Definition line_distance (b p : vec) : N :=
    let t := vdot p b / vdot b b in sqsum (vsub p (vscale t b)).
  Definition line_distances (objs : list vec) (front : list nat) (b : vec) : vec :=
    map (fun i => line_distance b (row objs front i)) (seq 0 (length front)).

  (** 530-557; [front.size() >= M] at the call *)
  Definition axis (i : nat) : vec := map (fun j => (if Nat.eqb i j then n1 else n0) + tiny6) (seq 0 M).
  Fixpoint extremes_from (k i : nat) (objs : list vec) (front : list nat) (selected : list nat) : list nat :=
    match k with
    | O => []
    | S k =>
        let d := map (fun jv => if existsb (Nat.eqb (fst jv)) selected then inf else snd jv)
                   (combine (seq 0 (length front)) (line_distances objs front (axis i))) in
        let e := index_min d in
        e :: extremes_from k (S i) objs front (e :: selected)
    end.
  Definition find_extreme_points (objs : list vec) (front : list nat) : list nat :=
    if Nat.leb (length front) M then seq 0 (length front) else extremes_from M 0 objs front [].

  (** arma::max(vectorizedObjectives, 1) *)
  Definition vmax2 (a b : vec) : vec := map2 (fun x y => if nlt x y then y else x) a b.
  Definition column_max (objs : list vec) (front : list nat) : vec :=
    match map (fun k => nth k objs []) front with [] => [] | r :: l => fold_left vmax2 l r end.

  Fixpoint nodupb (l : list nat) : bool :=
    match l with [] => true | a :: l => negb (existsb (Nat.eqb a) l) && nodupb l end.

  (** 427-484 *)
  Definition no_zero (v : vec) : vec := map (fun e => e + ind (neq e n0)) v.
  Definition normalize_front (objs : list vec) (front extreme : list nat) : vec :=
    if Nat.ltb (length front) M then column_max objs front
    else if negb (nodupb extreme) then column_max objs front
    else match solve (map (row objs front) extreme) with
         | None => no_zero (column_max objs front)
         | Some h =>
             if existsb nisinf h || existsb nisnan h || existsb (fun e => nlt e n0) h
             then no_zero (column_max objs front)
             else let inv := map (fun e => n1 / e) h in
                  if existsb nisinf inv || existsb nisnan inv
                  then no_zero (column_max objs front) else no_zero inv
         end.

  (** 486-509 *)
  Definition geometry (objs : list vec) (front extreme : list nat) : N :=
    let d := fold_left (fun d e => set_nth e inf d) extreme (line_distances objs front ones) in
    let avg := vsum (row objs front (index_min d)) / nofnat M in
    let p := lg (nofnat M) / lg (n1 / avg) in
    if nle p (n1 / nofZ 10) || nisnan p then n1 else p.

  (** (sum |v_i|^p)^(1/p), as in 523, 768-769 and 793-795 *)
  Definition pnorm (p : N) (v : vec) : N := pw (vsum (map (fun e => pw (nabs e) p) v)) (n1 / p).

  (** 512-527 and 766-770: element (i, j) of the matrix [pairwise] *)
  Definition pairwise (objs : list vec) (front : list nat) (p : N) (i j : nat) : N :=
    (if Nat.eqb i j then n0
     else let a := Nat.min i j in let b := Nat.max i j in
          pnorm p (vsub (row objs front a) (row objs front b)))
    / pnorm p (row objs front j).

  (** 672-698; [selected] is in ascending order (a std::set) *)
  Definition diversity (dist : nat -> nat -> N) (selected : list nat) (s : nat) : N :=
    let '(m, m1) := fold_left (fun st k =>
        let '(m, m1) := st in
        if Nat.eqb k s then st
        else if nlt (dist s k) m then (dist s k, m)
        else if nlt (dist s k) m1 then (m, dist s k)
        else st) selected (inf, inf) in
    (if neq m inf then n0 else m) + (if neq m1 inf then n0 else m1).

  (** 772-784: the while loop; [k] is fuel *)
  Definition others (n : nat) (selected : list nat) : list nat :=
    filter (fun i => negb (existsb (Nat.eqb i) selected)) (seq 0 n).
  Fixpoint survive (k : nat) (dist : nat -> nat -> N) (front : list nat) (selected : list nat) (score : vec) : option vec :=
    match others (length front) selected with
    | [] => Some score
    | _ =>
        match k with
        | O => None
        | S k =>
            let value := map (fun i => if existsb (Nat.eqb i) selected then - n1
                                       else diversity dist (filter (fun j => existsb (Nat.eqb j) selected) (seq 0 (length front))) i)
                             (seq 0 (length front)) in
            let index := index_max value in
            survive k dist front (index :: selected) (set_nth (nth index front 0%nat) (nth index value n0) score)
        end
    end.

  (** 724-728, 734-738 and 792: rewrite the objectives of a front *)
  Definition on_front (front : list nat) (g : vec -> vec) (objs : list vec) : list vec :=
    fold_left (fun o k => set_nth k (g (nth k o [])) o) front objs.

  Record sst : Type := { s_objs : list vec; s_score : vec; s_norm : vec; s_dim : N }.

  (** 701-799.  None: the while loop of 772 does not end within the fuel. *)
  Definition assign_first (fuel : nat) (ideal : vec) (front : list nat) (s : sst) : option sst :=
    if Nat.ltb (length front) M
    then Some {| s_objs := s_objs s; s_score := s_score s;
                 s_norm := normalize_front (s_objs s) front (repeat 0%nat M); s_dim := n1 |}
    else
      let objs1 := on_front front (fun o => vsub o ideal) (s_objs s) in
      let extreme := find_extreme_points objs1 front in
      let nrm := normalize_front objs1 front extreme in
      let objs2 := on_front front (fun o => map2 ndiv o nrm) objs1 in
      let score := fold_left (fun sc e => set_nth (nth e front 0%nat) inf sc) extreme (s_score s) in
      let p := geometry objs2 front extreme in
      match survive fuel (pairwise objs2 front p) front extreme score with
      | None => None
      | Some sc => Some {| s_objs := objs2; s_score := sc; s_norm := nrm; s_dim := p |}
      end.
  Definition assign_other (ideal : vec) (front : list nat) (s : sst) : sst :=
    let objs := on_front front (fun o => map2 ndiv o (s_norm s)) (s_objs s) in
    {| s_objs := objs;
       s_score := fold_left (fun sc k => set_nth k (n1 / pnorm (s_dim s) (vsub (nth k objs []) ideal)) sc) front (s_score s);
       s_norm := s_norm s; s_dim := s_dim s |}.

  (** 170-179: all fronts *)
  Definition assign (fuel : nat) (ideal : vec) (fronts : list (list nat)) (objs : list vec) : option sst :=
    let s := {| s_objs := objs; s_score := repeat n0 (length objs); s_norm := repeat n0 M; s_dim := n0 |} in
    match fronts with
    | [] => Some s
    | f0 :: rest => match assign_first fuel ideal f0 s with
                    | None => None
                    | Some s => Some (fold_left (fun s f => assign_other ideal f s) rest s)
                    end
    end.

  (** 803-815 *)
  Definition survival_operator (ranks : list nat) (score : vec) (p q : nat) : bool :=
    let rp := nth p ranks 0%nat in let rq := nth q ranks 0%nat in
    Nat.ltb rp rq || (Nat.eqb rp rq && nlt (nth q score n0) (nth p score n0)).

  (** arma::min(a, b), element-wise *)
  Definition vmin2 (a b : vec) : vec := map2 (fun x y => if nlt y x then y else x) a b.

  Record ast : Type := { g_pop : list vec; g_objs : list vec; g_fronts : list (list nat);
                         g_ranks : list nat; g_tr : list (nev N);
                         g_merged : list vec      (* ghost: parents and children of the last generation *) }.

  (** 146-208: one generation *)
  Definition generation (fuel gen : nat) (lo hi x : vec) (s : ast) : nout ast :=
    match children fuel gen 0 lo hi (g_pop s) [] with
    | NRet cs =>
        let pop := g_pop s ++ cs in
        let objs := fst (evaluate (length pop) fs 0 pop (repeat (repeat n0 M) (length pop), 0%nat)) in
        match fnds (length objs) (dom_at objs) fuel (resize 0%nat (length pop) (g_ranks s)) with
        | Some (fronts, ranks) =>
            match fronts with
            | (i :: f0) :: _ =>
                let ideal := fold_left (fun a k => vmin2 a (nth k objs [])) f0 (nth i objs []) in      (* 162-167 *)
                match assign fuel ideal fronts objs with
                | Some sc =>
                    let sorted := sortp (fun p q => survival_operator ranks (s_score sc) (find_last epsilon pop p) (find_last epsilon pop q)) pop in
                    NRet {| g_pop := resize [] populationSize sorted; g_objs := s_objs sc; g_fronts := fronts;
                            g_ranks := ranks; g_tr := NGen x (s_objs sc) fronts :: g_tr s; g_merged := pop |}
                | None => NMore
                end
            | _ => NBad                         (* fronts[0][0] does not exist *)
            end
        | None => NMore
        end
    | NThrow => NThrow | NBad => NBad | NMore => NMore
    end.

  Fixpoint generations (k : nat) (fuel gen : nat) (lo hi x : vec) (term : bool) (s : ast) : nout ast :=
    match k with
    | O => NRet s
    | S k =>
        if term then NRet s else
        match generation fuel gen lo hi x s with
        | NRet s' => generations k fuel (gen + 1) lo hi x (stop (g_tr s')) s'
        | e => e
        end
    end.

  Record ares : Type := {
    q_set : list vec;                 (* ParetoSet()   *)
    q_front : list vec;               (* ParetoFront() *)
    q_x : vec;                        (* the iterate on return *)
    q_val : N;                        (* the returned value *)
    q_merged : list vec;              (* parents and children of the last generation *)
    q_tr : list (nev N)               (* events, oldest first *)
  }.

  (** 67-249.  Without a generation the objective vectors that 210 writes to are empty. *)
  Definition optimize (fuel : nat) (x : vec) : nout ares :=
    if Nat.ltb populationSize 4 && negb (Nat.eqb (populationSize mod 4) 0) then NThrow else
    let d := length x in
    let lo := spread d lowerBound in
    let hi := spread d upperBound in
    let pop := map (fun i => clip lo hi (vadd (map (fun u => u - half) (init i)) x)) (seq 0 populationSize) in
    match generations maxGenerations fuel 1 lo hi x false
            {| g_pop := pop; g_objs := repeat [] populationSize; g_fronts := []; g_ranks := []; g_tr := [NBegin x];
               g_merged := [] |} with
    | NRet s =>
        match g_fronts s with
        | (i :: _) :: _ =>
            let objs := fst (evaluate (length (g_pop s)) fs 0 (g_pop s) (g_objs s, 0%nat)) in
            match nth_error (g_pop s) i with
            | Some xf =>
                NRet {| q_set := g_pop s; q_front := firstn (length (g_pop s)) objs; q_x := xf;
                        q_val := performance objs; q_merged := g_merged s; q_tr := rev (NEnd xf :: g_tr s) |}
            | None => NBad              (* population[fronts[0][0]] is past the end of the resized population *)
            end
        | _ => NBad                     (* no generation, or no population *)
        end
    | NThrow => NThrow | NBad => NBad | NMore => NMore
    end.
End AGEMOEA.
