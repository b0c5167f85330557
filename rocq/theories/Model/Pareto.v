(** Model of Pareto dominance, fast non-dominated sorting and the crowding
    comparison, as NSGA2 and AGEMOEA have them.
    Files: /repo/include/ensmallen_bits/nsga2/nsga2_impl.hpp (339-486) and
    /repo/include/ensmallen_bits/agemoea/agemoea_impl.hpp (592-668); the two
    copies of FastNonDominatedSort and of Dominates differ only in the bound of
    the population loops, which is the argument [n] below (populationSize in
    NSGA2, calculatedObjectives.size() in AGEMOEA). *)
From Coq Require Import List Arith Bool ZArith.
From Verif.Base Require Import Num Vec Size.
From Verif.Model Require Import SA.
Import ListNotations.

Section Dominates.
  Context {N : Num}.
  Local Open Scope num_scope.

  (** nsga2_impl.hpp 410-418: one objective *)
  Definition dom_step (st : bool * bool) (ab : N * N) : bool * bool :=
    let '(allBetterOrEqual, atleastOneBetter) := st in
    let '(a, b) := ab in
    if b <? a then (false, atleastOneBetter)
    else if a <? b then (allBetterOrEqual, true)
    else st.

  (** 400-421, for the objective vectors of the two candidates; every vector of
      calculatedObjectives has numObjectives elements (153), so the loop runs over
      the whole of both *)
  Definition dominates (P Q : list N) : bool :=
    let '(allBetterOrEqual, atleastOneBetter) := fold_left dom_step (combine P Q) (true, false) in
    allBetterOrEqual && atleastOneBetter.

  (** Dominates(calculatedObjectives, p, q) *)
  Definition dom_at (objs : list (list N)) (p q : nat) : bool :=
    dominates (nth p objs []) (nth q objs []).
End Dominates.

Section FNDS.
  Variable n : nat.
  Variable dom : nat -> nat -> bool.

  Definition upd {A : Type} (f : nat -> A) (k : nat) (v : A) : nat -> A :=
    fun x => if Nat.eqb x k then v else f x.

  (** size_t subtraction of one wraps at zero *)
  Definition dec (c : nat) : nat := match c with O => size_max | S c' => c' end.

  (** 355-361: dominated[p] (a std::set, so in ascending order) and dominationCount[p] *)
  Definition compare_all (p : nat) : list nat * nat :=
    fold_left (fun st q =>
        if dom p q then (fst st ++ [q], snd st)
        else if dom q p then (fst st, S (snd st))
        else st)
      (seq 0 n) ([], 0).

  Record fst_ : Type := { f_front : list nat; f_count : nat -> nat; f_ranks : list nat }.

  (** 352-367: member p in the first pass *)
  Definition first_visit (s : fst_) (p : nat) : fst_ :=
    let c := snd (compare_all p) in
    let s := {| f_front := f_front s; f_count := upd (f_count s) p c; f_ranks := f_ranks s |} in
    if Nat.eqb c 0
    then {| f_front := f_front s ++ [p]; f_count := f_count s; f_ranks := set_nth p 0 (f_ranks s) |}
    else s.

  (** 350-368 *)
  Definition first_pass (ranks : list nat) : fst_ :=
    fold_left first_visit (seq 0 n) {| f_front := []; f_count := fun _ => 0; f_ranks := ranks |}.

  (** 380-386 *)
  Definition visit (i : nat) (s : fst_) (q : nat) : fst_ :=
    let c := dec (f_count s q) in
    let s := {| f_front := f_front s; f_count := upd (f_count s) q c; f_ranks := f_ranks s |} in
    if Nat.eqb c 0
    then {| f_front := f_front s ++ [q]; f_count := f_count s; f_ranks := set_nth q (i + 1) (f_ranks s) |}
    else s.

  (** 374-388: nextFront from fronts[i] *)
  Definition next_front (i : nat) (front : list nat) (count : nat -> nat) (ranks : list nat) : fst_ :=
    fold_left (fun s p => fold_left (visit i) (fst (compare_all p)) s) front
      {| f_front := []; f_count := count; f_ranks := ranks |}.

  (** 370-395; [None] if the while loop has not ended within [fuel] turns.  Here
      [fronts] always has i + 1 entries. *)
  Fixpoint fnds_loop (fuel i : nat) (fronts : list (list nat)) (count : nat -> nat) (ranks : list nat)
    : option (list (list nat) * list nat) :=
    match fuel with
    | O => None
    | S fuel =>
        match nth i fronts [] with
        | [] => Some (removelast fronts, ranks)
        | front =>
            let s := next_front i front count ranks in
            fnds_loop fuel (i + 1) (fronts ++ [f_front s]) (f_count s) (f_ranks s)
        end
    end.

  (** FastNonDominatedSort(fronts, ranks, calculatedObjectives): fronts and ranks on return *)
  Definition fnds (fuel : nat) (ranks : list nat) : option (list (list nat) * list nat) :=
    let s := first_pass ranks in
    fnds_loop fuel 0 [f_front s] (f_count s) (f_ranks s).
End FNDS.
