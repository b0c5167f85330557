(** Vocabulary for AGE-MOEA. *)
From Coq Require Import List Arith Bool Permutation Sorted.
From Verif.Base Require Import Num Vec.
From Verif.Model Require Import NSGA2 AGEMOEA.
From Verif.Spec Require Import ParetoSpec NSGA2Spec.
Import ListNotations.

(** what the random draws for a pair of children look like *)
Definition good_adraws {N : Num} (n d : nat) (w : @adraws N) : Prop :=
  a_a w < n /\ a_b w < n /\ length (a_us1 w) = d /\ length (a_us2 w) = d /\ length (a_us3 w) = d /\
  length (a_ma w) = d /\ length (a_mb w) = d.

(** i is the first member of the population that no member dominates *)
Definition first_best {N : Num} (fs : list (list N -> N)) (pop : list (list N)) (i : nat) : Prop :=
  best_in fs pop i /\ forall j, j < i -> ~ best_in fs pop j.

(** a comparison std::sort accepts: a strict weak ordering of the elements of [l] *)
Definition strict_weak {A : Type} (lt : A -> A -> bool) (l : list A) : Prop :=
  (forall a, In a l -> lt a a = false) /\
  (forall a b c, In a l -> In b l -> In c l -> lt a b = true -> lt b c = true -> lt a c = true) /\
  (forall a b c, In a l -> In b l -> In c l -> lt a b = false -> lt b c = false -> lt a c = false).
(** what std::sort promises: a permutation and, given a strict weak ordering, no
    element after a larger one *)
Definition is_sort {A : Type} (sort : (A -> A -> bool) -> list A -> list A) : Prop :=
  (forall lt l, Permutation (sort lt l) l) /\
  (forall lt l, strict_weak lt l -> StronglySorted (fun a b => lt b a = false) (sort lt l)).

Section Age.
  Context {N : Num}.
  Notation vec := (list N).

  (** Settings AGEMOEA is meant for: at least four individuals, at least one
      generation, bounds that leave room, draws of the right shape, objectives that
      never return NaN and a std::sort that permutes. *)
  Record age_good (n maxGen : nat) (lb ub : vec) (fs : list (vec -> N)) (init : nat -> vec) (rnd : nat -> nat -> @adraws N)
    (sortp : (vec -> vec -> bool) -> list vec -> list vec) (x : vec) : Prop := {
    ag_n : 4 <= n;
    ag_gen : 1 <= maxGen;
    ag_bounds : proper_bounds (length x) (spread (length x) lb) (spread (length x) ub);
    ag_init : forall i, length (init i) = length x;
    ag_draws : forall g j, good_adraws n (length x) (rnd g j);
    ag_nan : forall f y, In f fs -> nisnan (f y) = false;
    ag_sort : forall c l, Permutation (sortp c l) l
  }.

  (** What a call that returns reports.  [q_merged] are the parents (first) and the
      children of the last generation.
      - ParetoSet() has n slices, taken from them; slice i of ParetoFront() holds the
        objectives of slice i of ParetoSet();
      - everything is within the bounds;
      - the iterate is the slice at the position at which the first non-dominated
        one of the parents and children stood;
      - no sum of objectives over a slice of ParetoFront() is below the returned value;
      - the callbacks see one BeginOptimization, at most maxGen generations, one
        EndOptimization, and the generation at which they ask to stop is the last. *)
  Definition age_reported (n maxGen : nat) (lb ub : vec) (fs : list (vec -> N)) (stop : list (nev N) -> bool) (x : vec) (r : @ares N) : Prop :=
    let lo := spread (length x) lb in
    let hi := spread (length x) ub in
    length (q_set r) = n /\
    (exists dropped, Permutation (q_set r ++ dropped) (q_merged r)) /\
    q_front r = map (objv fs) (q_set r) /\
    (forall p, In p (q_x r :: q_set r ++ q_merged r) -> within lo hi p) /\
    (exists i, first_best fs (q_merged r) i /\ nth_error (q_set r) i = Some (q_x r)) /\
    (forall p, In p (q_set r) -> nlt (vsum (objv fs p)) (q_val r) = false) /\
    (exists gens, q_tr r = NBegin x :: rev gens ++ [NEnd (q_x r)] /\
       (forall e, In e gens -> is_gen e = true) /\ 1 <= length gens <= maxGen /\
       (forall e newer older, gens = newer ++ e :: older -> newer <> [] -> stop (e :: older ++ [NBegin x]) = false) /\
       (length gens < maxGen -> stop (gens ++ [NBegin x]) = true)).

  (** Arithmetic in which the scores make sense: inf is a number, -inf is below -1, and the sum of two
      numbers that are zero, or not negative and below inf, is above -1. *)
  Record score_laws (inf : N) : Prop := {
    sl_num : nisnan inf = false;
    sl_bottom : nlt (nopp inf) (nopp n1) = true;
    sl_sum : forall a b : N, (a = n0 \/ (nlt a n0 = false /\ nlt a inf = true)) -> (b = n0 \/ (nlt b n0 = false /\ nlt b inf = true)) ->
             nlt (nopp n1) (nadd a b) = true
  }.
End Age.
