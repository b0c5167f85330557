(** Vocabulary for NSGA-II. *)
From Coq Require Import List Arith Permutation.
From Verif.Base Require Import Num Vec.
From Verif.Model Require Import NSGA2.
From Verif.Spec Require Import ParetoSpec.
Import ListNotations.

(** x has a coordinate for every bound and none of them is outside its bounds *)
Definition within {N : Num} (lo hi x : list N) : Prop :=
  length x = length lo /\
  forall i l h a, nth_error lo i = Some l -> nth_error hi i = Some h -> nth_error x i = Some a ->
    nlt a l = false /\ nlt h a = false.

(** bounds for d coordinates that leave room *)
Definition proper_bounds {N : Num} (d : nat) (lo hi : list N) : Prop :=
  length lo = d /\ length hi = d /\
  forall i l h, nth_error lo i = Some l -> nth_error hi i = Some h -> nlt h l = false.

(** the objectives of a point *)
Definition objv {N : Num} (fs : list (list N -> N)) (x : list N) : list N := map (fun f => f x) fs.

(** member i of a population is dominated by no member of it *)
Definition best_in {N : Num} (fs : list (list N -> N)) (pop : list (list N)) (i : nat) : Prop :=
  i < length pop /\ forall j, ~ beats (map (objv fs) pop) j i.

(** what the random draws for a pair of children look like: parents drawn from the
    population and matrices of the shape of the iterate *)
Definition good_draws {N : Num} (n d : nat) (w : @draws N) : Prop :=
  d_a w < n /\ d_b w < n /\ length (d_cross w) = d /\
  length (d_ua w) = d /\ length (d_na w) = d /\ length (d_ub w) = d /\ length (d_nb w) = d.

(** calls of Evaluate() for m objectives and n individuals: n + n^2 + ... + n^m *)
Fixpoint calls_for (n m : nat) : nat := match m with O => 0 | S m => n * (1 + calls_for n m) end.

(** the generations reported to the callbacks, and the history (newest first) at each *)
Definition is_gen {N : Num} (e : nev N) : bool := match e with NGen _ _ _ => true | _ => false end.

Section Nsga2.
  Context {N : Num}.
  Notation vec := (list N).

  (** Settings NSGA2 is meant for: at least four individuals, at least one generation,
      bounds that leave room, draws of the right shape, objectives that never return
      NaN, a std::sort that permutes; [fuel] bounds the while loops of the model. *)
  Record nsga2_good (n maxGen : nat) (lb ub : vec) (fs : list (vec -> N)) (init : nat -> vec) (rnd : nat -> nat -> @draws N)
    (sortp : (vec -> vec -> bool) -> list vec -> list vec) (fuel : nat) (x : vec) : Prop := {
    g_n : 4 <= n;
    g_gen : 1 <= maxGen;
    g_bounds : proper_bounds (length x) (spread (length x) lb) (spread (length x) ub);
    g_init : forall i, length (init i) = length x;
    g_draws : forall g j, good_draws n (length x) (rnd g j);
    g_nan : forall f y, In f fs -> nisnan (f y) = false;
    g_sort : forall c l, Permutation (sortp c l) l;
    g_fuel : n < fuel
  }.

  (** What a call reports, in terms of the last population whose objectives were
      evaluated ([r_parents]) and of the population it was replaced by ([r_pop]):
      - both have n members, and everything is within the bounds;
      - ParetoFront() lists the objectives of exactly the non-dominated members of
        the former, each once;
      - ParetoSet() lists the members of the latter at the same positions;
      - the iterate is the first of them;
      - the returned value is the least of the sums of objectives of the former and
        the sum of as many zeros;
      - the callbacks see one BeginOptimization, at most maxGen generations, one
        EndOptimization, and the generation at which they ask to stop is the last. *)
  Definition reported (n maxGen : nat) (lb ub : vec) (fs : list (vec -> N)) (stop : list (nev N) -> bool) (x : vec) (r : @nres N) : Prop :=
    let lo := spread (length x) lb in
    let hi := spread (length x) ub in
    length (r_parents r) = n /\ length (r_pop r) = n /\
    (forall p, In p (r_x r :: r_set r ++ r_pop r ++ r_parents r) -> within lo hi p) /\
    (exists idx, idx <> [] /\ NoDup idx /\ (forall i, In i idx <-> best_in fs (r_parents r) i) /\
       r_front r = map (fun i => objv fs (nth i (r_parents r) [])) idx /\
       r_set r = map (fun i => nth i (r_pop r) []) idx) /\
    Some (r_x r) = hd_error (r_set r) /\
    (forall p, In p (r_parents r) -> nlt (vsum (objv fs p)) (r_val r) = false) /\
    nlt (vsum (repeat n0 (length fs))) (r_val r) = false /\
    (r_val r = nmax \/ r_val r = vsum (repeat n0 (length fs)) \/
       exists p, In p (r_parents r) /\ r_val r = vsum (objv fs p)) /\
    (exists gens, r_tr r = NBegin x :: rev gens ++ [NEnd (r_x r)] /\
       (forall e, In e gens -> is_gen e = true) /\ length gens <= maxGen /\
       (forall e newer older, gens = newer ++ e :: older -> newer <> [] -> stop (e :: older ++ [NBegin x]) = false) /\
       (length gens < maxGen -> stop (gens ++ [NBegin x]) = true)).

End Nsga2.
