(** Vocabulary for MOEA/D. *)
From Coq Require Import List Arith Permutation.
From Verif.Base Require Import Num Vec SortIdx.
From Verif.Model Require Import Pareto NSGA2 MOEAD.
From Verif.Spec Require Import NSGA2Spec.
Import ListNotations.

Section Moead.
  Context {N : Num}.
  Notation vec := (list N).

  (** z has m components, each the least of that component over [objs] (or the largest
      number, if that is less) *)
  Definition least_of (m : nat) (z : vec) (objs : list vec) : Prop :=
    length z = m /\
    forall i zi, nth_error z i = Some zi ->
      nlt nmax zi = false /\
      (forall o v, In o objs -> nth_error o i = Some v -> nlt v zi = false) /\
      (zi = nmax \/ exists o, In o objs /\ nth_error o i = Some zi).

  (** [l] lists k positions other than [self], none of them farther from weight i than
      a position left out; [self] is a position at least as near as all of them *)
  Definition nearest (weights : list vec) (k i self : nat) (l : list nat) : Prop :=
    length l = k /\ NoDup l /\ ~ In self l /\ self < length weights /\
    (forall j, In j l -> j < length weights) /\
    let far j := dist (nth i weights []) (nth j weights []) in
    (forall j, j < length weights -> nlt (far j) (far self) = false) /\
    (forall j o, In j l -> o < length weights -> o <> self -> ~ In o l -> nlt (far o) (far j) = false).

  (** What one child does, given the points evaluated before it: it is within the
      bounds; the two other parents are different members; it is compared with members
      of its pool (the neighbours of its sub-problem, or everybody), each at most once,
      by the decomposed values of the two objective vectors under the weight of that
      member and the component-wise least objectives so far; it takes the place of
      exactly those it beats strictly; these are at most maxReplace, and if they are
      fewer then the whole pool was compared. *)
  Definition child_ok (n maxReplace : nat) (lo hi : vec) (apply : vec -> vec -> vec -> N) (weights : list vec)
      (fs : list (vec -> N)) (nbr : nat -> list nat) (seen : list vec) (c : child N) : Prop :=
    let pool := if c_nb c then nbr (c_sub c) else seq 0 n in
    let picks := map t_pick (c_trials c) in
    let won := map t_pick (filter (fun t => nlt (t_child t) (t_parent t)) (c_trials c)) in
    within lo hi (c_x c) /\
    c_a c <> c_b c /\ c_a c < n /\ c_b c < n /\ c_sub c < n /\
    least_of (length fs) (c_ideal c) (map (objv fs) (c_x c :: seen)) /\
    NoDup picks /\ (forall k, In k picks -> In k pool) /\
    (forall t, In t (c_trials c) -> exists w p,
       nth_error weights (t_pick t) = Some w /\ nth_error (c_old c) (t_pick t) = Some p /\
       t_child t = apply w (c_ideal c) (objv fs (c_x c)) /\ t_parent t = apply w (c_ideal c) (objv fs p)) /\
    length won <= maxReplace /\
    (length won < maxReplace -> forall k, In k pool -> In k picks) /\
    length (c_new c) = n /\
    (forall k, In k won -> nth_error (c_new c) k = Some (c_x c)) /\
    (forall k, ~ In k won -> nth_error (c_new c) k = nth_error (c_old c) k).

  (** The children of a run, one after the other, from a population to the last one. *)
  Fixpoint run_ok (n maxReplace : nat) (lo hi : vec) (apply : vec -> vec -> vec -> N) (weights : list vec)
      (fs : list (vec -> N)) (nbr : nat -> list nat) (pop seen : list vec) (log : list (child N)) (final : list vec) : Prop :=
    match log with
    | [] => final = pop
    | c :: r =>
        c_old c = pop /\ child_ok n maxReplace lo hi apply weights fs nbr seen c /\
        run_ok n maxReplace lo hi apply weights fs nbr (c_new c) (c_x c :: seen) r final
    end.

  (** Draws of the right kind. *)
  Definition good_mdraws (n ns d : nat) (neighborProb : N) (w : @mdraws N) : Prop :=
    (forall k, Permutation (w_shuf w k) (seq 0 k)) /\ length (w_blank w) = d /\
    let pool := if nlt (w_nb w) neighborProb then ns else n in w_a w < pool /\ w_b w < pool.

  (** Settings MOEA/D is meant for; at most as many objectives as individuals. *)
  Record moead_good (n ns : nat) (neighborProb : N) (lb ub : vec) (weights : list vec) (fs : list (vec -> N))
    (ssort : list N -> list nat) (init : nat -> vec) (shuf shuf_front : nat -> list nat)
    (rnd : nat -> nat -> @mdraws N) (x : vec) : Prop := {
    mg_n : 3 <= n;
    mg_ns : 2 <= ns;
    mg_ns2 : ns <= n - 1;
    mg_fs : length fs <= n;
    mg_bounds : proper_bounds (length x) (spread (length x) lb) (spread (length x) ub);
    mg_weights : length weights = n;
    mg_nan : forall u v, In u weights -> In v weights -> nisnan (dist u v) = false;
    mg_sort : forall l, no_nan l -> sorted_index l (ssort l);
    mg_init : forall i, length (init i) = length x;
    mg_shuf : forall g, Permutation (shuf g) (seq 0 n);
    mg_front : forall g, Permutation (shuf_front g) (seq 0 n);
    mg_draws : forall g j, good_mdraws n ns (length x) neighborProb (rnd g j)
  }.

  (** a report of the whole population *)
  Definition gen_event (n : nat) (lo hi : vec) (fs : list (vec -> N)) (x : vec) (e : nev N) : Prop :=
    exists pop idx, e = NGen x (map (objv fs) pop) [idx] /\ length pop = n /\
      (forall p, In p pop -> within lo hi p) /\ Permutation idx (seq 0 n).

  (** What a call reports: the children of [q_log] lead from the first population to
      ParetoSet(), in every generation one child for every sub-problem; ParetoFront()
      lists the objectives of ParetoSet(); the iterate is its first member; the value is
      the least sum of objectives of its first m members (m = number of objectives); the
      callbacks see one BeginOptimization, at most maxGen generations and one
      EndOptimization, and the generation at which they ask to stop is the last. *)
  Definition moead_reported (n ns maxGen maxReplace : nat) (lb ub : vec) (apply : vec -> vec -> vec -> N)
      (weights : list vec) (fs : list (vec -> N)) (stop : list (nev N) -> bool) (x : vec) (r : @mres N) : Prop :=
    let lo := spread (length x) lb in
    let hi := spread (length x) ub in
    length (q_init r) = n /\ length (q_set r) = n /\
    (forall p, In p (q_x r :: q_set r ++ q_init r) -> within lo hi p) /\
    (exists nbr self, (forall i, i < n -> nearest weights ns i (self i) (nbr i)) /\
       run_ok n maxReplace lo hi apply weights fs nbr (q_init r) (q_init r) (q_log r) (q_set r)) /\
    q_front r = map (objv fs) (q_set r) /\
    Some (q_x r) = hd_error (q_set r) /\
    (forall p, In p (firstn (length fs) (q_set r)) -> nlt (vsum (objv fs p)) (q_val r) = false) /\
    (q_val r = nmax \/ exists p, In p (firstn (length fs) (q_set r)) /\ q_val r = vsum (objv fs p)) /\
    (exists gens, q_tr r = NBegin x :: rev gens ++ [NEnd (q_x r)] /\
       (forall e, In e gens -> gen_event n lo hi fs x e) /\ length gens <= maxGen /\
       length (q_log r) = length gens * n /\
       (forall g, g < length gens -> Permutation (firstn n (skipn (g * n) (map c_sub (q_log r)))) (seq 0 n)) /\
       (forall e newer older, gens = newer ++ e :: older -> newer <> [] -> stop (e :: older ++ [NBegin x]) = false) /\
       (length gens < maxGen -> stop (gens ++ [NBegin x]) = true)).
End Moead.
