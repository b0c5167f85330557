(** Model of the weight initialisation policies of MOEA/D.
    File: /repo/include/ensmallen_bits/moead/weight_init_policies/uniform_init.hpp.
    size_t arithmetic in the binomial coefficient is modulo 2^64 ([wrap]); the other
    counters are natural numbers. *)
From Coq Require Import List Arith Bool ZArith.
From Verif.Base Require Import Num Vec.
Import ListNotations.

Definition wrap (z : Z) : Z := (z mod 2 ^ 64)%Z.

(** 88-102, the loop from i to k; n as an integer *)
Fixpoint binom_loop (fuel : nat) (n i retval : Z) : Z :=
  match fuel with
  | O => retval
  | S fuel => binom_loop fuel n (i + 1) (wrap (retval * (n - i)) / (i + 1))%Z
  end.

(** 86-102 *)
Definition binomial_coefficient (n k : nat) : Z :=
  let k := if Nat.ltb (n - k) k then n - k else k in
  binom_loop k (Z.of_nat n) 0 1.

(** 80-104 *)
Definition num_uniform_points (numObjectives numPartitions : nat) : Z :=
  binomial_coefficient (numObjectives + numPartitions - 1) numPartitions.

(** 119-124; None: not finished within [fuel] turns *)
Fixpoint partitions_loop (fuel numObjectives : nat) (numPoints : Z) (numPartitions : nat) (sampled : Z) : option nat :=
  if (sampled <=? numPoints)%Z then
    match fuel with
    | O => None
    | S fuel =>
        partitions_loop fuel numObjectives numPoints (numPartitions + 1)
          (num_uniform_points numObjectives (numPartitions + 1))
    end
  else Some (numPartitions - 1).

(** 110-127; the first call of FindNumUniformPoints has its arguments the other way round *)
Definition find_partitions (fuel numObjectives : nat) (numPoints : Z) : option nat :=
  if Nat.eqb numObjectives 1 then Some 0
  else partitions_loop fuel numObjectives numPoints 1 (num_uniform_points 1 numObjectives).

Section DD.
  Context {N : Num}.
  Notation vec := (list N).

  (** 133-172.  The head of the list is the back of the stack; [out] are the columns
      written so far (so counter = length out).  None: fuel exhausted. *)
  Fixpoint helper (fuel : nat) (numObjectives numPoints : nat) (delta epsilon : N)
    (stack : list (vec * nat)) (out : list vec) : option (list vec) :=
    if Nat.ltb (length out) numPoints then
      match stack with
      | [] => Some out
      | (point, beta) :: rest =>
          match fuel with
          | O => None
          | S fuel =>
              if Nat.eqb (length point + 1) numObjectives then
                helper fuel numObjectives numPoints delta epsilon rest
                  (out ++ [map (fun a => nadd a epsilon) (point ++ [nmul delta (nofnat beta)])])
              else
                (* pushed for i = 0 .. beta, so the last one is on top *)
                helper fuel numObjectives numPoints delta epsilon
                  (map (fun i => (point ++ [nmul delta (nofnat i)], beta - i)) (rev (seq 0 (beta + 1))) ++ rest)
                  out
          end
      end
    else Some out.

  Inductive gen (A : Type) : Type := GRet (a : A) | GThrow | GMore.
  Arguments GRet {A}. Arguments GThrow {A}. Arguments GMore {A}.

  (** 179-201: columns that were not written stay NaN *)
  Definition das_dennis (fuel numObjectives numPoints numPartitions : nat) (nan epsilon : N) : gen (list vec) :=
    match helper fuel numObjectives numPoints (ndiv n1 (nofnat numPartitions)) epsilon [([], numPartitions)] [] with
    | Some cols => GRet (cols ++ repeat (repeat nan numObjectives) (numPoints - length cols))
    | None => GMore
    end.

  (** 51-73 *)
  Definition generate (fuel numObjectives numPoints : nat) (nan epsilon : N) : gen (list vec) :=
    match find_partitions fuel numObjectives (Z.of_nat numPoints) with
    | None => GMore
    | Some numPartitions =>
        if negb (Z.of_nat numPoints =? num_uniform_points numObjectives numPartitions)%Z then GThrow
        else das_dennis fuel numObjectives numPoints numPartitions nan epsilon
    end.
End DD.
Arguments GRet {A}. Arguments GThrow {A}. Arguments GMore {A}.

(** The two random policies: bbs_init.hpp and dirichlet_init.hpp in the same
    directory. *)
Section Random.
  Context {N : Num}.
  Notation vec := (list N).
  Variable sortv : vec -> vec.                       (* arma::sort *)

  (* arma::diff *)
  Fixpoint diffs (l : vec) : vec :=
    match l with
    | a :: ((b :: _) as r) => nsub b a :: diffs r
    | _ => []
    end.

  (** bbs_init.hpp 62-67 for one column; [u] are the numObjectives + 1 draws of randu *)
  Definition bbs_column (u : vec) (epsilon : N) : vec :=
    match u with
    | _ :: ((_ :: _) as r) =>
        map (fun a => nadd a epsilon) (diffs (sortv (n0 :: removelast r ++ [n1])))
    | _ => []                                        (* numObjectives = 0 *)
    end.

  (** dirichlet_init.hpp 46-49 for one column: arma::normalise(., 1) divides by the
      1-norm unless that is zero *)
  Definition dirichlet_column (g : vec) (epsilon : N) : vec :=
    let w := map (fun a => nadd a epsilon) g in
    let norm := vsum (map nabs w) in
    if neq norm n0 then w else map (fun a => ndiv a norm) w.
End Random.
