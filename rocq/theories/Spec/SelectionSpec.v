(** Vocabulary for the survivor selection of NSGA-II: crowding distances over the
    real numbers, as the literature defines them. *)
From Coq Require Import List Arith Reals.
From Verif.Base Require Import Num Vec Instances.
Import ListNotations.
Local Open Scope R_scope.

(** objective m of member i of a table of objectives *)
Definition fval (objs : list (list R)) (m i : nat) : R := nth m (nth i objs []) 0.

(** no two members of the front agree in one of the M objectives *)
Definition tie_free (objs : list (list R)) (M : nat) (F : list nat) : Prop :=
  forall m i j, (m < M)%nat -> In i F -> In j F -> fval objs m i = fval objs m j -> i = j.

(** member i has the least or the largest value of objective m in the front *)
Definition extreme (objs : list (list R)) (F : list nat) (m i : nat) : Prop :=
  (forall j, In j F -> fval objs m i <= fval objs m j) \/ (forall j, In j F -> fval objs m j <= fval objs m i).

(** the distance between the neighbours of i in objective m, as a fraction of the
    range of that objective over the front *)
Definition gap (objs : list (list R)) (F : list nat) (m i : nat) (g : R) : Prop :=
  exists below above least largest,
    In below F /\ In above F /\ In least F /\ In largest F /\
    fval objs m below < fval objs m i < fval objs m above /\
    (forall j, In j F -> fval objs m j <= fval objs m below \/ fval objs m i <= fval objs m j) /\
    (forall j, In j F -> fval objs m j <= fval objs m i \/ fval objs m above <= fval objs m j) /\
    (forall j, In j F -> fval objs m least <= fval objs m j <= fval objs m largest) /\
    g = (fval objs m above - fval objs m below) / (fval objs m largest - fval objs m least).

(** c is the crowding distance of member i: at least [mx] if it is extreme in some
    objective, the sum of its gaps otherwise *)
Definition crowding_distance (mx : R) (objs : list (list R)) (M : nat) (F : list nat) (i : nat) (c : R) : Prop :=
  (exists m, (m < M)%nat /\ extreme objs F m i) /\ mx <= c \/
  (forall m, (m < M)%nat -> ~ extreme objs F m i) /\
  exists gs, length gs = M /\ (forall m, (m < M)%nat -> gap objs F m i (nth m gs 0)) /\ c = fold_right Rplus 0 gs.

(** two different members of the list differ by more than eps in some coordinate *)
Definition apart (eps : R) (l : list (list R)) : Prop :=
  forall p q, In p l -> In q l -> p <> q ->
    exists k a b, nth_error p k = Some a /\ nth_error q k = Some b /\ eps < Rabs (a - b).
