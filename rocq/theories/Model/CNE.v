(** Model of ens::CNE::Optimize (conventional neural evolution).
    File: /repo/include/ensmallen_bits/cne/cne_impl.hpp. *)
From Coq Require Import List Arith Bool ZArith.
From Verif.Base Require Import Num Size Vec SortIdx.
From Verif.Model Require Import Common SA DE.
Import ListNotations.

(** a - b on size_t *)
Definition sub64 (a b : nat) : nat := if b <=? a then a - b else S size_max - (b - a).

(** 64-87.  [fl] is floor(selectPercent * populationSize) (a negative one is undefined
    behaviour and not modelled).  None: one of the three logic_errors. *)
Definition cne_elite (P fl : nat) : option nat :=
  if P <? 4 then None else
  let e := if Nat.odd (sub64 P fl) then sub64 fl 1 else fl in
  if e <? 2 then None else if sub64 P e <? 2 then None else Some e.

Section CNE.
  Context {N : Num}.
  Notation vec := (list N).
  Notation ev := (ev N vec vec).
  Variables (P maxGenerations fl : nat) (mutationProb mutationSize tolerance inf : N).
  Variable f : vec -> N.
  Variable sort_index : list N -> list nat.                (* arma::sort_index *)
  Variable noise : nat -> vec.                             (* 95: initial randn *)
  Variable parents : nat -> nat -> nat * nat.              (* 184-188: the two randi of generation g, child pair i *)
  Variable coin : nat -> nat -> nat -> bool.               (* 226: random > 0.5 *)
  Variables (mu mz : nat -> nat -> vec).                   (* 251-254: randu and randn of generation g, rank i *)
  Variable cb : CB N vec vec.
  Local Open Scope num_scope.

  (** 222-238 *)
  Definition cross_child (c : nat -> bool) (a b : vec) : vec :=
    map (fun k => if c k then nth k a n0 else nth k b n0) (seq 0 (length a)).

  (** 216-239 *)
  Definition crossover2 (c : nat -> bool) (mom dad c1 c2 : nat) (pop : list vec) : list vec :=
    let a := nth mom pop [] in let b := nth dad pop [] in
    set_nth c2 (cross_child (fun k => negb (c k)) a b) (set_nth c1 (cross_child c a b) pop).

  (** 182-205: i runs from numElite to populationSize - 2; [k] pairs left *)
  Fixpoint breed (g e k i : nat) (idx : list nat) (pop : list vec) : list vec :=
    match k with
    | O => pop
    | S k' =>
        let '(m0, d0) := parents g i in
        let mom := (m0 mod e)%nat in let d := (d0 mod e)%nat in
        let dad := if (mom =? d)%nat then (if (d =? e - 1)%nat then d - 1 else S d)%nat else d in
        breed g e k' (S i) idx
          (crossover2 (coin g i) (nth mom idx 0%nat) (nth dad idx 0%nat) (nth i idx 0%nat) (nth (S i) idx 0%nat) pop)
    end.

  (** 251-254 *)
  Definition mutate1 (u z x : vec) : vec :=
    vadd x (map2 (fun u z => (if nlt u mutationProb then n1 else n0) * (mutationSize * z)) u z).

  (** 249-255: ranks i, i+1, ..., [k] of them *)
  Fixpoint mutate (g k i : nat) (idx : list nat) (pop : list vec) : list vec :=
    match k with
    | O => pop
    | S k' => let j := nth i idx 0%nat in
              mutate g k' (S i) idx (set_nth j (mutate1 (mu g i) (mz g i) (nth j pop [])) pop)
    end.

  (** 165-210 *)
  Definition reproduce (g e : nat) (idx : list nat) (pop : list vec) : list vec :=
    mutate g (P - 1) 1 idx (breed g e (P - 1 - e) e idx pop).

  (** 124-137 *)
  Fixpoint evaluate (pop : list vec) (tr : list ev) (term : bool) : list ev * bool :=
    match pop with
    | [] => (tr, term)
    | y :: r => let tr1 := St y :: tr in
                let tr2 := Ev y (f y) :: tr1 in
                evaluate r tr2 (term || cs_stop cb tr1 || cs_stop cb tr2)
    end.

  (** 121-151; [k] is the number of generations left.  The result is the population,
      the index vector (None: still empty) and the events.  sort_index() throws if it
      meets a NaN. *)
  Fixpoint cne_loop (e k g : nat) (pop : list vec) (idx : option (list nat)) (last : N) (tr : list ev) (term : bool)
    : outc (list vec * option (list nat) * list ev) :=
    match k, term with
    | O, _ | _, true => Ret (pop, idx, tr)
    | S k', false =>
        let '(tr1, t1) := evaluate pop tr false in
        let fit := map f pop in
        if existsb nisnan fit then Bad
        else
          let ix := sort_index fit in
          let pop1 := reproduce g e ix pop in
          if nlt (nabs (last - vmin inf fit)) tolerance then Ret (pop1, Some ix, tr1)
          else cne_loop e k' (S g) pop1 (Some ix) (vmin inf fit) tr1 t1
    end.

  (** 40-160 *)
  Definition cne_optimize (x : vec) : option (outc (Res N vec vec)) :=
    match cne_elite P fl with
    | None => None
    | Some e =>
        let pop := map (fun i => vadd (noise i) x) (seq 0 P) in
        let tr1 := [Ev x (f x)] in
        Some (match cne_loop e maxGenerations 1 pop None (f x) (Begin x :: tr1) (cs_stop cb tr1) with
              | Ret (pop', Some (i0 :: _), tr) =>
                  let xf := nth i0 pop' [] in
                  Ret {| o_val := f xf; o_x := xf; o_tr := rev (End xf :: Ev xf (f xf) :: tr) |}
              | Ret (_, _, _) => Bad             (* index(0) of an empty vector *)
              | Bad => Bad
              | More => More
              end)
    end.
End CNE.
