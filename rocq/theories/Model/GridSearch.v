(** Model of ens::GridSearch.
    File: /repo/include/ensmallen_bits/grid_search/grid_search_impl.hpp. *)
From Coq Require Import List Arith Bool.
From Verif.Base Require Import Num.
Import ListNotations.

Section GS.
  Context {N : Num}.
  (* FunctionType::Evaluate on a column of category numbers.  Simplification: the
     category numbers, stored as ElemType in the code, are natural numbers. *)
  Variable f : list nat -> N.

  Record gst : Type := {
    g_best : N;              (* bestObjective      *)
    g_params : list nat;     (* bestParameters     *)
    g_cur : list nat;        (* currentParameters  *)
    g_log : list (list nat)  (* points evaluated so far, oldest first *)
  }.

  (* currentParameters(i) = j *)
  Fixpoint set_nth (i j : nat) (l : list nat) : list nat :=
    match l, i with
    | [], _ => []
    | _ :: r, O => j :: r
    | a :: r, S i' => a :: set_nth i' j r
    end.

  (* 86-91 *)
  Definition gs_eval (s : gst) : gst :=
    let o := f (g_cur s) in
    if nlt o (g_best s)
    then {| g_best := o; g_params := g_cur s; g_cur := g_cur s; g_log := g_log s ++ [g_cur s] |}
    else {| g_best := g_best s; g_params := g_params s; g_cur := g_cur s; g_log := g_log s ++ [g_cur s] |}.

  (* 58-93: the recursive Optimize; [cats] are numCategories(i), numCategories(i+1), ... *)
  Fixpoint gs_rec (cats : list nat) (i : nat) (s : gst) : gst :=
    match cats with
    | [] => gs_eval s
    | c :: rest =>
        fold_left (fun s j =>
            gs_rec rest (S i) {| g_best := g_best s; g_params := g_params s;
                                 g_cur := set_nth i j (g_cur s); g_log := g_log s |})
          (seq 0 c) s
    end.

  (* 20-55.  [categorical] and [cats] have the same length ([cats] must have at least
     as many entries in the code).  The entries of currentParameters are not
     initialised (43); [junk] is what they hold.  [None]: invalid_argument (27-36). *)
  Definition grid_search (categorical : list bool) (cats junk : list nat) : option gst :=
    if forallb (fun b => b) categorical then
      Some (gs_rec cats 0 {| g_best := nmax; g_params := repeat 0 (length categorical);
                             g_cur := junk; g_log := [] |})
    else None.
End GS.
