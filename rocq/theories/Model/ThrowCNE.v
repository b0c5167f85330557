(** The order in which CNE::Optimize() calls the function and the callbacks and writes to the
    iterate, which is a reference to the caller's matrix: the loops of Model/CNE.v again, as in
    Model/Throw.v.  A NaN fitness ends the list where sort_index() throws. *)
From Coq Require Import List Arith Bool.
From Verif.Base Require Import Num Size Vec SortIdx.
From Verif.Model Require Import Common SA DE CNE.
From Verif.Spec Require Import ThrowSpec.
Import ListNotations.

(** cne/cne_impl.hpp 89 (iterate refers to iterateIn), 113-162 *)
Section CNE.
  Context {N : Num}.
  Notation vec := (list N).
  Notation acts := (list (act vec (ev N vec vec))).
  Variables (P maxGenerations fl : nat) (mutationProb mutationSize tolerance inf : N).
  Variable f : vec -> N.
  Variable sort_index : list N -> list nat.
  Variable noise : nat -> vec.
  Variable parents : nat -> nat -> nat * nat.
  Variable coin : nat -> nat -> nat -> bool.
  Variables (mu mz : nat -> nat -> vec).
  Variable cb : CB N vec vec.

  (* 122-134 *)
  Fixpoint cne_eval_calls (pop : list vec) : acts :=
    match pop with
    | [] => []
    | y :: r => Put y :: Cb (St y) :: Fn y :: Cb (Ev y (f y)) :: cne_eval_calls r
    end.

  (* 119-152 *)
  Fixpoint cne_gen_calls (e k g : nat) (pop : list vec) (last : N) (tr : list (ev N vec vec)) (term : bool) : acts :=
    match k, term with
    | O, _ | _, true => []
    | S k', false =>
        let '(tr1, t1) := evaluate f cb pop tr false in
        let fit := map f pop in
        cne_eval_calls pop ++
        (if existsb nisnan fit then []
         else
           let ix := sort_index fit in
           if nlt (nabs (nsub last (vmin inf fit))) tolerance then []
           else cne_gen_calls e k' (S g) (reproduce P mutationProb mutationSize parents coin mu mz g e ix pop)
                  (vmin inf fit) tr1 t1)
    end.

  (* 113-162 *)
  Definition cne_log (x : vec) : acts :=
    match cne_elite P fl with
    | None => []                                                              (* 44-86: exceptions *)
    | Some e =>
        let pop := map (fun i => vadd (noise i) x) (seq 0 P) in
        let tr1 := [Ev x (f x)] in
        Fn x :: Cb (Ev x (f x)) :: Cb (Begin x) ::                            (* 113-118 *)
        cne_gen_calls e maxGenerations 1 pop (f x) (Begin x :: tr1) (cs_stop cb tr1) ++
        match cne_loop P mutationProb mutationSize tolerance inf f sort_index parents coin mu mz cb e maxGenerations 1 pop None
                (f x) (Begin x :: tr1) (cs_stop cb tr1) with
        | Ret (pop', Some (i0 :: _), _) =>
            let xf := nth i0 pop' [] in [Put xf; Fn xf; Cb (Ev xf (f xf)); Cb (End xf)]   (* 155-162 *)
        | _ => []
        end
    end.
End CNE.
