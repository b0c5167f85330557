(** Model of ens::ConstrLpBallSolver and of the group search in
    ens::ConstrStructGroupSolver.
    Files: /repo/include/ensmallen_bits/fw/constr_lpball.hpp, constr_structure_group.hpp.

    Vectors only (for a matrix arma::normalise works on each column).  arma::normalise takes its
    exponent as an unsigned integer, so it gets [pn], the integer part of p.  [pow]: arma::pow.  An
    infinite p is a value of its own. *)
From Coq Require Import List Arith Bool ZArith.
From Verif.Base Require Import Num Vec.
From Verif.Model Require Import Common SA.
Import ListNotations.

Inductive lp (N : Num) : Type := PInf | PNum (p : N).
Arguments PInf {N}. Arguments PNum {N}.

Section Lp.
  Context {N : Num}.
  Notation vec := (list N).
  Variable pow : N -> N -> N.

  (* arma::sign *)
  Definition nsign (x : N) : N := if nlt n0 x then n1 else if nlt x n0 then nopp n1 else n0.
  (* index_max(): the first of the largest elements; None: no elements *)
  Fixpoint index_max_from (l : vec) (i besti : nat) (best : N) : nat :=
    match l with
    | [] => besti
    | x :: r => if nlt best x then index_max_from r (S i) i x else index_max_from r (S i) besti best
    end.
  Definition index_max (l : vec) : option nat :=
    match l with [] => None | x :: r => Some (index_max_from r 1 0 x) end.
  (* arma::normalise(s, pn): divided by the pn-norm unless that is 0 *)
  Definition pnorm (p : N) (s : vec) : N := pow (vsum (map (fun x => pow (nabs x) p) s)) (ndiv n1 p).
  Definition normalise (p : N) (s : vec) : vec :=
    let n := pnorm p s in let n' := if neq n n0 then n1 else n in map (fun x => ndiv x n') s.

  (* division by lambda if there is a regularisation vector *)
  Definition by_lambda (lambda : option vec) (s : vec) : vec :=
    match lambda with None => s | Some l => vdiv s l end.

  (* constr_lpball.hpp 83-136; [s0]: what s was before *)
  Definition lpball (p : lp N) (pn : N) (lambda : option vec) (v s0 : vec) : outc vec :=
    match p with
    | PInf => Ret (by_lambda lambda (map (fun x => nopp (nsign x)) v))        (* 88-96 *)
    | PNum p =>
        if nlt n1 p then                                                      (* 98 *)
          let s := by_lambda lambda v in                                      (* 101-104 *)
          let q := ndiv n1 (nsub n1 (ndiv n1 p)) in                           (* 106 *)
          let t := map2 (fun x y => nmul (nopp (nsign x)) (pow (nabs y) (nsub q n1))) v s in  (* 107 *)
          Ret (by_lambda lambda (normalise pn t))                             (* 108-111 *)
        else if neq p n1 then                                                 (* 113 *)
          let s := map nabs (by_lambda lambda v) in                           (* 116-119 *)
          match index_max s with                                              (* 122 *)
          | None => Bad
          | Some k =>
              let vk := nth k v n0 in
              let z := nsub (if nlt n0 vk then n1 else n0) (if nlt vk n0 then n1 else n0) in  (* 125 *)
              Ret (by_lambda lambda (set_nth k (nopp z) (map (fun _ => n0) v)))  (* 123-128 *)
          end
        else Ret s0                                                           (* 130-133 *)
    end.

  (* constr_structure_group.hpp 90-109: the group with the largest dual norm; groups are
     numbered from 1, [dual i] is the dual norm of the projection to group i *)
  Fixpoint best_group (dual : nat -> N) (k i best : nat) (bestNorm : N) : nat :=
    match k with
    | O => best
    | S k' => if nlt bestNorm (dual i) then best_group dual k' (S i) i (dual i)  (* 102-106 *)
              else best_group dual k' (S i) best bestNorm
    end.

  (* GroupLpBall::ProjectToGroup (148-157); None: an index outside the vector *)
  Fixpoint project (v : vec) (ind : list nat) : option vec :=
    match ind with
    | [] => Some []
    | i :: r => match nth_error v i, project v r with Some a, Some y => Some (a :: y) | _, _ => None end
    end.
  (* 181-184 *)
  Fixpoint scatter (s : vec) (ind : list nat) (sProj : vec) : vec :=
    match ind, sProj with i :: r, a :: y => scatter (set_nth i a s) r y | _, _ => s end.
  (* 198-222; arma::norm takes its exponent as an unsigned integer, so it gets [qn] *)
  Definition dual_norm (p : lp N) (qn : N) (y : vec) : N :=
    match p with
    | PInf => vsum (map nabs y)                                               (* 204 *)
    | PNum p => if nlt n1 p then pnorm qn y                                   (* 210 *)
                else if neq p n1 then fold_left (fun m x => if nlt m (nabs x) then nabs x else m) y n0  (* 215 *)
                else n0                                                       (* 220 *)
    end.
  (* ConstrStructGroupSolver::Optimize (84-110) with GroupLpBall; [groups]: groupIndicesList *)
  Definition struct_group (p : lp N) (pn qn : N) (groups : list (list nat)) (dim : nat) (v s0 : vec) : outc vec :=
    let dual i := match project v (nth (i - 1) groups []) with Some y => dual_norm p qn y | None => n0 end in
    if forallb (fun ind => match project v ind with Some _ => true | None => false end) groups then
      match nth_error groups (best_group dual (length groups) 1 1 n0 - 1) with   (* 95-109 *)
      | None => Bad                                                           (* no group at all *)
      | Some ind =>
          match project v ind with
          | None => Bad
          | Some y =>
              match lpball p pn None y (repeat n0 (length y)) with            (* 172-176 *)
              | Ret sp => if forallb (fun i => i <? dim) ind then Ret (scatter (repeat n0 dim) ind sp) else Bad
              | _ => Bad
              end
          end
      end
    else Bad.
End Lp.
