(** Model of ens::Proximal.
    File: /repo/include/ensmallen_bits/fw/proximal/proximal_impl.hpp.

    Vectors only (arma::sort and arma::cumsum would work on each column of a matrix). *)
From Coq Require Import List Arith Bool ZArith.
From Verif.Base Require Import Num Vec.
From Verif.Model Require Import Common SA.
Import ListNotations.

Section Proximal.
  Context {N : Num}.
  Notation vec := (list N).

  (* arma::cumsum *)
  Fixpoint cumsum_from (acc : N) (l : vec) : vec :=
    match l with [] => [] | x :: r => let a := nadd acc x in a :: cumsum_from a r end.
  Definition cumsum (l : vec) : vec := match l with [] => [] | x :: r => x :: cumsum_from x r end.

  (* 50-56: the largest position (at most k - 1) with nu > 0; 0 if there is none *)
  Fixpoint find_rho (tau : N) (s c : vec) (k : nat) : nat :=
    match k with
    | O => 0
    | S rho =>
        let nu := nsub (nth rho s n0) (ndiv (nsub (nth rho c n0) tau) (nofZ (Z.of_nat (rho + 1)))) in  (* 53 *)
        if nlt n0 nu then rho else find_rho tau s c rho                       (* 54-55 *)
    end.

  (* 57: theta; None: infinity, the quotient of a positive number by rho = 0 *)
  Definition l1_theta (tau : N) (s : vec) : option N :=
    let c := cumsum s in let rho := find_rho tau s c (length s) in
    if rho =? 0 then None else Some (ndiv (nsub (nth rho c n0) tau) (nofZ (Z.of_nat rho))).

  (* 60-66 for one element; std::max(a, b) is a < b ? b : a, std::min(a, b) is b < a ? b : a *)
  Definition l1_shrink (theta : option N) (x : N) : N :=
    match theta with
    | None => n0                                                              (* max(-inf, 0), min(inf, 0) *)
    | Some t =>
        if nle n0 x then let a := nsub x t in if nlt a n0 then n0 else a
        else let a := nadd x t in if nlt n0 a then n0 else a
    end.

  (* ProjectToL1Ball (35-67); [sortd]: arma::sort(., "descend"), which fails on NaN.
     Without elements and with tau < 0 the code reads element simplexSum(-1). *)
  Definition project_l1 (sortd : vec -> vec) (v : vec) (tau : N) : outc vec :=
    let a := map nabs v in                                                    (* 38 *)
    if nle (vsum a) tau then Ret v                                            (* 41-42 *)
    else if existsb nisnan a then Bad                                         (* 44 *)
    else match v with [] => Bad | _ => Ret (map (l1_shrink (l1_theta tau (sortd a))) v) end.

  (* ProjectToL0Ball (74-81); [sort]: arma::sort_index, which fails on NaN; tau is an int and
     the number of elements to kill is computed as a 64-bit unsigned number *)
  Definition kill_all (idx : list nat) (v : vec) : vec := fold_left (fun u i => set_nth i n0 u) idx v.
  Definition project_l0 (sort : vec -> list nat) (v : vec) (tau : Z) : outc vec :=
    let a := map nabs v in
    if existsb nisnan a then Bad                                              (* 76 *)
    else let kill := ((Z.of_nat (length v) - tau) mod 2 ^ 64)%Z in            (* 77 *)
         if (kill <=? Z.of_nat (length v))%Z then Ret (kill_all (firstn (Z.to_nat kill) (sort a)) v)  (* 79-80 *)
         else Bad.                                                            (* indices(n_elem): out of bounds *)
End Proximal.
