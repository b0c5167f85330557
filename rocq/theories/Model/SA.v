(** Model of ens::SA<CoolingScheduleType>::Optimize.
    File: /repo/include/ensmallen_bits/sa/sa_impl.hpp. *)
From Coq Require Import List Arith Bool ZArith.
From Verif.Base Require Import Num Vec.
From Verif.Model Require Import Common.
Import ListNotations.

(** x(idx) = a, in place *)
Fixpoint set_nth {A : Type} (i : nat) (a : A) (l : list A) : list A :=
  match l, i with
  | [], _ => []
  | _ :: r, O => a :: r
  | b :: r, S j => b :: set_nth j a r
  end.

Section SA.
  Context {N : Num}.
  Notation vec := (list N).
  Notation ev := (ev N vec vec).
  Variables (maxIterations initMoves moveCtrlSweep maxToleranceSweep : nat).
  Variables (tolerance maxMoveCoef initMoveCoef gain target : N).    (* target = 0.44 (228) *)
  Variable next : N -> N -> N.                     (* coolingSchedule.NextTemperature *)
  Variables (lg ex : N -> N).                      (* std::log, std::exp *)
  Variable f : vec -> N.
  Variable rnd : nat -> N * N.                     (* the two arma::randu() of move j (161, 174) *)
  Variable cb : CB N vec vec.
  Local Open Scope num_scope.
  Notation two := (nofZ 2).

  Record sst : Type := {
    sa_x : vec; sa_e : N; sa_t : N;                (* iterate, energy, temperature *)
    sa_idx : nat; sa_sweep : nat; sa_acc : vec; sa_size : vec;
    sa_j : nat;                                    (* moves made so far (position in the random stream) *)
    sa_tr : list ev
  }.

  (* 161-163 *)
  Definition laplace (size u : N) : N :=
    let unif := two * u - n1 in
    if nlt unif n0 then size * lg (n1 + unif) else - size * lg (n1 - unif).

  (** 220-241 *)
  Definition move_control (acc size : vec) : vec :=
    map2 (fun a s =>
      let s' := ex (lg s + gain * (a / nofnat moveCtrlSweep - target)) in
      if nlt maxMoveCoef s' then maxMoveCoef else s') acc size.

  (** 141-203; None is an out-of-bounds iterate(idx) *)
  Definition generate_move (s : sst) : option (sst * bool) :=
    match nth_error (sa_x s) (sa_idx s), nth_error (sa_size s) (sa_idx s), nth_error (sa_acc s) (sa_idx s) with
    | Some prev, Some size, Some a =>
        let '(u, xi) := rnd (sa_j s) in
        let y := set_nth (sa_idx s) (prev + laplace size u) (sa_x s) in
        let e := f y in
        let tr := Ev y e :: sa_tr s in
        let term := cs_stop cb tr in
        let delta := e - sa_e s in
        let keep := nle delta n0 || nlt xi (ex ((- delta) / sa_t s)) in         (* 178 *)
        let x' := if keep then y else set_nth (sa_idx s) prev y in              (* 184 *)
        let e' := if keep then e else sa_e s in
        let acc' := if keep then set_nth (sa_idx s) (a + n1) (sa_acc s) else sa_acc s in
        let wrap := (S (sa_idx s) =? length (sa_x s))%nat in                    (* 188-193 *)
        let idx' := if wrap then 0%nat else S (sa_idx s) in
        let sw := if wrap then S (sa_sweep s) else sa_sweep s in
        let ctrl := (sw =? moveCtrlSweep)%nat in                                (* 195-199 *)
        Some ({| sa_x := x'; sa_e := e'; sa_t := sa_t s; sa_idx := idx';
                 sa_sweep := if ctrl then 0%nat else sw;
                 sa_acc := if ctrl then map (fun _ => n0) acc' else acc';
                 sa_size := if ctrl then move_control acc' (sa_size s) else sa_size s;
                 sa_j := S (sa_j s); sa_tr := tr |}, term)
    | _, _, _ => None
    end.

  (* 83-89; [k] is the number of initial moves left *)
  Fixpoint init_moves (k : nat) (s : sst) (term : bool) : option (sst * bool) :=
    match k with
    | O => Some (s, term)
    | S k' => match generate_move s with
              | None => None
              | Some (s', t) => if term || t then Some (s', true) else init_moves k' s' false
              end
    end.

  Definition sa_done (s : sst) : Res N vec vec :=
    {| o_val := sa_e s; o_x := sa_x s; o_tr := rev (End (sa_x s) :: sa_tr s) |}.

  (* 92-122; [k] is the number of iterations left *)
  Fixpoint cooling (k : nat) (s : sst) (term : bool) (frozen : nat) : option (Res N vec vec * N) :=
    match k, term with
    | O, _ | _, true => Some (sa_done s, sa_t s)
    | S k', false =>
        match generate_move s with
        | None => None
        | Some (s1, true) => Some (sa_done s1, sa_t s1)                          (* 98-99 *)
        | Some (s1, false) =>
            let tr := St (sa_x s1) :: sa_tr s1 in
            let term' := cs_stop cb tr in
            let t' := next (sa_t s1) (sa_e s1) in                                (* 101 *)
            let s2 := {| sa_x := sa_x s1; sa_e := sa_e s1; sa_t := t'; sa_idx := sa_idx s1; sa_sweep := sa_sweep s1;
                         sa_acc := sa_acc s1; sa_size := sa_size s1; sa_j := sa_j s1; sa_tr := tr |} in
            let fr := if nlt (nabs (sa_e s1 - sa_e s)) tolerance then S frozen else 0%nat in   (* 105-108 *)
            if (maxToleranceSweep * moveCtrlSweep * length (sa_x s1) <=? fr)%nat               (* 111 *)
            then Some (sa_done s2, t') else cooling k' s2 term' fr
        end
    end.

  (** 48-128.  [t0] is the member temperature when Optimize() is called; the second
      component of the result is its value afterwards. *)
  Definition sa_optimize (t0 : N) (x : vec) : outc (Res N vec vec * N) :=
    let e := f x in
    let tr1 := [Ev x e] in
    let term := cs_stop cb tr1 in
    let s := {| sa_x := x; sa_e := e; sa_t := t0; sa_idx := 0; sa_sweep := 0;
                sa_acc := map (fun _ => n0) x; sa_size := map (fun _ => initMoveCoef) x;
                sa_j := 0; sa_tr := Begin x :: tr1 |} in
    match init_moves initMoves s term with
    | None => Bad
    | Some (s1, t1) => match cooling maxIterations s1 t1 0 with Some r => Ret r | None => Bad end
    end.
End SA.
