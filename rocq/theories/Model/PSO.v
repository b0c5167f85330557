(** Model of ens::PSOType::Optimize, LBestUpdate and DefaultInit.
    Files: /repo/include/ensmallen_bits/pso/pso_impl.hpp,
    pso/update_policies/lbest_update.hpp, pso/init_policies/default_init.hpp. *)
From Coq Require Import List Arith Bool ZArith.
From Verif.Base Require Import Num Vec.
From Verif.Model Require Import Common SA.
Import ListNotations.

Section Init.
  Context {N : Num}.
  Notation vec := (list N).
  Local Open Scope num_scope.
  (** default_init.hpp 75-88: the bounds actually used, n elements each.  (Bounds with
      more than one row are taken as they are; arma's broadcast comparison of a
      one-element bound with a longer one is not modelled.) *)
  Definition init_bounds (lower upper : vec) (n : nat) : vec * vec :=
    match lower, upper with
    | [l], [u] => if neq l u then (repeat (- n1) n, repeat n1 n) else (repeat (- l) n, repeat u n)
    | _, _ => (lower, upper)
    end.
  (** 97-102; [u] are uniform random numbers *)
  Definition init_position (lower upper u : vec) : vec := vadd (vmul u (vsub upper lower)) lower.
End Init.

Section LBest.
  Context {N : Num}.
  Notation vec := (list N).
  Local Open Scope num_scope.
  (** lbest_update.hpp 135-143: the first assignment is overwritten by the second *)
  Definition local_best (fit : list N) (i : nat) : nat :=
    let n := length fit in
    let right := ((i + 1) mod n)%nat in
    if nlt (nth right fit n0) (nth i fit n0) then right else i.
  (** 146-156; r1, r2 are the random vectors of particle i *)
  Definition lbest_velocity (chi c1 c2 : N) (r1 r2 : nat -> vec) (pos vel pb : list vec) (fit : list N) : list vec :=
    map (fun i => let p := nth i pos [] in
           vscale chi (vadd (vadd (nth i vel []) (vmul (vscale c1 (r1 i)) (vsub (nth i pb []) p)))
                            (vmul (vscale c2 (r2 i)) (vsub (nth (local_best fit i) pb []) p))))
        (seq 0 (length pos)).
End LBest.

Section PSO.
  Context {N : Num}.
  Notation vec := (list N).
  Notation ev := (ev N vec vec).
  Variables (maxIterations horizonSize : nat) (impTolerance : N).
  Variable f : vec -> N.
  (* VelocityUpdatePolicy: iteration, positions, velocities, personal bests and their values *)
  Variable velocity : nat -> list vec -> list vec -> list vec -> list N -> list vec.
  Variable cb : CB N vec vec.
  Local Open Scope num_scope.

  Record pst : Type := {
    p_pos : list vec; p_vel : list vec; p_pb : list vec; p_fit : list N;
    p_bp : nat; p_bf : N; p_tr : list ev
  }.

  (** 105-113; the fitness of a particle that is not evaluated stays max() *)
  Fixpoint pso_first (pos : list vec) (tr : list ev) (term : bool) : list N * list ev * bool :=
    match pos with
    | [] => ([], tr, term)
    | y :: r =>
        if term then (map (fun _ => nmax) pos, tr, term)
        else let tr1 := Ev y (f y) :: tr in
             let '(fit, tr2, t2) := pso_first r tr1 (cs_stop cb tr1) in (f y :: fit, tr2, t2)
    end.

  (** 131-146 (with brk) and 185-197 (without): evaluate and keep personal bests *)
  Fixpoint pso_eval (brk : bool) (pos pb : list vec) (fit : list N) (tr : list ev) (term : bool)
    : list vec * list N * list ev * bool :=
    match pos, pb, fit with
    | y :: pos', b :: pb', v :: fit' =>
        if term then (pb, fit, tr, term)
        else
          let tr1 := Ev y (f y) :: tr in
          let t1 := cs_stop cb tr1 in
          if brk && t1 then (pb, fit, tr1, t1)
          else
            let '(pb2, fit2, tr2, t2) := pso_eval brk pos' pb' fit' tr1 t1 in
            if nlt (f y) v then (y :: pb2, f y :: fit2, tr2, t2) else (b :: pb2, v :: fit2, tr2, t2)
    | _, _, _ => (pb, fit, tr, term)
    end.

  (** 157-164 and 208-215 *)
  Fixpoint pso_best (j : nat) (fit : list N) (bp : nat) (bf : N) : nat * N :=
    match fit with
    | [] => (bp, bf)
    | v :: r => if nlt v bf then pso_best (S j) r j v else pso_best (S j) r bp bf
    end.

  (** one iteration; the boolean is [terminate].  None: slice(bestParticle) does not exist *)
  Definition pso_iter (brk : bool) (it : nat) (s : pst) : option (pst * bool) :=
    let '(pb, fit, tr, t) := pso_eval brk (p_pos s) (p_pb s) (p_fit s) (p_tr s) false in
    let vel := velocity it (p_pos s) (p_vel s) pb fit in
    let pos := map2 vadd (p_pos s) vel in
    let '(bp, bf) := pso_best 0 fit (p_bp s) (p_bf s) in
    match nth_error pb bp with
    | None => None
    | Some b =>
        let tr' := St b :: tr in
        Some ({| p_pos := pos; p_vel := vel; p_pb := pb; p_fit := fit; p_bp := bp; p_bf := bf; p_tr := tr' |},
              t || cs_stop cb tr')
    end.

  (** 128-172: [k] iterations left; [q] is the queue, oldest first *)
  Fixpoint pso_horizon (k it : nat) (s : pst) (term : bool) (q : list N) : option (pst * bool * nat * list N) :=
    match k, term with
    | O, _ | _, true => Some (s, term, it, q)
    | S k', false => match pso_iter true it s with
                     | None => None
                     | Some (s', t) => pso_horizon k' (S it) s' t (q ++ [p_bf s'])
                     end
    end.

  (** 175-223 *)
  Fixpoint pso_rest (k it : nat) (s : pst) (term : bool) (q : list N) : option pst :=
    match k, term with
    | O, _ | _, true => Some s
    | S k', false =>
        match q with
        | [] => None                                   (* front() of an empty queue *)
        | front :: _ =>
            if nlt (front - last q front) impTolerance then Some s
            else match pso_iter false it s with
                 | None => None
                 | Some (s', t) => pso_rest k' (S it) s' t (tl q ++ [p_bf s'])
                 end
        end
    end.

  (** 40-229.  [pos0], [vel0] come from the init policy.  None: the runtime_error of line 66. *)
  Definition pso_optimize (pos0 vel0 : list vec) (x : vec) : option (outc (Res N vec vec)) :=
    if (maxIterations <? horizonSize)%nat then None
    else
      let '(fit, tr, t) := pso_first pos0 [Begin x] false in
      let s := {| p_pos := pos0; p_vel := vel0; p_pb := pos0; p_fit := fit; p_bp := 0; p_bf := nmax; p_tr := tr |} in
      Some (match pso_horizon horizonSize 0 s t [] with
            | None => Bad
            | Some (s1, t1, it, q) =>
                match pso_rest (maxIterations - horizonSize) it s1 t1 q with
                | None => Bad
                | Some s2 => match nth_error (p_pb s2) (p_bp s2) with
                             | None => Bad
                             | Some b => Ret {| o_val := p_bf s2; o_x := b; o_tr := rev (End b :: p_tr s2) |}
                             end
                end
            end).
End PSO.
