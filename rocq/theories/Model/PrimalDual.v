(** The primal-dual interior point solver for semidefinite programs.
    Models sdp/primal_dual_impl.hpp.  The linear algebra of Armadillo is given by oracles:
    [chol], [inv], [eigmax] (the largest of eig_sym()), [syl], [lsolve] and the norms. *)
From Coq Require Import List Arith Bool ZArith.
From Verif.Base Require Import Num Vec.
From Verif.Model Require Import Common Svec LRSDP.
Import ListNotations.

Section PD.
Context {N : Num}.
Variables sqrt2 half : N.
Notation matrix := (matrix (N := N)).

(** sdp/sdp.hpp: the members of SDP; n is C().n_rows *)
Record program := { pd_n : nat; pd_C : matrix; pd_sA : list matrix; pd_sB : list N; pd_dA : list matrix; pd_dB : list N }.
Variable p : program.
Notation n := (pd_n p).

(** Armadillo's elementwise operations, product and dot(); the summation order is simplified
    as in Model/LRSDP.v *)
Definition madd (A B : matrix) : matrix := fun i j => nadd (A i j) (B i j).
Definition msub (A B : matrix) : matrix := fun i j => nsub (A i j) (B i j).
Definition mscale (c : N) (A : matrix) : matrix := fun i j => nmul c (A i j).
Definition mneg (A : matrix) : matrix := fun i j => nopp (A i j).
Definition mtrans (A : matrix) : matrix := fun i j => A j i.
Definition mmul (A B : matrix) : matrix := fun i j => msum n (fun k => nmul (A i k) (B k j)).
Definition mdot (A B : matrix) : N := msum n (fun j => msum n (fun i => nmul (A i j) (B i j))).
Definition meye : matrix := fun i j => if Nat.eqb i j then n1 else n0.
Definition mv (rows : list (list N)) (v : list N) : list N := map (fun r => vdot r v) rows.
(** rows.t() * y, for rows of length len *)
Definition tmv (len : nat) (rows : list (list N)) (y : list N) : list N :=
  fold_left vadd (map2 vscale y rows) (repeat n0 len).

Variable chol : matrix -> option matrix.             (* arma::chol(l, a, "lower") *)
Variable inv : matrix -> option matrix.              (* arma::inv(lInv, trimatl(l)) *)
Variable eigmax : matrix -> option N.                (* the last element of eig_sym() *)
Variable syl : matrix -> matrix -> matrix -> matrix. (* x of arma::syl(x, a, b, c): a x + x b + c = 0 *)
Variable lsolve : list (list N) -> list N -> option (list N).   (* arma::solve() *)
Variable normv : list N -> N.                        (* arma::norm(v, 2) *)
Variable normF : matrix -> N.                        (* arma::norm(A, "fro") *)
Variable recip : N -> N.                             (* 1. / x *)

(** Alpha() (primal_dual_impl.hpp 61–86) *)
Definition alpha_of (tau ev : N) : N :=
  let h := recip ev in
  let h := if nlt h n0 then n1 else h in
  if nlt (nmul tau h) n1 then nmul tau h else n1.        (* std::min(1., tau * alphahat) *)
Definition alpha (tau : N) (a dA : matrix) : option N :=
  match chol a with
  | None => None
  | Some l =>
      match inv l with
      | None => None
      | Some li =>
          match eigmax (mmul (mmul (mneg li) dA) (mtrans li)) with
          | None => None
          | Some ev => Some (alpha_of tau ev)
          end
      end
  end.

(** SolveLyapunov() (100–105) *)
Definition lyap (a h : matrix) : matrix := syl a a (mneg h).

Definition sv (A : matrix) : list N := svec sqrt2 n A.
(** math::Smat(); the vectors here have n (n + 1) / 2 elements, see C45 for others *)
Definition sm (v : list N) : matrix := match smat sqrt2 half v with Some (_, A) => A | None => fun _ _ => n0 end.
(** E^(-1) v: lines 148–150 and 180–182 *)
Definition einv (Z : matrix) (v : list N) : list N := sv (lyap Z (mscale (nofZ 2) (sm v))).

(** The constraint matrix (270–287).  Simplification: the sparse rows followed by the dense
    ones, as one matrix; the code keeps two and treats them in turn (154–157, 167–176). *)
Definition rows : list (list N) := map sv (pd_sA p ++ pd_dA p).

(** SolveKKTSystem() (124–187): dsX, dy and dsZ, or None for the exception (159–163) *)
Definition solve_kkt (Z : matrix) (m F : list (list N)) (rp rd rc : list N) : option (list N * list N * list N) :=
  let e := einv Z (vsub (mv F rd) rc) in
  let rhs := vadd rp (mv rows e) in
  match lsolve m rhs with
  | None => None
  | Some dy =>
      let sub := tmv (n * (n + 1) / 2) rows dy in
      let e' := einv Z (vsub (mv F (vsub rd sub)) rc) in
      Some (map nopp e', dy, vsub rd sub)
  end.

Record pstate := { ps_X : matrix; ps_ys : list N; ps_yd : list N; ps_Z : matrix; ps_obj : N }.

(** the rows of M (338–388): M = A E^(-1) F A^T *)
Definition schur_matrix (X Z : matrix) : list (list N) :=
  let g := map (fun A => sv (lyap Z (madd (mmul X A) (mmul A X)))) (pd_sA p ++ pd_dA p) in
  map (fun a => map (fun gk => vdot a gk) g) rows.

(** 322–331 *)
Definition primal_residual (X : matrix) : list N := vsub (pd_sB p ++ pd_dB p) (mv rows (sv X)).
(** 334 *)
Definition dual_residual (s : pstate) : list N :=
  vsub (vsub (sv (pd_C p)) (sv (ps_Z s))) (tmv (n * (n + 1) / 2) rows (ps_ys s ++ ps_yd s)).

(** the predictor's complementarity residual (397) and the corrector's (432–436) *)
Definition rc_predictor (X Z : matrix) : matrix :=
  mscale (nopp half) (madd (mmul X Z) (mmul Z X)).
Definition rc_corrector (mu : N) (X Z dX dZ : matrix) : matrix :=
  msub (mscale mu meye) (mscale half (madd (madd (madd (mmul X Z) (mmul Z X)) (mmul dX dZ)) (mmul dZ dX))).

Variable tau : N.
Variables normXzTol primalTol dualTol : N.

Inductive iter_out :=
  | IThrow                                              (* logic_error of SolveKKTSystem *)
  | IStop                                               (* Alpha() failed: EndOptimization, return primalObj *)
  | IStep (X : matrix) (s : pstate) (conv : bool).      (* the new state, and whether 507–508 holds *)

(** the linear systems of one iteration, given the right-hand side rc: dX, dy, dZ *)
Definition direction (s : pstate) (rc : matrix) : option (matrix * list N * matrix) :=
  match solve_kkt (ps_Z s) (schur_matrix (ps_X s) (ps_Z s)) (sym_kron_id sqrt2 half n (ps_X s))
          (primal_residual (ps_X s)) (dual_residual s) (sv rc) with
  | None => None
  | Some (dsx, dy, dsz) => Some (sm dsx, dy, sm dsz)
  end.

(** 500–504 *)
Definition dual_check (ys yd : list N) (Z : matrix) : matrix :=
  fold_left madd (map2 mscale (ys ++ yd) (pd_sA p ++ pd_dA p)) (msub Z (pd_C p)).

(** 507–508 *)
Definition converged (X : matrix) (ys yd : list N) (Z : matrix) : bool :=
  let sp := normv (vsub (pd_sB p) (mv (map sv (pd_sA p)) (sv X))) in
  let de := normv (vsub (pd_dB p) (mv (map sv (pd_dA p)) (sv X))) in
  let primal := nsqrt (nadd (nmul sp sp) (nmul de de)) in
  nle (normF (mmul X Z)) normXzTol && nle primal primalTol && nle (normF (dual_check ys yd Z)) dualTol.

(** one pass of the loop (313–509) *)
Definition iteration (s : pstate) : iter_out :=
  let X := ps_X s in let Z := ps_Z s in
  match direction s (rc_predictor X Z) with                                     (* 397–402 *)
  | None => IThrow
  | Some (dX, _, dZ) =>
      match alpha tau X dX with                                                 (* 405–413 *)
      | None => IStop
      | Some a =>
          match alpha tau Z dZ with                                             (* 415–423 *)
          | None => IStop
          | Some b =>
              let sxdotsz := vdot (sv X) (sv Z) in                              (* 390 *)
              let q := ndiv (mdot (madd X (mscale a dX)) (madd Z (mscale b dZ))) sxdotsz in
              let sigma := nmul (nmul q q) q in                                 (* 426–428 *)
              let mu := ndiv (nmul sigma sxdotsz) (nofZ (Z.of_nat n)) in        (* 429 *)
              match direction s (rc_corrector mu X Z dX dZ) with                (* 432–441 *)
              | None => IThrow
              | Some (dX, dy, dZ) =>
                  match alpha tau X dX with                                     (* 442–449 *)
                  | None => IStop
                  | Some a =>
                      match alpha tau Z dZ with                                 (* 450–457 *)
                      | None => IStop
                      | Some b =>
                          let X' := madd X (mscale a dX) in                     (* 460 *)
                          let k := length (pd_sA p) in
                          let ys := vadd (ps_ys s) (vscale b (firstn k dy)) in  (* 464–465 *)
                          let yd := vadd (ps_yd s) (vscale b (skipn k dy)) in   (* 466–467 *)
                          let Z' := madd Z (mscale b dZ) in                     (* 468 *)
                          IStep X' {| ps_X := X'; ps_ys := ys; ps_yd := yd; ps_Z := Z';
                                      ps_obj := mdot (pd_C p) X' |}             (* 489 *)
                                (converged X' ys yd Z')
                      end
                  end
              end
          end
      end
  end.

(** how the solver leaves *)
Inductive pd_exit := XThrow | XAlpha | XConverged | XLimit.
Record pd_res := { r_exit : pd_exit; r_state : pstate; r_tr : list (ev N matrix matrix) }.

Variable maxIterations : nat.
Variable cb : CB N matrix matrix.

(** the loop (313–516); [tr] has the newest event first *)
Fixpoint pd_loop (fuel it : nat) (terminate : bool) (s : pstate) (tr : list (ev N matrix matrix)) : outc pd_res :=
  if (it =? bound maxIterations) || terminate then
    Ret {| r_exit := XLimit; r_state := s; r_tr := rev (End (ps_X s) :: tr) |}   (* 512–516 *)
  else
    match fuel with
    | O => More
    | S fuel =>
        match iteration s with
        | IThrow => Ret {| r_exit := XThrow; r_state := s; r_tr := rev tr |}
        | IStop => Ret {| r_exit := XAlpha; r_state := s; r_tr := rev (End (ps_X s) :: tr) |}
        | IStep X s' conv =>
            let tr' := St X :: tr in                                            (* 461 *)
            let t := terminate || cs_stop cb tr' in
            if conv then Ret {| r_exit := XConverged; r_state := s'; r_tr := rev tr' |}   (* 509 *)
            else pd_loop fuel (S it) t s' tr'
        end
    end.

(** An argument: its shape and its elements (column vectors as lists) *)
Record marg := { a_rows : nat; a_cols : nat; a_mat : matrix }.
Record varg := { v_rows : nat; v_cols : nat; v_vec : list N }.

Variable chol_upper : matrix -> option matrix.       (* arma::chol(tmp, a) (222, 258) *)

(** the checks (215–262), in order; the number of the first that fails *)
Definition validate (X : marg) (ys yd : varg) (Z : marg) : option nat :=
  if negb (a_rows X =? n) || negb (a_cols X =? n) then Some 1
  else match chol_upper (a_mat X) with None => Some 2 | Some _ =>
  if negb (v_cols ys =? 1) then Some 3
  else if negb (v_rows ys =? length (pd_sB p)) then Some 4
  else if negb (v_cols yd =? 1) then Some 5
  else if negb (v_rows yd =? length (pd_dB p)) then Some 6
  else if negb (a_rows Z =? n) || negb (a_cols Z =? n) then Some 7
  else match chol_upper (a_mat Z) with None => Some 8 | Some _ => None end
  end.

(** Optimize() with the dual arguments (203–517); the left case is the exception thrown by
    one of the checks *)
Definition pd_optimize (fuel : nat) (X : marg) (ys yd : varg) (Z : marg) : nat + outc pd_res :=
  match validate X ys yd Z with
  | Some k => inl k
  | None => inr (pd_loop fuel 1 false
                   {| ps_X := a_mat X; ps_ys := v_vec ys; ps_yd := v_vec yd; ps_Z := a_mat Z; ps_obj := n0 |}
                   [Begin (a_mat X)])                                           (* 309–312 *)
  end.

(** Optimize() without them (189–201) *)
Definition pd_optimize_default (fuel : nat) (X : marg) : nat + outc pd_res :=
  pd_optimize fuel X {| v_rows := length (pd_sB p); v_cols := 1; v_vec := repeat n1 (length (pd_sB p)) |}
    {| v_rows := length (pd_dB p); v_cols := 1; v_vec := repeat n1 (length (pd_dB p)) |}
    {| a_rows := n; a_cols := n; a_mat := meye |}.
End PD.
