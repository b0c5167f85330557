(** Model of ens::IQN::Optimize (incremental quasi-Newton).
    File: /repo/include/ensmallen_bits/iqn/iqn_impl.hpp.
    Simplifications: a matrix shaped like the iterate is its list of elements ([rows] is
    n_rows); Hessian approximations are functions of two indices; the order in which Armadillo
    sums and multiplies is that of [msum] and Q s (s' Q); B.i() * v is an oracle [solve], None
    when it throws because B is singular; arma::norm is an oracle, arma::randn an argument
    [init]; the number of the iteration is counted from 0 and with maxIterations = 0 (where i
    wraps around) there are 2^64 - 1 iterations; the moved-from [gradient] (156) is assumed to
    be given its size again by Gradient(). *)
From Coq Require Import List Arith Bool.
From Verif.Base Require Import Num Vec Size Loop.
From Verif.Model Require Import Common VarRed LRSDP.
Import ListNotations.

Section IQN.
  Context {N : Num}.
  Notation vec := (list N).
  Notation mat := (nat -> nat -> N).
  Notation trace := (list (vev N)).
  Variable solve : nat -> mat -> vec -> option vec.   (* B.i() * v, for a B with that many rows *)
  Variable norm : vec -> N.                           (* arma::norm *)
  Variable f : VFun N.
  Variable cb : VCB N.
  Variables (eta : N) (b maxIterations : nat) (tolerance : N).
  Variable rows : nat.                                (* iterate.n_rows *)
  Notation n := (vf_num f).

  Definition at_ (v : vec) (i : nat) : N := nth i v n0.
  Definition ieye : mat := fun i j => if i =? j then n1 else n0.
  Definition imv (Q : mat) (v : vec) : vec := map (fun i => msum (length v) (fun k => nmul (Q i k) (at_ v k))) (seq 0 (length v)).
  (** row vector times matrix *)
  Definition ivm (v : vec) (Q : mat) : vec := map (fun j => msum (length v) (fun k => nmul (at_ v k) (Q k j))) (seq 0 (length v)).
  Definition idot (a c : vec) : N := msum (length a) (fun k => nmul (at_ a k) (at_ c k)).

  (** 66-68: the number of batches *)
  Definition num_batches : nat := if n mod b =? 0 then n / b else S (n / b).
  (** 124-125: the size of batch [it] *)
  Definition batch_size (it : nat) : nat := Nat.min b (n - it * b).

  (** 78-87: an entry of the tables t, y and Q; the aggregates B, u and g *)
  Record ient : Type := { en_t : vec; en_y : vec; en_Q : mat }.
  Record ist : Type := { i_B : mat; i_u : vec; i_g : vec; i_tab : list ient }.

  (** 139-141 *)
  Definition bfgs (Q : mat) (s yy : vec) : mat :=
    let qs := imv Q s in
    let sq := ivm s Q in
    let ys := idot yy s in
    let sqs := idot s qs in
    fun i j => nsub (nadd (Q i j) (ndiv (nmul (at_ yy i) (at_ yy j)) ys)) (ndiv (nmul (at_ qs i) (at_ sq j)) sqs).

  Fixpoint set_ent (k : nat) (e : ient) (l : list ient) : list ient :=
    match l, k with
    | [], _ => []
    | _ :: r, O => e :: r
    | a :: r, S k => a :: set_ent k e r
    end.

  (** 136-160: the update for batch [it] with the gradient [gr]; None is an exception
      (159: u.t() - vectorise(g) needs an iterate with one row; the inverse may not exist) *)
  Definition move (it : nat) (x gr : vec) (st : ist) : option (vec * ist) :=
    match nth_error (i_tab st) it with
    | None => None
    | Some e =>
        let w := ndiv n1 (nofnat num_batches) in
        let Q := en_Q e in
        let Q' := bfgs Q (vsub x (en_t e)) (vsub gr (en_y e)) in
        let B := fun i j => nadd (i_B st i j) (nmul w (nsub (Q' i j) (Q i j))) in
        let u := vadd (i_u st) (vscale w (vsub (imv Q' x) (imv Q (en_t e)))) in
        let g := vadd (i_g st) (vscale w (vsub gr (en_y e))) in
        let st' := {| i_B := B; i_u := u; i_g := g; i_tab := set_ent it {| en_t := x; en_y := gr; en_Q := Q' |} (i_tab st) |} in
        if negb (rows =? 1) then None else
        match solve (length x) B (vsub u g) with
        | None => None
        | Some z => Some (vadd (vscale eta z) (vscale (nsub n1 eta) x), st')
        end
    end.
  (** 127: is the iterate the point batch [it] was last evaluated at? *)
  Definition still (it : nat) (x : vec) (st : ist) : bool :=
    match nth_error (i_tab st) it with None => true | Some e => negb (nlt n0 (norm (vsub x (en_t e)))) end.

  Definition over (c : nat) (g : vec) : vec := map (fun a => ndiv a (nofnat c)) g.

  (** 89-109: the gradients at the random initial point; Bad is the exception for gradients of
      another size than the iterate *)
  Fixpoint init_pass (fuel : nat) (x : vec) (i : nat) (gs : vec) (term : bool) (tr : trace) : outc (list vec * vec * bool * trace) :=
    if i <? n then
      match fuel with
      | O => More
      | S fuel =>
          let c := Nat.min b (n - i) in
          let g := vf_grad f 0 x i c in
          let g' := vc_hook cb tr x g in
          let tr := VGrad x i c g g' :: tr in
          if negb (length g' =? length x) then Bad else
          match init_pass fuel x (i + c) (vadd gs g') (term || vc_stop cb tr) tr with
          | Ret (ys, gs, term, tr) => Ret (over c g' :: ys, gs, term, tr)
          | Bad => Bad
          | More => More
          end
      end
    else Ret ([], gs, term, tr).

  (** 118-167: the visits of one iteration *)
  Fixpoint inner (fuel : nat) (j done : nat) (x : vec) (st : ist) (term : bool) (tr : trace) : outc (vec * ist * bool * trace) :=
    if done <? n then
      match fuel with
      | O => More
      | S fuel =>
          let it := (j + 1) mod num_batches in
          let c := batch_size it in
          if still it x st then inner fuel (j + 1) (done + c) x st term tr
          else
            let g := over c (vf_grad f 0 x (it * b) c) in
            let g' := vc_hook cb tr x g in
            let tr := VGrad x (it * b) c g g' :: tr in
            let term := term || vc_stop cb tr in
            if negb (length g' =? length x) then Bad else
            match move it x g' st with
            | None => Bad
            | Some (x, st) =>
                let tr := VStep x eta :: tr in
                inner fuel (j + 1) (done + c) x st (term || vc_stop cb tr) tr
            end
      end
    else Ret (x, st, term, tr).

  Record irun : Type := { v_k : nat; v_x : vec; v_st : ist; v_val : N; v_term : bool; v_tr : trace }.
  Inductive iexit : Type := IDone (s : irun) | IEnd (s : irun) | IBad | IMore.
  Definition ilimit : nat := match maxIterations with O => size_max | S m => m end.

  (** 116-203: one iteration *)
  Definition ibody (fuel : nat) (s : irun) : irun + iexit :=
    if negb ((v_k s <? ilimit) && negb (v_term s)) then inr (IDone s) else
    match inner fuel 0 0 (v_x s) (v_st s) (v_term s) (v_tr s) with
    | Bad => inr IBad
    | More => inr IMore
    | Ret (x, st, term, tr) =>
        match eval_pass f cb b fuel x 0 n0 term tr with
        | None => inr IMore
        | Some (ov, term, tr) =>
            let v := ndiv ov (nofnat n) in
            let s' := {| v_k := S (v_k s); v_x := x; v_st := st; v_val := v; v_term := term; v_tr := tr |} in
            if nisnan v || nisinf v || nlt v tolerance then inr (IEnd s') else inl s'
        end
    end.

  Record ires : Type := { ir_val : N; ir_x : vec; ir_tr : trace; ir_conv : bool }.
  (** 39-210; b = 0 (66, division) and no functions (113, t[0]) are undefined *)
  Definition iqn (fuel : nat) (init x : vec) : outc ires :=
    if (b =? 0) || (n =? 0) then Bad else
    match init_pass fuel init 0 (repeat n0 (length x)) false [] with
    | Bad => Bad
    | More => More
    | Ret (ys, gs, term, tr) =>
        let st := {| i_B := ieye; i_u := init; i_g := over n gs; i_tab := map (fun y => {| en_t := init; en_y := y; en_Q := ieye |}) ys |} in
        let fin (s : irun) c := Ret {| ir_val := v_val s; ir_x := v_x s; ir_tr := rev (VEnd (v_x s) :: v_tr s); ir_conv := c |} in
        match loop (ibody fuel) fuel {| v_k := 0; v_x := x; v_st := st; v_val := n0; v_term := term; v_tr := VBegin x :: tr |} with
        | inl _ => More
        | inr IBad => Bad
        | inr IMore => More
        | inr (IDone s) => fin s false
        | inr (IEnd s) => fin s true
        end
    end.
End IQN.
