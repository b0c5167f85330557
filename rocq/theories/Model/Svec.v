(** Model of the vectorisation of symmetric matrices.
    File: /repo/include/ensmallen_bits/sdp/lin_alg.hpp.
    A matrix with n rows is a function of the row and the column together with n; vectors
    are lists.  [sqrt2] is arma::datum::sqrt2 and [half] the literal 0.5. *)
From Coq Require Import List Arith Bool.
From Verif.Base Require Import Num Vec.
From Verif.Model Require Import SA.
Import ListNotations.

(** 18-24 *)
Definition svec_index (i j n : nat) : nat :=
  let (i, j) := if Nat.ltb j i then (j, i) else (i, j) in
  (j - i) + (n * (n + 1) - (n - i) * (n - i + 1)) / 2.

(** the two loops "for i < n, for i <= j < n" of 46-56, 99-109, 134-151 *)
Definition pairs_from (i m : nat) : list (nat * nat) :=
  flat_map (fun i => map (fun j => (i, j)) (seq i (m - i))) (seq i (m - i)).
Definition pairs (n : nat) : list (nat * nat) := pairs_from 0 n.

(** size_t n = ceil((-1. + sqrt(1. + 8. * iMat.n_elem)) / 2.) (94-95): the least m with
    m (m + 1) / 2 >= n_elem; [C45_size] proves that this is the formula over the reals *)
Fixpoint smat_size_from (fuel m len : nat) : nat :=
  match fuel with
  | O => m
  | S fuel => if Nat.leb len (m * (m + 1) / 2) then m else smat_size_from fuel (m + 1) len
  end.
Definition smat_size (len : nat) : nat := smat_size_from len 0 len.

Section Svec.
  Context {N : Num}.
  Variables sqrt2 half : N.
  Definition matrix := nat -> nat -> N.

  (** 36-56 *)
  Definition svec (n : nat) (A : matrix) : list N :=
    map (fun ij => let (i, j) := (ij : nat * nat) in if Nat.eqb i j then A i j else nmul sqrt2 (A i j)) (pairs n).

  (** 58-81; [es] are the elements the iterator visits: row, column, value *)
  Fixpoint svec_fill (n : nat) (es : list (nat * nat * N)) (out : list N) : list N :=
    match es with
    | [] => out
    | (i, j, v) :: es =>
        svec_fill n es
          (if Nat.ltb j i then out
           else set_nth (svec_index i j n) (if Nat.eqb i j then v else nmul sqrt2 v) out)
    end.
  Definition svec_sparse (n : nat) (es : list (nat * nat * N)) : list N :=
    svec_fill n es (repeat n0 (n * (n + 1) / 2)).

  (** 98-109; None: read past the end of the input *)
  Fixpoint smat_fill (ps : list (nat * nat)) (v : list N) (out : matrix) : option matrix :=
    match ps with
    | [] => Some out
    | (i, j) :: ps =>
        match v with
        | [] => None
        | x :: v =>
            let y := if Nat.eqb i j then x else nmul (nmul half sqrt2) x in
            smat_fill ps v (fun a b =>
              if (Nat.eqb a i && Nat.eqb b j) || (Nat.eqb a j && Nat.eqb b i) then y else out a b)
        end
    end.
  (** 89-110 *)
  Definition smat (v : list N) : option (nat * matrix) :=
    let n := smat_size (length v) in
    match smat_fill (pairs n) v (fun _ _ => n0) with
    | Some A => Some (n, A)
    | None => None
    end.

  Definition add_at (k : nat) (x : N) (row : list N) : list N := set_nth k (nadd (nth k row n0) x) row.

  (** 138-144 *)
  Fixpoint kron_row (n : nat) (A : matrix) (i j : nat) (ks : list nat) (row : list N) : list N :=
    match ks with
    | [] => row
    | k :: ks =>
        let row := add_at (svec_index k j n) (nmul (if Nat.eqb k j then n1 else nmul half sqrt2) (A i k)) row in
        let row := add_at (svec_index i k n) (nmul (if Nat.eqb k i then n1 else nmul half sqrt2) (A k j)) row in
        kron_row n A i j ks row
    end.
  (** 122-151 *)
  Definition sym_kron_id (n : nat) (A : matrix) : list (list N) :=
    map (fun ij => let (i, j) := (ij : nat * nat) in
          let row := kron_row n A i j (seq 0 n) (repeat n0 (n * (n + 1) / 2)) in
          let row := map (fun x => nmul x half) row in
          if Nat.eqb i j then row else map (fun x => nmul x sqrt2) row) (pairs n).
End Svec.
