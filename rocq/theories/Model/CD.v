(** Model of ens::CD<DescentPolicy>::Optimize and its descent policies.
    Files: /repo/include/ensmallen_bits/cd/cd_impl.hpp and cd/descent_policies/. *)
From Coq Require Import List Arith Bool.
From Verif.Base Require Import Num Vec Size.
From Verif.Model Require Import Common.
Import ListNotations.

Section CD.
  Context {N : Num}.
  Notation mat := (list (list N)).        (* a matrix, as the list of its columns *)
  Variable stepSize : N.
  Variable maxIterations : nat.
  Variable tolerance : N.
  Variable updateInterval : nat.
  Variable f : mat -> N.                  (* function.Evaluate                   *)
  Variable pg : mat -> nat -> mat.        (* function.PartialGradient; the code
                                             reads only column featureIdx         *)
  Variable policy : nat -> mat -> option nat.   (* DescentFeature; None: % 0      *)
  Variable cb : CB N mat mat.

  (* 87: iterate.col(j) -= stepSize * gradient.col(j) *)
  Fixpoint sub_col (j : nat) (c : list N) (x : mat) : mat :=
    match x, j with
    | [], _ => []
    | y :: r, O => vsub y c :: r
    | y :: r, S j' => y :: sub_col j' c r
    end.

  (* 126-132 *)
  Definition cd_final (x : mat) (tr : list (ev N mat mat)) : Res N mat mat :=
    {| o_val := f x; o_x := x; o_tr := rev (End x :: Ev x (f x) :: tr) |}.

  (* 71-121; arguments: i, overallObjective, lastObjective, terminate, iterate, trace.
     overallObjective is only shown to the Gradient callback, see [cs_grad]. *)
  Fixpoint cd_loop (fuel i : nat) (overall last : N) (term : bool) (x : mat)
      (tr : list (ev N mat mat)) : outc (Res N mat mat) :=
    if negb (negb (i =? bound maxIterations) && negb term) then Ret (cd_final x tr)
    else
      match fuel with
      | O => More
      | S fuel' =>
          match policy i x with                                               (* 74-76 *)
          | None => Bad
          | Some j =>
              let g := pg x j in                                              (* 79 *)
              let g' := cs_grad cb tr x overall g in
              let tr1 := Gr x j g g' :: tr in
              if term || cs_stop cb tr1 then Ret (cd_final x tr1)             (* 81-84 *)
              else if negb ((j <? length x) && (j <? length g')) then Bad     (* 87: col() *)
              else
                let x' := sub_col j (vscale stepSize (nth j g' [])) x in      (* 87 *)
                let tr2 := St x' :: tr1 in
                let t2 := cs_stop cb tr2 in                                   (* 88 *)
                if updateInterval =? 0 then Bad                               (* 91: % 0 *)
                else if i mod updateInterval =? 0 then
                  let v := f x' in                                            (* 93 *)
                  let tr3 := Ev x' v :: tr2 in
                  let t3 := t2 || cs_stop cb tr3 in                           (* 94-95 *)
                  if nisnan v || nisinf v || nlt (nabs (nsub last v)) tolerance (* 101-117 *)
                  then Ret {| o_val := v; o_x := x'; o_tr := rev (End x' :: tr3) |}
                  else cd_loop fuel' (S i) v v t3 x' tr3
                else cd_loop fuel' (S i) overall last t2 x' tr2
          end
      end.

  (* 60-71 *)
  Definition cd (fuel : nat) (x : mat) : outc (Res N mat mat) :=
    cd_loop fuel 1 n0 nmax false x [Begin x].

  (** ** Descent policies *)
  (* cyclic_descent.hpp 50-55; [nf] = NumFeatures() *)
  Definition cyclic_descent (nf iteration : nat) : option nat :=
    if nf =? 0 then None else Some (iteration mod nf).
  (* greedy_descent.hpp 50-73.  accu of a whole partial gradient *)
  Definition accu (g : mat) : N := vsum (concat g).
  Fixpoint greedy_scan (x : mat) (fuel i best : nat) (bestDescent : N) : nat :=
    match fuel with
    | O => best
    | S k =>
        let d := accu (pg x i) in
        if nlt bestDescent d then greedy_scan x k (S i) i d
        else greedy_scan x k (S i) best bestDescent
    end.
  Definition greedy_descent (nf : nat) (x : mat) : nat := greedy_scan x nf 0 0 n0.
  (* random_descent.hpp 51-57: [r] is the drawn number; randi gives 0..nf-1 *)
  Definition random_descent (nf r : nat) : option nat :=
    if nf =? 0 then None else Some (r mod nf).
End CD.
