(** Model of the quality indicators for multi-objective fronts.
    Files: /repo/include/ensmallen_bits/utility/indicators/{epsilon,igd,igd_plus}.hpp.
    A front is the list of its slices, a slice the list of its rows (the cubes have one
    column).  std::pow with a variable exponent is the argument [pow]; std::pow(x, 2) is
    modelled as x * x.  Fewer rows in the reference front than in the front is an
    index error in the code; [map2] then stops at the shorter one. *)
From Coq Require Import List Bool.
From Verif.Base Require Import Num Vec.
Import ListNotations.

Section Indicators.
  Context {N : Num}.
  Notation vec := (list N).
  Variable pow : N -> N -> N.

  (** std::max<ElemType>(a, b) *)
  Definition stdmax (a b : N) : N := if nlt a b then b else a.

  (** the loop over the front that all three share: igd.hpp 69-84, igd_plus.hpp 69-83,
      epsilon.hpp 73-81 *)
  Definition smallest (d : vec -> N) (front : list vec) : N :=
    fold_left (fun m a => if nlt (d a) m then d a else m) front nmax.

  (** igd.hpp 72-81 *)
  Definition distance (a z : vec) : N :=
    nsqrt (vsum (map2 (fun a z => nmul (nsub a z) (nsub a z)) a z)).
  (** igd_plus.hpp 72-80 *)
  Definition distance_plus (a z : vec) : N :=
    nsqrt (vsum (map2 (fun a z => nmul (stdmax (nsub a z) n0) (stdmax (nsub a z) n0)) a z)).

  (** igd.hpp 66-89 *)
  Definition igd (front ref : list vec) (p : N) : N :=
    let s := fold_left (fun acc z => nadd acc (pow (smallest (fun a => distance a z) front) p)) ref n0 in
    pow (ndiv s (nofnat (length ref))) (ndiv n1 p).

  (** igd_plus.hpp 66-88 *)
  Definition igd_plus (front ref : list vec) : N :=
    let s := fold_left (fun acc z => nadd acc (smallest (fun a => distance_plus a z) front)) ref n0 in
    ndiv s (nofnat (length ref)).

  (** epsilon.hpp 76-78; a slice without rows, where arma's max() fails, and NaN ratios,
      which arma's max() passes over, are not modelled. *)
  Definition ratio (a z : N) : N :=
    let r := ndiv a z in if nisinf r && nlt n0 r then nopp n1 else r.
  Definition largest_ratio (z a : vec) : N :=
    match map2 ratio a z with
    | [] => n0
    | r :: rs => fold_left (fun m x => if nlt m x then x else m) rs r
    end.

  (** epsilon.hpp 70-86 *)
  Definition epsilon (front ref : list vec) : N :=
    fold_left (fun eps z =>
      let e := smallest (largest_ratio z) front in
      if nlt eps e then e else eps) ref n0.
End Indicators.
