(** Model of ens::SPSA::Optimize.
    File: /repo/include/ensmallen_bits/spsa/spsa_impl.hpp. *)
From Coq Require Import List Arith Bool.
From Verif.Base Require Import Num Vec Size.
From Verif.Model Require Import Common.
Import ListNotations.

Section SPSA.
  Context {N : Num}.
  Notation vec := (list N).
  Variables (alpha gamma stepSize evaluationStepSize ak : N).
  Variable maxIterations : nat.
  Variable tolerance : N.
  Variable pw : N -> N -> N.              (* std::pow *)
  Variable f : vec -> N.
  Variable coin : nat -> list bool.       (* the random bits drawn in iteration k (97-99) *)
  Variable cb : CB N vec vec.

  (* 93-94 *)
  Definition akl (k : nat) : N := ndiv stepSize (pw (nadd (nofnat (k + 1)) ak) alpha).
  Definition ckl (k : nat) : N := ndiv evaluationStepSize (pw (nofnat (k + 1)) gamma).
  (* 97-99: randi(0,1) * 2 - 1 *)
  Definition sp (k : nat) : vec :=
    map (fun b : bool => nsub (nmul (if b then n1 else n0) (nofnat 2)) n1) (coin k).

  Definition spsa_done (v : N) (x : vec) (tr : list (ev N vec vec)) : Res N vec vec :=
    {| o_val := v; o_x := x; o_tr := rev (End x :: tr) |}.
  (* 125-131 *)
  Definition spsa_final (x : vec) (tr : list (ev N vec vec)) : Res N vec vec :=
    spsa_done (f x) x (Ev x (f x) :: tr).

  (* the iterate is perturbed in place: 101, 106, 111 *)
  Definition plus (k : nat) (x : vec) : vec := vadd x (vscale (ckl k) (sp k)).
  Definition minus (k : nat) (x : vec) : vec := vsub (plus k x) (vscale (nmul (nofnat 2) (ckl k)) (sp k)).
  Definition back (k : nat) (x : vec) : vec := vadd (minus k x) (vscale (ckl k) (sp k)).
  (* 115-116 *)
  Definition spsa_gradient (k : nat) (fp fm : N) : vec :=
    map (fun s => nmul (nsub fp fm) (ndiv n1 (nmul (nmul (nofnat 2) (ckl k)) s))) (sp k).

  Fixpoint spsa_loop (fuel k : nat) (overall last : N) (term : bool) (x : vec)
      (tr : list (ev N vec vec)) : option (Res N vec vec) :=
    if negb ((k <? maxIterations) && negb term) then Some (spsa_final x tr)   (* 66 *)
    else
      match fuel with
      | O => None
      | S fuel' =>
          if nisnan overall || nisinf overall then Some (spsa_done overall x tr)          (* 72-79 *)
          else if nlt (nabs (nsub last overall)) tolerance then Some (spsa_done overall x tr) (* 81-87 *)
          else
            let fp := f (plus k x) in
            let tr1 := Ev (plus k x) fp :: tr in
            let t1 := term || cs_stop cb tr1 in
            let fm := f (minus k x) in
            let tr2 := Ev (minus k x) fm :: tr1 in
            let t2 := t1 || cs_stop cb tr2 in
            let x1 := back k x in
            if t2 then Some (spsa_final x1 tr2)                               (* 112-113 *)
            else
              let x2 := vsub x1 (vscale (akl k) (spsa_gradient k fp fm)) in
              let tr3 := St x2 :: tr2 in
              let t3 := cs_stop cb tr3 in
              let v := f x2 in
              let tr4 := Ev x2 v :: tr3 in
              let t4 := t3 || cs_stop cb tr4 in
              spsa_loop fuel' (S k) v overall t4 x2 tr4
      end.

  (* 59-66; DBL_MAX *)
  Definition spsa (fuel : nat) (x : vec) : option (Res N vec vec) :=
    spsa_loop fuel 0 n0 nmax false x [Begin x].
End SPSA.
