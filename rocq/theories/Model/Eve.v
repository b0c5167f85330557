(** Model of ens::Eve::Optimize, /repo/include/ensmallen_bits/eve/eve_impl.hpp. *)
From Coq Require Import List Arith Bool ZArith.
From Verif.Base Require Import Num Loop Size Vec.
From Verif.Model Require Import Sgd.
Import ListNotations.

Section Eve.
  Context {N : Num}.
  Notation X := (list N).
  Notation event := (event N X X).
  Variable pw : N -> nat -> N.            (* std::pow(beta, (double) (i + 1)) *)

  (* the members Optimize reads (eve.hpp) *)
  Record ecfg : Type := {
    e_step : N; e_batch : nat; e_b1 : N; e_b2 : N; e_b3 : N; e_eps : N; e_clip : N;
    e_max : nat; e_tol : N; e_shuffle : bool; e_exact : bool
  }.
  Variable c : ecfg.
  Variable f : SepFun N X X.
  Variable cb : Callbacks N X X.
  Local Open Scope num_scope.

  Record est : Type := {
    v_i : nat; v_cf : nat; v_epoch : nat; v_overall : N; v_lastall : N;   (* 102, 77-80 *)
    v_lastobj : N; v_dt : N; v_m : X; v_v : X;                            (* 82-95 *)
    v_term : bool; v_x : X; v_shuf : nat; v_tr : list event
  }.

  Definition e_limit : nat := if (e_max c =? 0)%nat then size_max else e_max c.   (* 100-101 *)
  Definition emax2 (a b : N) : N := if nlt a b then b else a.              (* std::max *)
  Definition emin2 (a b : N) : N := if nlt b a then b else a.              (* std::min *)

  Inductive eexit : Type :=
  | Eloop (s : est)          (* loop left by its condition or by break: go on at 197 *)
  | Eret (s : est)           (* return at 173 or 182 *)
  | Eub.                     (* % 0 at 157 *)

  (* 157-194 *)
  Definition eve_epoch_end (s : est) : est + eexit :=
    let n := sf_num f in
    let tr1 := EndEpoch (v_x s) (v_epoch s) (v_overall s / nofnat n) :: v_tr s in
    let t1 := v_term s || cb_stop cb tr1 in
    let s1 := {| v_i := v_i s; v_cf := v_cf s; v_epoch := S (v_epoch s); v_overall := v_overall s;
                 v_lastall := v_lastall s; v_lastobj := v_lastobj s; v_dt := v_dt s; v_m := v_m s; v_v := v_v s;
                 v_term := t1; v_x := v_x s; v_shuf := v_shuf s; v_tr := tr1 |} in
    if nisnan (v_overall s) || nisinf (v_overall s) then inr (Eret s1)                      (* 166-173 *)
    else if nlt (nabs (v_lastall s - v_overall s)) (e_tol c) then inr (Eret s1)            (* 175-182 *)
    else
      let tr2 := BeginEpoch (v_x s) (S (v_epoch s)) (v_overall s) :: tr1 in                 (* 184 *)
      let t2 := t1 || cb_stop cb tr2 in
      let more := negb (v_i s =? e_limit)%nat in                                           (* 188 *)
      inl {| v_i := v_i s; v_cf := if more then 0%nat else v_cf s; v_epoch := S (v_epoch s);
             v_overall := if more then n0 else v_overall s;
             v_lastall := if more then v_overall s else v_lastall s;
             v_lastobj := v_lastobj s; v_dt := v_dt s; v_m := v_m s; v_v := v_v s;
             v_term := t2; v_x := v_x s;
             v_shuf := if e_shuffle c then S (v_shuf s) else v_shuf s;                      (* 195-196 *)
             v_tr := if e_shuffle c then Shuffled :: tr2 else tr2 |}.

  (* 103-197: one round *)
  Definition eve_body (s : est) : est + eexit :=
    if negb ((v_i s <? e_limit)%nat && negb (v_term s)) then inr (Eloop s) else
    let k := Nat.min (Nat.min (e_batch c) (e_limit - v_i s)) (sf_num f - v_cf s) in         (* 112-114 *)
    let '(o, g) := sf_evalgrad f (v_shuf s) (v_x s) (v_cf s) k in                           (* 118 *)
    let overall := v_overall s + o in
    let tr1 := EvalGrad (v_x s) (v_cf s) k o g :: v_tr s in
    let t1 := v_term s || cb_stop cb tr1 in                                                 (* 122 *)
    let g' := cb_grad cb tr1 g in
    if t1 then                                                                              (* 124-125 *)
      inr (Eloop {| v_i := v_i s; v_cf := v_cf s; v_epoch := v_epoch s; v_overall := overall;
                    v_lastall := v_lastall s; v_lastobj := v_lastobj s; v_dt := v_dt s; v_m := v_m s; v_v := v_v s;
                    v_term := true; v_x := v_x s; v_shuf := v_shuf s; v_tr := tr1 |})
    else
    let m := map2 (fun a b => a * e_b1 c + (n1 - e_b1 c) * b) (v_m s) g' in                 (* 127-128 *)
    let v := map2 (fun a b => a * e_b2 c + (n1 - e_b2 c) * (b * b)) (v_v s) g' in            (* 130-131 *)
    let bc1 := n1 - pw (e_b1 c) (S (v_i s)) in                                              (* 133 *)
    let bc2 := n1 - pw (e_b2 c) (S (v_i s)) in
    let dt :=
      if (0 <? v_i s)%nat then                                                              (* 136-144 *)
        let d := nabs (o - v_lastobj s) / (emin2 o (v_lastobj s) + e_eps c) in
        v_dt s * e_b3 c + (n1 - e_b3 c) * emin2 (emax2 d (n1 / e_clip c)) (e_clip c)
      else v_dt s in
    let x' := map2 nsub (v_x s)
                (map2 (fun a b => e_step c / dt * (a / bc1) / (nsqrt (b / bc2) + e_eps c)) m v) in   (* 148-149 *)
    let tr2 := Step x' :: tr1 in
    let s' := {| v_i := (v_i s + k)%nat; v_cf := (v_cf s + k)%nat; v_epoch := v_epoch s; v_overall := overall;
                 v_lastall := v_lastall s; v_lastobj := o; v_dt := dt; v_m := m; v_v := v;
                 v_term := cb_stop cb tr2; v_x := x'; v_shuf := v_shuf s; v_tr := tr2 |} in
    if (sf_num f =? 0)%nat then inr Eub
    else if ((v_cf s' mod sf_num f) =? 0)%nat then eve_epoch_end s' else inl s'.

  (* 77-99 *)
  Definition eve_init (x : X) : est :=
    {| v_i := 0; v_cf := 0; v_epoch := 1; v_overall := n0; v_lastall := nmax;
       v_lastobj := n0; v_dt := n1; v_m := repeat n0 (length x); v_v := repeat n0 (length x);
       v_term := false; v_x := x; v_shuf := 0; v_tr := [BeginOpt x] |}.

  (* 203-217 *)
  Fixpoint eve_exact (fuel : nat) (shuf : nat) (x : X) (i : nat) (acc : N) (tr : list event)
    : option (N * list event) :=
    if (i <? sf_num f)%nat then
      match fuel with
      | O => None
      | S fuel' =>
          let k := Nat.min (e_batch c) (sf_num f - i) in
          let o := sf_eval f shuf x i k in
          eve_exact fuel' shuf x (i + e_batch c) (acc + o) (Eval x i k o :: tr)
      end
    else Some (acc, tr).

  Record eres : Type := { er_val : N; er_x : X; er_trace : list event }.
  (* 55-222 *)
  Definition eve_optimize (fuel : nat) (x : X) : outcome eres :=
    match loop eve_body fuel (eve_init x) with
    | inl _ => Diverge
    | inr Eub => UB
    | inr (Eret s) => Return {| er_val := v_overall s; er_x := v_x s; er_trace := rev (EndOpt (v_x s) :: v_tr s) |}
    | inr (Eloop s) =>
        if e_exact c then
          match eve_exact fuel (v_shuf s) (v_x s) 0 n0 (v_tr s) with
          | None => Diverge
          | Some (v, tr) => Return {| er_val := v; er_x := v_x s; er_trace := rev (EndOpt (v_x s) :: tr) |}
          end
        else Return {| er_val := v_overall s; er_x := v_x s; er_trace := rev (EndOpt (v_x s) :: v_tr s) |}
    end.
End Eve.
