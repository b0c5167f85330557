(** C11: gradient descent. *)
From Coq Require Import List Arith ZArith Bool.
From Verif.Base Require Import Num Vec Instances Size.
From Verif.Model Require Import Common GradientDescent.
From Verif.Spec Require Import CommonSpec GDSpec HeardSpec.
From Verif.Proof Require Import GDProof HeardProof.
Import ListNotations.

(** [es] are the evaluations made, in order: point, objective, gradient, gradient
    after the callbacks. *)
Theorem C11_gradient_descent :
  forall (N : Num) (stepSize : N) maxIterations (tolerance : N) f (cb : CB N (list N) (list N)) fuel x r,
  gd stepSize maxIterations tolerance f cb fuel x = Some r ->
  let es := evalgs (o_tr r) in
  let max := match maxIterations with 0 => S size_max | _ => maxIterations end in
  bracketed x (o_x r) (o_tr r) /\
  chain e_at (e_next stepSize) x es /\
  Forall (fun e => f (e_at e) = (e_val e, e_grad e)) es /\
  length es <= max - 1 /\
  o_val r = List.last (map e_val es) nmax /\
  ((* ended by the limit or a callback: one step past the last evaluation *)
   (Forall (fun b => b = false) (stop_tests tolerance nmax (map e_val es)) /\
    o_x r = arrive (e_next stepSize) x es /\ steps_to (o_tr r) = map (e_next stepSize) es /\
    (length es = max - 1 \/ asked cb (o_tr r))) \/
   (* ended by the tolerance or a non-finite objective: at the last evaluation *)
   (exists before e, es = before ++ [e] /\
      stop_tests tolerance nmax (map e_val es) = repeat false (length before) ++ [true] /\
      o_x r = e_at e /\ steps_to (o_tr r) = map (e_next stepSize) before)) /\
  (forall h e rest, asked_at cb (o_tr r) h e rest -> evalgs rest = []).
Proof. exact @gd_ok. Qed.
Print Assumptions C11_gradient_descent.

Theorem C11_gradient_descent_terminates :
  forall (N : Num) (stepSize : N) maxIterations (tolerance : N) f (cb : CB N (list N) (list N)) fuel x,
  match maxIterations with 0 => S size_max | _ => maxIterations end <= fuel ->
  exists r, gd stepSize maxIterations tolerance f cb fuel x = Some r.
Proof. exact @gd_terminates. Qed.
Print Assumptions C11_gradient_descent_terminates.

(** The returned value is not always the objective of the returned point. *)
Theorem C11_returned_value_is_final_refuted :
  exists stepSize maxIterations tolerance f (cb : CB ZNum (list Z) (list Z)) x r,
    gd (N := ZNum) stepSize maxIterations tolerance f cb 10 x = Some r /\ o_val r <> fst (f (o_x r)).
Proof.
  exists 1%Z, 2, 0%Z, (fun x => match x with [a] => ((a * a)%Z, [a]) | _ => (0%Z, []) end),
    {| cs_stop := fun _ => false; cs_grad := fun _ _ _ g => g |}, [4%Z].
  eexists. split; [vm_compute; reflexivity|]. cbn. discriminate.
Qed.
Print Assumptions C11_returned_value_is_final_refuted.

Theorem C11_categorical_overload :
  forall n_rows cat ncat, gd_categorical_ok n_rows cat ncat = true <->
  length cat = n_rows /\ length ncat = n_rows /\ forall b, In b cat -> b = false.
Proof. exact gd_categorical. Qed.
Print Assumptions C11_categorical_overload.

(** 100 -> 50 -> 25 with f(x) = x^2, gradient x, step 1/2 approximated by x/2. *)
Example C11_example :
  exists r, gd (N := ZNum) 1%Z 4 0%Z (fun x => match x with [a] => ((a * a)%Z, [(a / 2)%Z]) | _ => (0%Z, []) end)
     {| cs_stop := fun _ => false; cs_grad := fun _ _ _ g => g |} 10 [100%Z] = Some r /\
    o_x r = [13%Z] /\ o_val r = 625%Z /\ length (evalgs (o_tr r)) = 3.
Proof. eexists. split; [vm_compute; reflexivity|]. auto. Qed.

(** The gradient the run goes on with is the one the callbacks handed back for the history
    at that point (for example a clipped one). *)
Theorem C11_callbacks_heard :
  forall (N : Num) (stepSize : N) maxIterations (tolerance : N) f (cb : CB N (list N) (list N)) fuel x r,
  gd stepSize maxIterations tolerance f cb fuel x = Some r -> heard cb (rev (o_tr r)).
Proof. exact @gd_heard_all. Qed.
Print Assumptions C11_callbacks_heard.
