(** C10: the synthesised Evaluate / Gradient / EvaluateWithGradient. *)
From Coq Require Import Bool ZArith.
From Verif.Model Require Import FunctionMixin.
From Verif.Proof Require Import FunctionProof.

(** Whatever the user supplies, if the supplied methods agree with each other then
    so do all the methods an optimizer calls. *)
Theorem C10_methods_agree :
  forall (A V G : Type) (u : User A V G),
  (forall k e k' w a, u_eval u = Some (k, e) -> u_ewg u = Some (k', w) -> e a = fst (w a)) /\
  (forall k g k' w a, u_grad u = Some (k, g) -> u_ewg u = Some (k', w) -> g a = snd (w a)) ->
  forall w, f_ewg u = Some w ->
  (forall e, f_eval u = Some e -> forall a, e a = fst (w a)) /\
  (forall g, f_grad u = Some g -> forall a, g a = snd (w a)).
Proof. exact @agree. Qed.
Print Assumptions C10_methods_agree.

(** When all supplied methods have the same form (all const, all static or all
    non-const), supplied methods are used as they are, and Evaluate+Gradient or
    EvaluateWithGradient suffice to have all three. *)
Theorem C10_supplied_methods_kept :
  forall (A V G : Type) (u : User A V G) (k : form),
  (forall k' m, u_eval u = Some (k', m) -> k' = k) /\
  (forall k' m, u_grad u = Some (k', m) -> k' = k) /\
  (forall k' m, u_ewg u = Some (k', m) -> k' = k) ->
  (forall k' e, u_eval u = Some (k', e) -> f_eval u = Some e) /\
  (forall k' g, u_grad u = Some (k', g) -> f_grad u = Some g) /\
  (forall k' w, u_ewg u = Some (k', w) -> f_ewg u = Some w) /\
  ((u_eval u <> None /\ u_grad u <> None) \/ u_ewg u <> None ->
     f_eval u <> None /\ f_grad u <> None /\ f_ewg u <> None).
Proof. exact @uniform_ok. Qed.
Print Assumptions C10_supplied_methods_kept.

(** Without uniformity this fails: a const Evaluate next to a non-const
    EvaluateWithGradient is not the method that optimizers call. *)
Theorem C10_supplied_methods_kept_mixed_refuted :
  exists (u : User Z Z Z) e e', u_eval u = Some (Const, e) /\ f_eval u = Some e' /\ e 3%Z <> e' 3%Z.
Proof.
  exists {| u_eval := Some (Const, fun x => (x * x)%Z); u_grad := None;
            u_ewg := Some (NonConst, fun x => ((x * x + 1)%Z, (2 * x)%Z)) |}.
  eexists. eexists. split; [reflexivity|]. split; [reflexivity|]. discriminate.
Qed.
Print Assumptions C10_supplied_methods_kept_mixed_refuted.

Example C10_example :
  let u := {| u_eval := Some (Const, fun x => (x * x)%Z); u_grad := Some (Const, fun x => (2 * x)%Z); u_ewg := None |} in
  exists w, f_ewg u = Some w /\ w 3%Z = (9%Z, 6%Z).
Proof. eexists. split; reflexivity. Qed.
