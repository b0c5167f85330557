(** C06: callback dispatch. *)
From Coq Require Import List Arith ZArith Bool Reals.
From Verif.Base Require Import Num Instances.
From Verif.Model Require Import Callbacks.
From Verif.Spec Require Import CallbacksSpec.
From Verif.Proof Require Import CallbacksProof.
Import ListNotations.

(** One boolean event over any pack of callbacks.  [log] lists the callbacks that
    were called and their answers.  They are called in order from the first one;
    the result is true iff one of them answered true, and that one is the last
    called; if none did, all were called.  Callbacks not called are unchanged, and
    each called one received the arguments as its predecessor left them. *)
Theorem C06_dispatch :
  forall (S A : Type) (pack : list (Hook S A * S)) (a : A) ss a' b log,
  dispatch pack a = (ss, a', b, log) ->
  map fst log = seq 0 (length log) /\
  length log <= length pack /\ length ss = length pack /\
  (b = true <-> exists k, In (k, true) log) /\
  (forall k, In (k, true) log -> Datatypes.S k = length log) /\
  (b = false -> length log = length pack) /\
  (forall k, length log <= k -> nth_error ss k = nth_error (map snd pack) k) /\
  (exists args : nat -> A, args 0 = a /\ args (length log) = a' /\
     forall k, k < length log -> exists h s s' ans,
       nth_error pack k = Some (h, s) /\ nth_error ss k = Some s' /\
       In (k, ans) log /\ call h s (args k) = (s', args (Datatypes.S k), ans)).
Proof. intros. apply (pass_ok pack 0 a ss a' b log). assumption. Qed.
Print Assumptions C06_dispatch.

(** EvaluateWithGradient: the Gradient hooks run (as one more event) only when no
    Evaluate hook answered true. *)
Theorem C06_evaluate_with_gradient :
  forall (S A : Type) (pack : list (Hook S A * Hook S A * S)) (a : A) ss a' b log1 log2,
  dispatch_eval_grad pack a = (ss, a', b, log1, log2) ->
  exists ss1 a1 b1,
    dispatch (map (fun c => (fst (fst c), snd c)) pack) a = (ss1, a1, b1, log1) /\
    if b1 then ss = ss1 /\ a' = a1 /\ b = true /\ log2 = []
    else dispatch (combine (map (fun c => snd (fst c)) pack) ss1) a1 = (ss, a', b, log2).
Proof. intros. apply eval_grad_ok. assumption. Qed.
Print Assumptions C06_evaluate_with_gradient.

(** BeginOptimization and EndOptimization reach every callback. *)
Theorem C06_begin_end_reach_all :
  forall (S A : Type) (pack : list (Hook S A * S)) (a : A) ss a',
  dispatch_all pack a = (ss, a') ->
  exists args : nat -> A, args 0 = a /\ args (length pack) = a' /\ length ss = length pack /\
    forall k h s, nth_error pack k = Some (h, s) ->
      exists s' ans, nth_error ss k = Some s' /\ call h s (args k) = (s', args (Datatypes.S k), ans).
Proof. intros. apply all_ok. assumption. Qed.
Print Assumptions C06_begin_end_reach_all.

(** "Every callback is invoked for every event" is false: the third one is skipped. *)
Theorem C06_every_callback_invoked_refuted :
  exists (pack : list (Hook nat nat * nat)) a ss a' b log,
    dispatch pack a = (ss, a', b, log) /\ length log < length pack.
Proof.
  exists [(Void (fun s a => (S s, a)), 0); (Bool (fun s a => (S s, a + 1, true)), 0); (Void (fun s a => (S s, a)), 0)], 7.
  do 4 eexists. split; [reflexivity|]. cbn. repeat constructor.
Qed.
Print Assumptions C06_every_callback_invoked_refuted.

Example C06_example :
  dispatch [(Void (fun s a => (S s, a)), 0); (Absent, 5); (Bool (fun s a => (S s, a + 1, true)), 0);
            (Void (fun s a => (S s, a)), 0)] 7
  = ([1; 5; 1; 0], 8, true, [(0, false); (1, false); (2, true)]).
Proof. reflexivity. Qed.
