(** C44: type safety and ownership of Any. *)
From Coq Require Import List Arith Bool Lia.
From Verif.Model Require Import Any.
From Verif.Spec Require Import AnySpec.
From Verif.Proof Require Import AnyProof.
Import ListNotations.

(** Whatever the sequence of calls: As() gives the object stored last if it is asked for with the
    type it was stored with and throws otherwise, Has() tells the type, nothing is deleted twice
    or used after it is gone, and the deleted objects are those a Clean() found. *)
Theorem C44_any : forall cs, Forall plain cs -> exists l, do_calls cs log0 = Some l /\ good_log cs l.
Proof. exact any_ok. Qed.
Print Assumptions C44_any.

(** Cleaning before every Set() and at the end deletes every stored object exactly once, in the
    order they were stored. *)
Theorem C44_tidy : forall cs, Forall plain cs -> tidy false cs ->
  exists l, do_calls cs log0 = Some l /\ l_deleted l = seq 0 (stored cs).
Proof. exact tidy_ok. Qed.
Print Assumptions C44_tidy.

Definition calls1 : list call := [CSet 3; CAs 3; CAs 4; CClean; CHas 0; CClean; CSet 5; CHas 3; CAs 5; CClean].

Example C44_ex : Forall plain calls1 /\ tidy false calls1 /\
  exists l, do_calls calls1 log0 = Some l /\ l_deleted l = [0; 1] /\
    l_answers l = [RNone; RAs (Got 0); RAs Threw; RNone; RHas true; RNone; RNone; RHas false; RAs (Got 1); RNone].
Proof.
  split; [repeat constructor; cbn; auto; discriminate|]. split; [cbn; auto|].
  eexists. split; [reflexivity|]. split; reflexivity.
Qed.

(** An SGD object that is optimised any number of times, with any types of policies, and then
    destroyed: every policy object it made is deleted exactly once, and every access finds an
    object of the right type. *)
Theorem C44_owner : forall reset h, Forall (fun c => fst c <> 0 /\ snd c <> 0) h ->
  exists o m ds m' d, owner_history reset h owner_new [] [] = Some (o, m, ds) /\
    owner_destroy o m = Some (m', d) /\ NoDup (ds ++ d) /\ (forall k, In k (ds ++ d) <-> k < length m').
Proof. exact owner_ok. Qed.
Print Assumptions C44_owner.

Example C44_owner_ex : exists o m ds, owner_history true [(1, 2); (1, 2); (3, 4)] owner_new [] [] = Some (o, m, ds) /\
  length m = 6 - 1 /\ ds = [1; 0; 2].
Proof. eexists _, _, _. split; [reflexivity|]. split; reflexivity. Qed.

(** But a copy of an optimiser shares the policies of the original: destroying both after one
    Optimize() deletes them twice. *)
Theorem C44_copy_refuted : forall reset td tu, td <> 0 -> tu <> 0 ->
  exists o m ds m' d, owner_history reset [(td, tu)] owner_new [] [] = Some (o, m, ds) /\
    owner_destroy o m = Some (m', d) /\ owner_destroy (owner_copy o) m' = None.
Proof.
  intros reset td tu H1 H2. destruct td as [|td]; [congruence|]. destruct tu as [|tu]; [congruence|].
  eexists _, _, _, _, _. split; [|split].
  - cbn. rewrite orb_true_r. unfold any_as. cbn. rewrite ?Nat.eqb_refl. cbn. rewrite ?Nat.eqb_refl. reflexivity.
  - unfold owner_destroy. cbn [o_decay o_update]. rewrite (clean_owned _ _ 0 (S td)) by (auto; split; reflexivity).
    cbn [SA.set_nth]. rewrite (clean_owned _ _ 1 (S tu)) by (auto; split; reflexivity). reflexivity.
  - reflexivity.
Qed.
Print Assumptions C44_copy_refuted.

(** Set() on a full holder loses the old object: it is never deleted. *)
Theorem C44_overwrite_refuted : forall t u, t <> 0 -> u <> 0 ->
  exists l, do_calls [CSet t; CSet u; CClean] log0 = Some l /\ l_deleted l = [1].
Proof.
  intros t u H1 H2. destruct (any_ok [CSet t; CSet u; CClean]) as (l & E & G); [repeat constructor; assumption|].
  exists l. split; [exact E|]. destruct u as [|u]; [congruence|].
  cbn in E. unfold any_clean, delete in E. cbn in E. rewrite Nat.eqb_refl in E. injection E as <-. reflexivity.
Qed.
Print Assumptions C44_overwrite_refuted.

(** A holder of a null pointer passes the type check. *)
Theorem C44_null_refuted : forall t, do_calls [CSetNull t; CAs t] log0 = None.
Proof. intros t. cbn. unfold any_as. cbn. rewrite Nat.eqb_refl. reflexivity. Qed.
Print Assumptions C44_null_refuted.
