(** Loops of the C++ code as iteration of a one-step function.

    [body s = inl s'] : the loop goes on with state [s'];
    [body s = inr r]  : the loop (or the whole function) is left with [r].
    [loop body fuel s] performs at most [fuel] steps; running out of fuel is the
    distinct outcome [inl]. *)
From Coq Require Import Arith Lia.

Section Loop.
  Context {S R : Type}.
  Variable body : S -> S + R.

  Fixpoint loop (fuel : nat) (s : S) : S + R :=
    match fuel with
    | O => inl s
    | Datatypes.S k => match body s with inl s' => loop k s' | inr r => inr r end
    end.

  Lemma loop_inv (P : S -> Prop) (Q : R -> Prop) :
    (forall s, P s -> match body s with inl s' => P s' | inr r => Q r end) ->
    forall fuel s, P s -> match loop fuel s with inl s' => P s' | inr r => Q r end.
  Proof.
    intros Hb fuel; induction fuel as [|k IH]; intros s Hs; cbn [loop]; [exact Hs|].
    specialize (Hb s Hs). destruct (body s) as [s'|r]; [apply IH; exact Hb | exact Hb].
  Qed.

  Lemma loop_inv_done (P : S -> Prop) (Q : R -> Prop) :
    (forall s, P s -> match body s with inl s' => P s' | inr r => Q r end) ->
    forall fuel s r, P s -> loop fuel s = inr r -> Q r.
  Proof.
    intros Hb fuel s r Hs Hr. pose proof (loop_inv P Q Hb fuel s Hs) as H.
    rewrite Hr in H. exact H.
  Qed.

  Lemma loop_more : forall fuel s r k, loop fuel s = inr r -> loop (fuel + k) s = inr r.
  Proof.
    intros fuel; induction fuel as [|n IH]; intros s r k H; cbn [loop Nat.add] in *; [discriminate|].
    destruct (body s) as [s'|r']; [apply IH; exact H | exact H].
  Qed.

  Lemma loop_mono : forall f1 f2 s r, f1 <= f2 -> loop f1 s = inr r -> loop f2 s = inr r.
  Proof.
    intros f1 f2 s r Hle H. replace f2 with (f1 + (f2 - f1)) by lia. apply loop_more; exact H.
  Qed.

  Lemma loop_det : forall f1 f2 s r1 r2,
    loop f1 s = inr r1 -> loop f2 s = inr r2 -> r1 = r2.
  Proof.
    intros f1 f2 s r1 r2 H1 H2.
    assert (loop (max f1 f2) s = inr r1) as A by (eapply loop_mono; [|exact H1]; lia).
    assert (loop (max f1 f2) s = inr r2) as B by (eapply loop_mono; [|exact H2]; lia).
    congruence.
  Qed.

  (** Termination: a measure that decreases at every continuing step. *)
  Lemma loop_terminates (P : S -> Prop) (m : S -> nat) :
    (forall s, P s -> match body s with inl s' => P s' /\ m s' < m s | inr _ => True end) ->
    forall fuel s, P s -> m s < fuel -> exists r, loop fuel s = inr r.
  Proof.
    intros Hb fuel; induction fuel as [|k IH]; intros s Hs Hm; [lia|]. cbn [loop].
    specialize (Hb s Hs). destruct (body s) as [s'|r].
    - destruct Hb as [Hp Hlt]. apply IH; [exact Hp|lia].
    - exists r; reflexivity.
  Qed.

  (** A loop whose body always continues never finishes. *)
  Lemma loop_diverges (P : S -> Prop) :
    (forall s, P s -> exists s', body s = inl s' /\ P s') ->
    forall fuel s, P s -> exists s', loop fuel s = inl s' /\ P s'.
  Proof.
    intros Hb fuel; induction fuel as [|k IH]; intros s Hs; cbn [loop].
    - exists s; split; [reflexivity|exact Hs].
    - destruct (Hb s Hs) as [s' [E Hs']]. rewrite E. apply IH; exact Hs'.
  Qed.
End Loop.
