(** arma::sort_index: what it guarantees, and one function that does it.  (The order
    of equal elements is unspecified, so models take the sorting function as a
    parameter that satisfies the specification.) *)
From Coq Require Import List Arith Bool Lia Permutation.
From Verif.Base Require Import Num.
Import ListNotations.

Section Sort.
  Context {N : Num}.
  Definition no_nan (l : list N) : Prop := forall v, In v l -> nisnan v = false.

  (** [idx] lists the positions of l, each once, in ascending order of the elements *)
  Definition sorted_index (l : list N) (idx : list nat) : Prop :=
    Permutation idx (seq 0 (length l)) /\
    forall a b i j u v, a < b -> nth_error idx a = Some i -> nth_error idx b = Some j ->
      nth_error l i = Some u -> nth_error l j = Some v -> nlt v u = false.

  Fixpoint insert_idx (l : list N) (i : nat) (idx : list nat) : list nat :=
    match idx with
    | [] => [i]
    | j :: r => if nlt (nth j l n0) (nth i l n0) then j :: insert_idx l i r else i :: idx
    end.
  Definition isort_index (l : list N) : list nat := fold_right (insert_idx l) [] (seq 0 (length l)).

  Lemma insert_perm : forall l i idx, Permutation (insert_idx l i idx) (i :: idx).
  Proof.
    intros l i idx. induction idx as [|j r IH]; simpl; [reflexivity|]. destruct (nlt _ _); [|reflexivity].
    rewrite IH. apply perm_swap.
  Qed.

  Inductive asc (l : list N) : list nat -> Prop :=
  | asc_nil : asc l []
  | asc_cons i r : (forall j, In j r -> nlt (nth j l n0) (nth i l n0) = false) -> asc l r -> asc l (i :: r).

  Lemma insert_asc : OrdLaws N -> forall l i idx, no_nan l -> i < length l -> (forall j, In j idx -> j < length l) ->
    asc l idx -> asc l (insert_idx l i idx).
  Proof.
    intros O l i idx NN Hi Hx A. assert (NV : forall j, j < length l -> nisnan (nth j l n0) = false) by (intros; apply NN; apply nth_In; auto).
    induction A as [|j r H A IH]; simpl; [constructor; [intros j []|constructor]|].
    assert (Hj : j < length l) by (apply Hx; left; reflexivity).
    destruct (nlt (nth j l n0) (nth i l n0)) eqn:E.
    - constructor; [|apply IH; intros; apply Hx; right; auto]. intros k K.
      apply (Permutation_in _ (insert_perm l i r)) in K as [<-|K]; [|auto].
      apply (ol_le_not_lt _ O). apply (ol_lt_le _ O). exact E.
    - constructor; [|constructor; auto]. intros k [<-|K]; [exact E|].
      assert (Hk : k < length l) by (apply Hx; right; exact K).
      assert (nle (nth i l n0) (nth j l n0) = true) by (apply (ol_total _ O); auto).
      assert (nle (nth j l n0) (nth k l n0) = true) by (apply (ol_total _ O); auto).
      apply (ol_le_not_lt _ O). eapply (ol_le_trans _ O); eauto.
  Qed.

  Lemma asc_spec : forall l idx, asc l idx -> forall a b i j, a < b -> nth_error idx a = Some i -> nth_error idx b = Some j ->
    nlt (nth j l n0) (nth i l n0) = false.
  Proof.
    intros l idx A. induction A as [|i0 r H A IH]; intros a b i j L E1 E2; [destruct a; discriminate|].
    destruct b as [|b]; [lia|]. simpl in E2. destruct a as [|a]; simpl in E1.
    - injection E1 as ->. apply H. eapply nth_error_In; eauto.
    - eapply (IH a b); eauto. lia.
  Qed.

  Lemma isort_ok : OrdLaws N -> forall l, no_nan l -> sorted_index l (isort_index l).
  Proof.
    intros O l NN. unfold isort_index.
    assert (G : forall s, (forall i, In i s -> i < length l) ->
      Permutation (fold_right (insert_idx l) [] s) s /\ asc l (fold_right (insert_idx l) [] s)).
    { induction s as [|i s IH]; intros H; simpl; [split; constructor|].
      destruct IH as [P A]; [intros; apply H; right; auto|]. split.
      - rewrite insert_perm. constructor. exact P.
      - apply insert_asc; auto; [apply H; left; reflexivity|]. intros j J. apply H. right. eapply Permutation_in; eauto. }
    destruct (G (seq 0 (length l))) as [P A]; [intros i I; apply in_seq in I; lia|]. split; [exact P|].
    intros a b i j u v L E1 E2 E3 E4. pose proof (asc_spec _ _ A _ _ _ _ L E1 E2) as K.
    rewrite (nth_error_nth _ _ _ E3), (nth_error_nth _ _ _ E4) in K. exact K.
  Qed.
End Sort.
