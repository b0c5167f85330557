From Coq Require Import List Arith Bool ZArith Lia Permutation.
From Verif.Base Require Import Num.
From Verif.Model Require Import Common SA ParallelSgd.
From Verif.Spec Require Import ParSpec.
From Verif.Proof Require Import SAProof.
Import ListNotations.

Section P.
  Context {N : Num}.
  Variables (share : nat) (order : list nat) (step : N).
  Variable grad : list (pev N) -> nat -> list (nat * N).
  Variables (cbG cbS : list (pev N) -> bool).
  Notation pstep := (pstep share order step grad cbG cbS).
  Notation pexec := (pexec share order step grad cbG cbS).
  Notation in_loop := (in_loop share order).

  (** what thread t still has to do *)
  Definition slice (a b : nat) : list nat := skipn a (firstn b order).
  Definition todo (t : nat) (l : loc N) : list nat :=
    match l_ph l with AtGrad => slice (l_j l) ((t + 1) * share) | _ => slice (S (l_j l)) ((t + 1) * share) end.
  Definition pend (l : loc N) : list (nat * N) :=
    match l_ph l with LoadG _ u | StoreG _ u | AtSub u => u | _ => [] end.
  Fixpoint todos (t : nat) (ls : list (loc N)) : list (nat * nat) :=
    match ls with [] => [] | l :: r => map (fun i => (t, i)) (todo t l) ++ todos (S t) r end.
  Definition pends (ls : list (loc N)) : list (nat * N) := flat_map pend ls.

  Lemma skipn_cons (l : list nat) j : j < length l -> skipn j l = nth j l 0 :: skipn (S j) l.
  Proof. revert j. induction l as [|x l IH]; intros [|j] L; simpl in *; try lia; auto. rewrite IH by lia. reflexivity. Qed.
  Lemma nth_firstn_lt (l : list nat) j b : j < b -> nth j (firstn b l) 0 = nth j l 0.
  Proof. revert j b. induction l as [|x l IH]; intros [|j] [|b] L; simpl; try lia; auto. apply IH. lia. Qed.
  Lemma slice_cons t j : in_loop t j = true -> slice j ((t + 1) * share) = nth j order 0 :: slice (S j) ((t + 1) * share).
  Proof.
    unfold ParallelSgd.in_loop. rewrite andb_true_iff, !Nat.ltb_lt. intros [A B]. unfold slice.
    rewrite (skipn_cons _ j) by (rewrite firstn_length; lia). f_equal. apply nth_firstn_lt. exact A.
  Qed.
  Lemma slice_end t j : in_loop t j = false -> slice j ((t + 1) * share) = [].
  Proof.
    unfold ParallelSgd.in_loop. rewrite andb_false_iff, !Nat.ltb_ge. intros H. unfold slice. apply skipn_all2. rewrite firstn_length. lia.
  Qed.

  (** one thread in the list of all *)
  Lemma todos_split : forall ls t0 t l, nth_error ls t = Some l -> exists a b,
    todos t0 ls = a ++ map (fun i => (t0 + t, i)) (todo (t0 + t) l) ++ b /\
    forall l', todos t0 (set_nth t l' ls) = a ++ map (fun i => (t0 + t, i)) (todo (t0 + t) l') ++ b.
  Proof.
    induction ls as [|l0 ls IH]; intros t0 [|t] l E; try discriminate; simpl in E.
    - injection E as ->. exists [], (todos (S t0) ls). rewrite Nat.add_0_r. simpl. auto.
    - destruct (IH (S t0) t l E) as (a & b & A & B). exists (map (fun i => (t0, i)) (todo t0 l0) ++ a), b.
      replace (t0 + S t) with (S t0 + t) by lia. simpl todos. rewrite A, <- !app_assoc. split; [reflexivity|].
      intros l'. simpl. rewrite B, <- !app_assoc. reflexivity.
  Qed.
  Lemma pends_split : forall ls t l, nth_error ls t = Some l -> exists a b,
    pends ls = a ++ pend l ++ b /\ forall l', pends (set_nth t l' ls) = a ++ pend l' ++ b.
  Proof.
    unfold pends. induction ls as [|l0 ls IH]; intros [|t] l E; try discriminate; simpl in E.
    - injection E as ->. exists [], (flat_map pend ls). simpl. auto.
    - destruct (IH t l E) as (a & b & A & B). exists (pend l0 ++ a), b. simpl. rewrite A, <- !app_assoc. split; [reflexivity|].
      intros l'. rewrite B, <- !app_assoc. reflexivity.
  Qed.

  Definition subs (us : list (nat * N)) (x : list N) : list N := fold_left (fun y '(p, a) => sub_at p a y) us x.

  Lemma perm_mid {A} (x : list A) y a m b : Permutation (x ++ a ++ (y :: m) ++ b) ((x ++ [y]) ++ a ++ m ++ b).
  Proof.
    rewrite <- app_assoc. apply Permutation_app_head. simpl. symmetry. apply Permutation_middle.
  Qed.
  Lemma perm_ins {A} (w u a b x : list A) : Permutation (x ++ a ++ b) w -> Permutation (x ++ a ++ u ++ b) (w ++ u).
  Proof.
    intros H. rewrite <- H. rewrite <- !app_assoc. apply Permutation_app_head. rewrite !app_assoc.
    rewrite <- (app_assoc a b u). rewrite <- app_assoc. apply Permutation_app_head. apply Permutation_app_comm.
  Qed.

  Lemma flat_rev_cons {A B} (f : A -> list B) e l : flat_map f (rev (e :: l)) = flat_map f (rev l) ++ f e.
  Proof. simpl. rewrite flat_map_app. simpl. rewrite app_nil_r. reflexivity. Qed.

  (** the invariant *)
  Definition inv (x0 : list N) (all : list (nat * nat)) (s : sh N) (ls : list (loc N)) : Prop :=
    let es := rev (s_log s) in
    Permutation (computed es ++ todos 0 ls) all /\
    Permutation (applied es ++ pends ls) (wanted step es) /\
    s_it s = subs (applied es) x0.

  Lemma inv_step x0 all t s l ls s' l' : nth_error ls t = Some l -> pstep t s l = Some (s', l') ->
    inv x0 all s ls -> inv x0 all s' (set_nth t l' ls).
  Proof.
    intros NT E (I1 & I2 & I3). unfold inv.
    destruct (todos_split ls 0 t l NT) as (a & b & A & B). destruct (pends_split ls t l NT) as (a' & b' & A' & B').
    rewrite B, B'. rewrite A in I1. rewrite A' in I2. simpl Nat.add in *.
    unfold ParallelSgd.pstep in E. destruct l as [j ph]. simpl in E. destruct ph as [|ask u|bb u|u|ask|bb]; simpl in A, B, A', B', I1, I2.
    - destruct (in_loop t j) eqn:IL; [|discriminate]. injection E as <- <-. simpl. unfold computed, applied, wanted in *.
      rewrite !flat_map_app. simpl. rewrite !app_nil_r. unfold todo in *. simpl in *. rewrite (slice_cons t j IL) in I1.
      split; [|split].
      + rewrite <- I1. simpl. symmetry. apply (perm_mid _ (t, nth j order 0)).
      + apply perm_ins. exact I2.
      + exact I3.
    - injection E as <- <-. simpl. unfold computed, applied, wanted in *. rewrite !flat_map_app. simpl. rewrite !app_nil_r. auto.
    - injection E as <- <-. simpl. unfold computed, applied, wanted in *. rewrite !flat_map_app. simpl. rewrite !app_nil_r. auto.
    - destruct u as [|[p v] u]; injection E as <- <-; simpl; unfold computed, applied, wanted in *; rewrite !flat_map_app; simpl; rewrite !app_nil_r.
      + auto.
      + split; [auto|]. split.
        * rewrite <- I2. symmetry. apply (perm_mid _ (p, v)).
        * unfold subs in *. rewrite fold_left_app. simpl. rewrite <- I3. reflexivity.
    - injection E as <- <-. simpl. unfold computed, applied, wanted in *. rewrite !flat_map_app. simpl. rewrite !app_nil_r. auto.
    - injection E as <- <-. simpl. unfold computed, applied, wanted in *. rewrite !flat_map_app. simpl. rewrite !app_nil_r. auto.
  Qed.

  Lemma inv_exec x0 all : forall sched s ls s' ls', pexec sched s ls = (s', ls') -> inv x0 all s ls -> inv x0 all s' ls'.
  Proof.
    induction sched as [|t r IH]; intros s ls s' ls' E I; simpl in E; [injection E as <- <-; exact I|].
    destruct (nth_error ls t) as [l|] eqn:NT; [|eapply IH; eauto].
    destruct (pstep t s l) as [[s1 l1]|] eqn:PS; [|eapply IH; eauto]. eapply IH; [exact E|]. eapply inv_step; eauto.
  Qed.

  (** threads compute only their own share *)
  Definition own (e : nat * nat) : Prop :=
    exists j, fst e * share <= j < (fst e + 1) * share /\ nth_error order j = Some (snd e).
  Lemma slice_own t j i : t * share <= j -> In i (slice j ((t + 1) * share)) -> own (t, i).
  Proof.
    intros L H. unfold slice in H. destruct (In_nth_error _ _ H) as [k K].
    assert (E : forall {A} (l : list A) j k, nth_error (skipn j l) k = nth_error l (j + k)).
    { intros A l. induction l as [|x l IH]; intros [|j'] k'; simpl; auto. destruct k'; reflexivity. }
    rewrite E in K. exists (j + k). simpl.
    assert (F : forall (l : list nat) b m, nth_error (firstn b l) m = Some i -> m < b /\ nth_error l m = Some i).
    { clear. intros l. induction l as [|x l IH]; intros [|b] [|m] H; simpl in H; try discriminate.
      - split; [lia|exact H].
      - destruct (IH b m H). split; [lia|auto]. }
    apply F in K. destruct K as [K1 K2]. split; [lia|exact K2].
  Qed.

  Lemma start_todos : forall T t0,
    todos t0 (map (fun t => {| l_j := t * share; l_ph := AtGrad |}) (seq t0 T))
    = flat_map (fun t => map (fun i => (t, i)) (slice (t * share) ((t + 1) * share))) (seq t0 T).
  Proof. induction T as [|T IH]; intros t0; simpl; [reflexivity|]. rewrite IH. reflexivity. Qed.
  Lemma start_pends T : pends (start share T) = [].
  Proof. unfold start, pends. induction (seq 0 T) as [|t l IH]; simpl; auto. Qed.
  Lemma firstn_skipn_slice a b : a <= b -> firstn b order = firstn a order ++ slice a b.
  Proof. intros L. unfold slice. rewrite <- (firstn_skipn a (firstn b order)) at 1. rewrite firstn_firstn, Nat.min_l by exact L. reflexivity. Qed.
  Lemma slices_all : forall T, flat_map (fun t => slice (t * share) ((t + 1) * share)) (seq 0 T) = firstn (T * share) order.
  Proof.
    induction T as [|T IH]; [reflexivity|]. rewrite seq_S, flat_map_app, IH. simpl. rewrite app_nil_r.
    rewrite (firstn_skipn_slice (T * share) (share + T * share)) by lia. do 2 f_equal. lia.
  Qed.

  Lemma finished_todos : forall ls t, finished_from share order t ls = true -> todos t ls = [] /\ pends ls = [].
  Proof.
    induction ls as [|l ls IH]; intros t H; simpl in H; [auto|]. apply andb_true_iff in H. destruct H as [A B].
    destruct (IH (S t) B) as [I1 I2]. unfold pends in *. simpl. unfold todo.
    assert (P0 : pend l = []) by (unfold pend; destruct (l_ph l); try discriminate; reflexivity).
    destruct (l_ph l) eqn:P; try discriminate. rewrite P0, I1, I2. rewrite slice_end by (apply negb_true_iff; exact A). auto.
  Qed.

  Lemma map_snd_pairs (l : list nat) (h : nat -> list nat) :
    map snd (flat_map (fun t => map (fun i => (t, i)) (h t)) l) = flat_map h l.
  Proof.
    induction l as [|t l IH]; simpl; [reflexivity|]. rewrite map_app, IH, map_map. f_equal. simpl. rewrite map_id. reflexivity.
  Qed.

  Lemma epoch_ok T sched x0 term s ls :
    pexec sched {| s_it := x0; s_term := term; s_log := [] |} (start share T) = (s, ls) ->
    finished share order ls = true ->
    let es := rev (s_log s) in
    Permutation (map snd (computed es)) (firstn (T * share) order) /\
    Forall own (computed es) /\
    Permutation (applied es) (wanted step es) /\
    s_it s = subs (applied es) x0.
  Proof.
    intros E F es. set (all := flat_map (fun t => map (fun i => (t, i)) (slice (t * share) ((t + 1) * share))) (seq 0 T)).
    assert (I0 : inv x0 all {| s_it := x0; s_term := term; s_log := [] |} (start share T)).
    { unfold inv. simpl. rewrite start_pends. unfold start. rewrite start_todos. split; [reflexivity|]. split; reflexivity. }
    destruct (inv_exec x0 all sched _ _ _ _ E I0) as (I1 & I2 & I3). fold es in I1, I2, I3.
    destruct (finished_todos ls 0 F) as [Z1 Z2]. rewrite Z1, app_nil_r in I1. rewrite Z2, app_nil_r in I2.
    split; [|split; [|split; [exact I2|exact I3]]].
    - rewrite <- slices_all, <- map_snd_pairs. fold all. apply Permutation_map. exact I1.
    - apply Forall_forall. intros [t i] H. apply (Permutation_in _ I1) in H. unfold all in H. apply in_flat_map in H.
      destruct H as (t' & _ & H). apply in_map_iff in H. destruct H as (i' & Q & H). injection Q as -> ->. eapply slice_own; [|exact H]. lia.
  Qed.

  (** some thread can go on unless all have finished *)
  Lemma progress s : forall ls t0, finished_from share order t0 ls = false ->
    exists t l, nth_error ls t = Some l /\ pstep (t0 + t) s l <> None.
  Proof.
    induction ls as [|l ls IH]; intros t0 H; simpl in H; [discriminate|].
    destruct (match l_ph l with AtGrad => negb (in_loop t0 (l_j l)) | _ => false end) eqn:A.
    - simpl in H. destruct (IH (S t0) H) as (t & l' & B & C). exists (S t), l'. replace (t0 + S t) with (S t0 + t) by lia. auto.
    - exists 0, l. rewrite Nat.add_0_r. split; [reflexivity|]. unfold ParallelSgd.pstep. destruct (l_ph l) as [| | |u| |]; try discriminate.
      + apply negb_false_iff in A. rewrite A. discriminate.
      + destruct u as [|[p a] u]; discriminate.
  Qed.

  (** one thread: no request is lost *)
  Definition held (s : sh N) (l : loc N) : bool :=
    match l_ph l with LoadG b _ | LoadS b => s_term s || b | StoreG b _ | StoreS b => b | _ => s_term s end.
  Lemma single_term : forall sched s l s' ls', pexec sched s [l] = (s', ls') -> forall t0,
    (held s l = t0 || par_asked (rev (s_log s)))%bool ->
    exists l', ls' = [l'] /\ (held s' l' = t0 || par_asked (rev (s_log s')))%bool.
  Proof.
    assert (PA : forall (es : list (pev N)) e, par_asked (rev (e :: es)) =
       (par_asked (rev es) || match e with PGrad _ _ _ b => b | PTaken _ _ b => b | _ => false end)%bool).
    { intros es e. unfold par_asked. simpl rev. rewrite existsb_app. simpl. rewrite orb_false_r. reflexivity. }
    induction sched as [|t r IH]; intros s l s' ls' E t0 H; simpl in E; [injection E as <- <-; eauto|].
    destruct t as [|t]; simpl in E; [|destruct t; simpl in E; eapply IH; eauto].
    destruct (pstep 0 s l) as [[s1 l1]|] eqn:PS; [|eapply IH; eauto]. eapply IH; [exact E|]. clear IH E.
    unfold ParallelSgd.pstep in PS. destruct l as [j ph]. unfold held in *. simpl in PS, H. destruct ph as [|ask u|bb u|u|ask|bb].
    - destruct (in_loop 0 j); [|discriminate]. injection PS as <- <-. unfold emit. simpl s_log. rewrite PA. simpl in *. rewrite H, orb_assoc. reflexivity.
    - injection PS as <- <-. unfold emit. simpl s_log. rewrite PA. simpl in *. rewrite orb_false_r. exact H.
    - injection PS as <- <-. simpl s_log. rewrite PA. simpl in *. rewrite orb_false_r. exact H.
    - destruct u as [|[p v] u]; injection PS as <- <-; unfold emit; simpl s_log; rewrite PA; simpl in *.
      + rewrite H, orb_assoc. reflexivity.
      + rewrite orb_false_r. exact H.
    - injection PS as <- <-. unfold emit. simpl s_log. rewrite PA. simpl in *. rewrite orb_false_r. exact H.
    - injection PS as <- <-. simpl s_log. rewrite PA. simpl in *. rewrite orb_false_r. exact H.
  Qed.
  Lemma single_stop sched x0 term s ls :
    pexec sched {| s_it := x0; s_term := term; s_log := [] |} (start share 1) = (s, ls) ->
    finished share order ls = true -> s_term s = (term || par_asked (rev (s_log s)))%bool.
  Proof.
    intros E F. destruct (single_term _ _ _ _ _ E term) as (l' & -> & H); [simpl; rewrite orb_false_r; reflexivity|].
    unfold finished in F. simpl in F. unfold held in H. destruct (l_ph l'); try discriminate. exact H.
  Qed.

  (** a stop request, once written by the only thread that has one, or any request at all, is
      only ever added by an answer: without a request the flag stays false *)
  Lemma term_source : forall sched s ls s' ls', pexec sched s ls = (s', ls') ->
    par_asked (rev (s_log s')) = false -> s_term s = false ->
    (forall l, In l ls -> match l_ph l with LoadG b _ | LoadS b | StoreG b _ | StoreS b => b = false | _ => True end) ->
    s_term s' = false.
  Proof.
    assert (PA : forall (es : list (pev N)) e, par_asked (rev (e :: es)) =
       (par_asked (rev es) || match e with PGrad _ _ _ b => b | PTaken _ _ b => b | _ => false end)%bool).
    { intros es e. unfold par_asked. simpl rev. rewrite existsb_app. simpl. rewrite orb_false_r. reflexivity. }
    assert (LOG : forall sched s ls s' ls', pexec sched s ls = (s', ls') -> par_asked (rev (s_log s')) = false -> par_asked (rev (s_log s)) = false).
    { induction sched as [|t r IH]; intros s ls s' ls' E H; simpl in E; [injection E as <- <-; exact H|].
      destruct (nth_error ls t) as [l|]; [|eapply IH; eauto].
      destruct (pstep t s l) as [[s1 l1]|] eqn:PS; [|eapply IH; eauto]. specialize (IH _ _ _ _ E H).
      unfold ParallelSgd.pstep in PS. destruct l as [j ph]. simpl in PS. destruct ph as [|ask u|bb u|[|[p v] u]|ask|bb];
        [destruct (in_loop t j); [|discriminate]|..]; injection PS as <- <-; unfold emit in IH; simpl s_log in IH; rewrite PA in IH; apply orb_false_iff in IH; apply IH. }
    induction sched as [|t r IH]; intros s ls s' ls' E NA T0 H; simpl in E; [injection E as <- <-; exact T0|].
    destruct (nth_error ls t) as [l|] eqn:NT; [|eapply IH; eauto].
    destruct (pstep t s l) as [[s1 l1]|] eqn:PS; [|eapply IH; eauto].
    pose proof (LOG _ _ _ _ _ E NA) as NA1.
    assert (G : s_term s1 = false /\ match l_ph l1 with LoadG b _ | LoadS b | StoreG b _ | StoreS b => b = false | _ => True end).
    { specialize (H l (nth_error_In _ _ NT)). unfold ParallelSgd.pstep in PS. destruct l as [j ph]. simpl in PS, H.
      destruct ph as [|ask u|bb u|[|[p v] u]|ask|bb]; [destruct (in_loop t j); [|discriminate]|..]; injection PS as <- <-; unfold emit in NA1; simpl s_log in NA1;
        rewrite PA in NA1; apply orb_false_iff in NA1; simpl; rewrite ?T0, ?H; auto; split; auto; apply NA1. }
    eapply IH; [exact E|exact NA|apply G|]. intros l' I. apply In_nth_error in I. destruct I as [k K].
    destruct (Nat.eq_dec k t) as [->|NE].
    - rewrite set_nth_same in K by (apply nth_error_Some; congruence). injection K as <-. apply G.
    - rewrite set_nth_other in K by exact NE. apply H. eapply nth_error_In; exact K.
  Qed.
End P.
