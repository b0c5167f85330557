From Coq Require Import List Arith Bool ZArith Lia Permutation.
From Verif.Base Require Import Num.
From Verif.Model Require Import Common SA ParallelSgd.
From Verif.Spec Require Import ParSpec ParSerialSpec.
From Verif.Proof Require Import SAProof ParProof ParRun.
Import ListNotations.

Section A.
  Context {N : Num}.
  Notation vec := (list N).
  (** subtractions at different positions commute *)
  Lemma amounts_none p (us : list (nat * N)) : ~ In p (map fst us) -> amounts p us = [].
  Proof.
    unfold amounts. induction us as [|[q a] us IH]; intros H; [reflexivity|]. simpl in *.
    destruct (Nat.eqb_spec q p) as [E|_]; [elim H; auto|]. apply IH. tauto.
  Qed.
  Lemma amounts_one p a (us : list (nat * N)) : NoDup (map fst us) -> In (p, a) us -> amounts p us = [a].
  Proof.
    induction us as [|[q b] us IH]; intros ND I; [destruct I|]. simpl in ND. apply NoDup_cons_iff in ND. destruct ND as [NI ND].
    unfold amounts. simpl. fold (amounts p us). destruct I as [E|I].
    - injection E as -> ->. rewrite Nat.eqb_refl, (amounts_none p us NI). reflexivity.
    - destruct (Nat.eqb_spec q p) as [->|_]; [|simpl; auto].
      elim NI. apply in_map_iff. exists (p, a). auto.
  Qed.
  Lemma nth_ext' (x y : vec) : (forall p, nth_error x p = nth_error y p) -> x = y.
  Proof.
    revert y. induction x as [|a x IH]; intros [|b y] H; [reflexivity|discriminate (H 0)|discriminate (H 0)|].
    pose proof (H 0) as H0. injection H0 as ->. f_equal. apply IH. intros p. exact (H (S p)).
  Qed.
  Lemma subs_perm (us ws : list (nat * N)) x : Permutation us ws -> NoDup (map fst us) -> subs us x = subs ws x.
  Proof.
    intros P ND. apply nth_ext'. intros p. rewrite !subs_nth. f_equal.
    assert (E : amounts p us = amounts p ws); [|rewrite E; reflexivity].
    assert (ND' : NoDup (map fst ws)) by (apply (Permutation_NoDup (l := map fst us)); [apply Permutation_map; exact P|exact ND]).
    destruct (in_dec Nat.eq_dec p (map fst us)) as [I|NI].
    - apply in_map_iff in I. destruct I as ([q a] & E & I). simpl in E. subst q.
      rewrite (amounts_one p a us ND I), (amounts_one p a ws ND' (Permutation_in _ P I)). reflexivity.
    - rewrite (amounts_none p us NI), amounts_none; [reflexivity|]. intros I. apply NI.
      apply (Permutation_in (l := map fst ws)); [apply Permutation_map; symmetry; exact P|exact I].
  Qed.
  Lemma subs_other (us : list (nat * N)) x p : ~ In p (map fst us) -> nth_error (subs us x) p = nth_error x p.
  Proof. intros H. rewrite subs_nth, (amounts_none p us H). destruct (nth_error x p); reflexivity. Qed.
  Lemma scaled_fst (step : N) (g : list (nat * N)) : map fst (scaled step g) = map fst g.
  Proof. unfold scaled. rewrite map_map. apply map_ext. intros [p a]. reflexivity. Qed.
  Lemma fold_scaled (step : N) (g : list (nat * N)) x :
    fold_left (fun z '(p, a) => sub_at p (nmul step a) z) g x = subs (scaled step g) x.
  Proof. revert x. unfold subs, scaled. induction g as [|[p a] g IH]; intros x; [reflexivity|]. simpl. apply IH. Qed.
  Lemma subs_app (us ws : list (nat * N)) x : subs (us ++ ws) x = subs ws (subs us x).
  Proof. unfold subs. apply fold_left_app. Qed.
  Lemma NoDup_app_disj {A} (l m : list A) : NoDup l -> NoDup m -> (forall z, In z l -> ~ In z m) -> NoDup (l ++ m).
  Proof.
    induction l as [|a l IH]; intros Hl Hm D; [exact Hm|]. apply NoDup_cons_iff in Hl. destruct Hl as [NI Hl]. simpl. constructor.
    - rewrite in_app_iff. intros [I|I]; [auto|]. apply (D a); simpl; auto.
    - apply IH; auto. intros z I. apply D. simpl. auto.
  Qed.

  Variables (n : nat) (supp : nat -> nat -> Prop) (G : nat -> vec -> list (nat * N)).
  Hypothesis SEP : separate n supp G.
  Variable step : N.

  (** every element once *)
  Definition total (x : vec) (l : list nat) : list (nat * N) := flat_map (fun i => scaled step (G i x)) l.
  Lemma total_fst x l p : (forall i, In i l -> i < n) -> In p (map fst (total x l)) -> exists i, In i l /\ supp i p.
  Proof.
    intros L I. apply in_map_iff in I. destruct I as ([q a] & E & I). simpl in E. subst q. apply in_flat_map in I.
    destruct I as (i & Ii & I). exists i. split; [exact Ii|]. unfold scaled in I. apply in_map_iff in I. destruct I as ([q b] & E & I).
    injection E as -> _. exact (sep_writes _ _ _ SEP i x p b (L i Ii) I).
  Qed.
  Lemma total_nodup x l : NoDup l -> (forall i, In i l -> i < n) -> NoDup (map fst (total x l)).
  Proof.
    induction l as [|i l IH]; intros ND L; [constructor|]. apply NoDup_cons_iff in ND. destruct ND as [NI ND].
    simpl. rewrite map_app. apply NoDup_app_disj.
    - rewrite scaled_fst. exact (sep_once _ _ _ SEP i x (L i (or_introl eq_refl))).
    - apply IH; [exact ND|]. intros j J. apply L. simpl. auto.
    - intros p I1 I2. destruct (total_fst x l p) as (j & J & S2); [intros; apply L; simpl; auto|exact I2|].
      destruct (total_fst x [i] p) as (i' & [->|[]] & S1); [intros k [->|[]]; apply L; simpl; auto|unfold total; simpl; rewrite app_nil_r; exact I1|].
      rewrite (sep_apart _ _ _ SEP i' j p (L i' (or_introl eq_refl)) (L j (or_intror J)) S1 S2) in NI. auto.
  Qed.
  Lemma serial_total x : forall l done, NoDup (done ++ l) -> (forall i, In i (done ++ l) -> i < n) ->
    fold_left (fun y i => fold_left (fun z '(p, a) => sub_at p (nmul step a) z) (G i y) y) l (subs (total x done) x) =
    subs (total x (done ++ l)) x.
  Proof.
    induction l as [|i l IH]; intros dn ND L; [rewrite app_nil_r; reflexivity|]. simpl.
    rewrite fold_scaled.
    assert (Li : i < n) by (apply L; apply in_or_app; simpl; auto).
    assert (Q : G i (subs (total x dn) x) = G i x).
    { apply (sep_reads _ _ _ SEP i _ _ Li). intros p Sp. apply subs_other. intros I.
      destruct (total_fst x dn p) as (j & J & Sj); [intros; apply L; apply in_or_app; auto|exact I|].
      assert (j = i) by (apply (sep_apart _ _ _ SEP j i p); auto; apply L; apply in_or_app; auto). subst j.
      apply NoDup_remove_2 in ND. apply ND. apply in_or_app. auto. }
    rewrite Q, <- subs_app. replace (total x dn ++ scaled step (G i x)) with (total x (dn ++ [i])).
    2: { unfold total. rewrite flat_map_app. simpl. rewrite app_nil_r. reflexivity. }
    replace (dn ++ i :: l) with ((dn ++ [i]) ++ l) in * by (rewrite <- app_assoc; reflexivity). apply IH; auto.
  Qed.
  Lemma serial_pass_total x : serial_pass step G n x = subs (total x (seq 0 n)) x.
  Proof.
    unfold serial_pass. change x with (subs (total x []) x) at 1. rewrite (serial_total x (seq 0 n) []); [reflexivity|apply seq_NoDup|].
    simpl. intros i I. apply in_seq in I. lia.
  Qed.

  Variables (share : nat) (order : list nat).
  Hypothesis ORD : Permutation order (seq 0 n).
  Variable grad : list (pev N) -> nat -> list (nat * N).
  Variables (cbG cbS : list (pev N) -> bool).
  Variable x0 : vec.
  Hypothesis SEEN : forall h idx, idx < n -> exists y, seen x0 h y /\ grad h idx = G idx y.
  Notation pstep := (pstep share order step grad cbG cbS).
  Notation pexec := (pexec share order step grad cbG cbS).

  Definition exact_grads (s : sh N) : Prop :=
    forall t idx g ask, In (PGrad t idx g ask) (s_log s) -> g = G idx x0.
  Variable all : list (nat * nat).
  Hypothesis ALL : NoDup (map snd all).
  Hypothesis ALLn : forall i, In i (map snd all) -> i < n.
  Notation inv := (inv share order step x0 all).

  Lemma wanted_from es p a : In (p, a) (wanted step es) ->
    exists t idx g ask, In (PGrad t idx g ask) es /\ In (p, a) (scaled step g).
  Proof.
    unfold wanted. intros I. apply in_flat_map in I. destruct I as (e & Ie & I). destruct e as [t idx g ask| | | |]; try destruct I.
    exists t, idx, g, ask. split; [exact Ie|exact I].
  Qed.
  Lemma exact_step t s l ls s' l' : nth_error ls t = Some l -> pstep t s l = Some (s', l') ->
    inv s ls -> exact_grads s -> exact_grads s'.
  Proof.
    intros NT E IV EX. unfold ParallelSgd.pstep in E. destruct l as [j ph]. simpl in E.
    destruct ph as [|ask u|bb u|[|[p v] u]|ask|bb]; [destruct (in_loop share order t j) eqn:IL; [|discriminate]|..];
      injection E as <- <-; intros t1 idx g a [Q|I]; simpl in *; try discriminate; try exact (EX t1 idx g a I).
    injection Q as <- <- <- <-. set (idx := nth j order 0) in *.
    destruct IV as (I1 & I2 & _). destruct (todos_split share order ls 0 t _ NT) as (ta & tb & A & _). rewrite A in I1. simpl Nat.add in *.
    unfold todo in I1. simpl in I1. rewrite (slice_cons share order t j IL) in I1. simpl in I1. fold idx in I1.
    assert (IN : In (t, idx) all).
    { apply (Permutation_in _ I1). apply in_or_app. right. apply in_or_app. right. simpl. auto. }
    assert (Ln : idx < n) by (apply ALLn; apply in_map_iff; exists (t, idx); auto).
    assert (FR : ~ In idx (map snd (computed (rev (s_log s))))).
    { intros I. pose proof (Permutation_map snd I1) as P. symmetry in P. pose proof (Permutation_NoDup P ALL) as ND.
      rewrite !map_app in ND. simpl in ND. rewrite map_app in ND. rewrite app_assoc in ND. apply NoDup_remove_2 in ND. apply ND.
      rewrite !in_app_iff. auto. }
    destruct (SEEN (s_log s) idx Ln) as (y & SY & ->). apply (sep_reads _ _ _ SEP idx _ _ Ln). intros p Sp.
    destruct (SY p) as (h1 & h2 & Eh & ->). unfold after. apply subs_other. intros I. apply in_map_iff in I. destruct I as ([q b] & Eq & I). simpl in Eq. subst q.
    assert (IW : In (p, b) (wanted step (rev (s_log s)))).
    { apply (Permutation_in _ I2). apply in_or_app. left. rewrite Eh, rev_app_distr. unfold applied in *. rewrite flat_map_app. apply in_or_app. auto. }
    apply wanted_from in IW. destruct IW as (t2 & idx2 & g2 & ask2 & IP & IS). apply in_rev in IP.
    assert (FC : In idx2 (map snd (computed (rev (s_log s))))).
    { apply in_map_iff. exists (t2, idx2). split; [reflexivity|]. unfold computed. apply in_flat_map. exists (PGrad t2 idx2 g2 ask2).
      split; [apply in_rev in IP; exact IP|simpl; auto]. }
    assert (L2 : idx2 < n).
    { apply ALLn. apply (Permutation_in _ (Permutation_map snd I1)). rewrite map_app. apply in_or_app. auto. }
    pose proof (EX _ _ _ _ IP) as Eg. rewrite Eg in IS. unfold scaled in IS. apply in_map_iff in IS. destruct IS as ([q c] & Ec & IS).
    injection Ec as -> _. pose proof (sep_writes _ _ _ SEP idx2 x0 p c L2 IS) as S2.
    rewrite (sep_apart _ _ _ SEP idx idx2 p Ln L2 Sp S2) in FR. auto.
  Qed.
  Lemma exact_exec : forall sched s ls s' ls', pexec sched s ls = (s', ls') -> inv s ls -> exact_grads s -> exact_grads s'.
  Proof.
    induction sched as [|t r IH]; intros s ls s' ls' E I X; simpl in E; [injection E as <- <-; exact X|].
    destruct (nth_error ls t) as [l|] eqn:NT; [|eapply IH; eauto].
    destruct (pstep t s l) as [[s1 l1]|] eqn:PS; [|eapply IH; eauto].
    apply (IH _ _ _ _ E); [exact (inv_step share order step grad cbG cbS x0 all t s l ls s1 l1 NT PS I)|exact (exact_step t s l ls s1 l1 NT PS I X)].
  Qed.
End A.

Section B.
  Context {N : Num}.
  Notation vec := (list N).
  Variables (n : nat) (supp : nat -> nat -> Prop) (G : nat -> vec -> list (nat * N)).
  Hypothesis SEP : separate n supp G.

  Lemma wanted_exact (step : N) x0 : forall es,
    (forall t idx g ask, In (PGrad t idx g ask) es -> g = G idx x0) ->
    wanted step es = total G step x0 (map snd (computed es)).
  Proof.
    induction es as [|e es IH]; intros H; [reflexivity|]. unfold wanted, computed, total in *. simpl.
    rewrite map_app, flat_map_app. rewrite <- IH by (intros; eapply H; right; eauto).
    destruct e as [t idx g ask| | | |]; try reflexivity. simpl. rewrite app_nil_r, (H t idx g ask (or_introl eq_refl)). reflexivity.
  Qed.

  Lemma epoch_serial (step : N) share order grad cbG cbS T sched x0 term s ls :
    Permutation order (seq 0 n) -> n <= T * share ->
    (forall h idx, idx < n -> exists y, seen x0 h y /\ grad h idx = G idx y) ->
    pexec share order step grad cbG cbS sched {| s_it := x0; s_term := term; s_log := [] |} (start share T) = (s, ls) ->
    finished share order ls = true ->
    (forall t idx g ask, In (PGrad t idx g ask) (s_log s) -> g = G idx x0) /\ s_it s = serial_pass step G n x0.
  Proof.
    intros ORD LT SEEN E F.
    destruct (epoch_ok share order step grad cbG cbS T sched x0 term s ls E F) as (P1 & _ & P2 & P3).
    assert (LO : length order = n) by (rewrite (Permutation_length ORD); apply seq_length).
    rewrite firstn_all2 in P1 by lia.
    set (all := flat_map (fun t => map (fun i => (t, i)) (slice order (t * share) ((t + 1) * share))) (seq 0 T)).
    assert (I0 : inv share order step x0 all {| s_it := x0; s_term := term; s_log := [] |} (start share T)).
    { unfold inv. simpl. rewrite start_pends. unfold start. rewrite start_todos. split; [reflexivity|]. split; reflexivity. }
    assert (MA : map snd all = order).
    { unfold all. rewrite map_snd_pairs, slices_all. apply firstn_all2. lia. }
    assert (EX : exact_grads G x0 s).
    { assert (ND : NoDup (map snd all)) by (rewrite MA; apply (Permutation_NoDup (Permutation_sym ORD)); apply seq_NoDup).
      assert (BN : forall i, In i (map snd all) -> i < n) by (rewrite MA; intros i I; apply (Permutation_in _ ORD) in I; apply in_seq in I; lia).
      refine (exact_exec n supp G SEP step share order grad cbG cbS x0 SEEN all ND BN sched _ _ _ _ E I0 _). intros ? ? ? ? []. }
    split; [exact EX|].
    rewrite (wanted_exact step x0) in P2 by (intros t idx g ask I; apply in_rev in I; exact (EX t idx g ask I)).
    rewrite P3, (serial_pass_total n supp G SEP). 
    assert (P4 : Permutation (applied (rev (s_log s))) (total G step x0 (seq 0 n))).
    { rewrite P2. unfold total. apply Permutation_flat_map. rewrite P1. exact ORD. }
    symmetry. apply subs_perm; [symmetry; exact P4|]. apply (total_nodup n supp G SEP); [apply seq_NoDup|]. intros i I. apply in_seq in I. lia.
  Qed.

  Lemma asked_never share order (step : N) grad cbG cbS : (forall h, cbG h = false) -> (forall h, cbS h = false) ->
    forall sched s ls s' ls', pexec share order step grad cbG cbS sched s ls = (s', ls') ->
    par_asked (s_log s) = false -> par_asked (s_log s') = false.
  Proof.
    intros HG HS. induction sched as [|t r IH]; intros s ls s' ls' E H; simpl in E; [injection E as <- <-; exact H|].
    destruct (nth_error ls t) as [l|]; [|eapply IH; eauto].
    destruct (pstep share order step grad cbG cbS t s l) as [[s1 l1]|] eqn:PS; [|eapply IH; eauto].
    apply (IH _ _ _ _ E). unfold pstep in PS. destruct l as [j ph]. simpl in PS.
    destruct ph as [|ask u|bb u|[|[p v] u]|ask|bb]; [destruct (in_loop share order t j); [|discriminate]|..];
      injection PS as <- <-; simpl; rewrite ?HG, ?HS; exact H.
  Qed.
  Lemma asked_rev (es : list (pev N)) : par_asked (rev es) = par_asked es.
  Proof.
    unfold par_asked. induction es as [|e es IH]; [reflexivity|]. simpl. rewrite existsb_app, IH. simpl. rewrite orb_false_r. apply orb_comm.
  Qed.

  Variables (maxIterations : nat) (tolerance : N).
  Variable f : vec -> N.
  Variable step : nat -> N.
  Variables (shuffle : bool) (T share : nat).
  Variable perm : list (oev N) -> list nat -> list nat.
  Variable cbE : list (oev N) -> bool.
  Variable grad : list (oev N) -> list (pev N) -> nat -> list (nat * N).
  Variables (cbG cbS : list (oev N) -> list (pev N) -> bool).
  Variable sched : list (oev N) -> list nat.
  Hypothesis PERM : forall h l, Permutation (perm h l) l.
  Hypothesis LT : n <= T * share.
  Hypothesis CE : forall h, cbE h = false.
  Hypothesis CG : forall h0 h, cbG h0 h = false.
  Hypothesis CS : forall h0 h, cbS h0 h = false.
  Hypothesis SEEN : forall x v h0 h idx, idx < n -> exists y, seen x h y /\ grad (OEval x v :: h0) h idx = G idx y.

  Lemma run_serial : forall fuel i order x last tr v xf full,
    psgd_loop maxIterations tolerance shuffle T share f step perm cbE grad cbG cbS sched fuel i order x last false tr = Ret (v, xf, full) ->
    Permutation order (seq 0 n) ->
    serial_run (bound maxIterations) tolerance f step G n fuel i x last = Some (v, xf).
  Proof.
    induction fuel as [|fuel IH]; intros i order x last tr v xf full E PO; simpl in E; [discriminate|]. simpl serial_run.
    rewrite orb_false_r in E. destruct (i =? bound maxIterations); [injection E as <- <- _; reflexivity|].
    destruct (nisnan (f x) || nisinf (f x)); [injection E as <- <- _; reflexivity|].
    destruct (nlt (nabs (nsub last (f x))) tolerance); [injection E as <- <- _; reflexivity|].
    set (order1 := if shuffle then perm (OEval x (f x) :: tr) order else order) in *.
    assert (PO1 : Permutation order1 (seq 0 n)) by (unfold order1; destruct shuffle; [rewrite PERM|]; exact PO).
    destruct (pexec _ _ _ _ _ _ _ _ _) as [s ls] eqn:PE.
    destruct (finished share order1 ls) eqn:FI; [|discriminate].
    destruct (epoch_serial (step i) share order1 _ _ _ T _ x _ s ls PO1 LT (SEEN x (f x) tr) PE FI) as [_ X].
    assert (TM : s_term s = false).
    { apply (term_source share order1 (step i) _ _ _ _ _ _ _ _ PE).
      - rewrite asked_rev. apply (asked_never share order1 (step i) _ _ _ (CG _) (CS _) _ _ _ _ _ PE). reflexivity.
      - simpl. apply CE.
      - intros l I. unfold start in I. apply in_map_iff in I. destruct I as (t & <- & _). exact Logic.I. }
    rewrite TM, X in E. exact (IH _ _ _ _ _ _ _ _ E PO1).
  Qed.
  Lemma psgd_serial fuel x0 v xf full :
    psgd maxIterations tolerance shuffle T share f step perm cbE grad cbG cbS sched n fuel x0 = Ret (v, xf, full) ->
    serial_run (bound maxIterations) tolerance f step G n fuel 1 x0 nmax = Some (v, xf).
  Proof. intros E. exact (run_serial _ _ _ _ _ _ _ _ _ E (Permutation_refl _)). Qed.
  Lemma serial_more limit : forall fuel fuel' i x last r r',
    serial_run limit tolerance f step G n fuel i x last = Some r -> serial_run limit tolerance f step G n fuel' i x last = Some r' -> r = r'.
  Proof.
    induction fuel as [|fuel IH]; intros [|fuel'] i x last r r' E E'; try discriminate. simpl in E, E'.
    destruct (i =? limit); [congruence|]. destruct (nisnan (f x) || nisinf (f x)); [congruence|].
    destruct (nlt _ _); [congruence|]. exact (IH _ _ _ _ _ _ E E').
  Qed.
End B.

Section C.
  Context {N : Num}.
  Variables (n : nat) (supp : nat -> nat -> Prop) (G : nat -> list N -> list (nat * N)).
  Hypothesis SEP : separate n supp G.
  (** element by element *)
  Lemma pass_element a x i p g : i < n -> In (p, g) (G i x) ->
    nth_error (serial_pass a G n x) p = option_map (fun b => nsub b (nmul a g)) (nth_error x p).
  Proof.
    intros Li I. rewrite (serial_pass_total n supp G SEP), subs_nth.
    rewrite (amounts_one p (nmul a g)); [reflexivity| |].
    - apply (total_nodup n supp G SEP); [apply seq_NoDup|]. intros j J. apply in_seq in J. lia.
    - unfold total. apply in_flat_map. exists i. split; [apply in_seq; lia|]. unfold scaled. apply in_map_iff. exists (p, g). auto.
  Qed.
  Lemma pass_other a x p : (forall i g, i < n -> ~ In (p, g) (G i x)) -> nth_error (serial_pass a G n x) p = nth_error x p.
  Proof.
    intros H. rewrite (serial_pass_total n supp G SEP). apply subs_other. intros I. apply in_map_iff in I. destruct I as ([q c] & Eq & I). simpl in Eq. subst q.
    apply in_flat_map in I. destruct I as (i & J & I). unfold scaled in I. apply in_map_iff in I. destruct I as ([q b] & Eq & I). injection Eq as -> _.
    apply in_seq in J. exact (H i b ltac:(lia) I).
  Qed.
End C.
