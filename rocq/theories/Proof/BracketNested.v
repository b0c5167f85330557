(** BeginOptimization and EndOptimization when an optimizer runs another with the same callbacks. *)
From Coq Require Import List Arith Bool Lia.
From Verif.Base Require Import Num Vec Loop.
From Verif.Model Require Import Common Callbacks.
From Verif.Spec Require Import BracketSpec.
From Verif.Proof Require Import Bracket BracketLoops.
From Verif.Model Require Sgd Lookahead PopCMAES.
Import ListNotations.

Section Pop.
  Context {N : Num}.
  Notation vec := (list N).
  Notation res := (Res N vec vec).
  Lemma begins_app (a b : list (ev N vec vec)) : begins (a ++ b) = begins a + begins b.
  Proof. unfold begins. rewrite filter_app, app_length. reflexivity. Qed.
  Lemma ends_app (a b : list (ev N vec vec)) : ends (a ++ b) = ends a + ends b.
  Proof. unfold ends. rewrite filter_app, app_length. reflexivity. Qed.
  Lemma plain_begins (a : list (ev N vec vec)) : plain ev_mark a -> begins a = 0.
  Proof.
    induction a as [|e a IH]; intros P; [reflexivity|]. pose proof (P e (or_introl eq_refl)) as E.
    assert (Q : begins a = 0) by (apply IH; intros y I; apply P; right; exact I).
    unfold begins in *. cbn. destruct e; cbn in E; try discriminate; exact Q.
  Qed.
  Lemma plain_ends (a : list (ev N vec vec)) : plain ev_mark a -> ends a = 0.
  Proof.
    induction a as [|e a IH]; intros P; [reflexivity|]. pose proof (P e (or_introl eq_refl)) as E.
    assert (Q : ends a = 0) by (apply IH; intros y I; apply P; right; exact I).
    unfold ends in *. cbn. destruct e; cbn in E; try discriminate; exact Q.
  Qed.
  Lemma framed_counts pre x y (tr : list (ev N vec vec)) : framed_after ev_mark pre (Begin x) (End y) tr -> begins tr = 1 /\ ends tr = 1.
  Proof.
    intros (b & -> & P & Q). rewrite begins_app, ends_app, (plain_begins _ P), (plain_ends _ P).
    change (Begin x :: b ++ [End y]) with ([Begin x] ++ b ++ [End y]).
    rewrite !begins_app, !ends_app, (plain_begins _ Q), (plain_ends _ Q). split; reflexivity.
  Qed.
  Variables (bipop : bool) (mr mf l0 : nat) (s0 : N) (run : nat -> nat -> N -> res * nat) (grw : nat -> nat) (small : nat -> nat -> nat -> nat * N).
  Definition neat (r : res * nat) : Prop := exists pre x, framed_after ev_mark pre (Begin x) (End (o_x (fst r))) (o_tr (fst r)).
  Hypothesis HR : forall i lam st, neat (run i lam st).
  Lemma pop_loop_neat k : forall i s, Forall neat (PopCMAES.q_runs s) -> PopCMAES.q_runs s <> [] ->
    Forall neat (PopCMAES.q_runs (PopCMAES.pop_loop bipop mr mf l0 s0 run grw small k i s)) /\
    PopCMAES.q_runs (PopCMAES.pop_loop bipop mr mf l0 s0 run grw small k i s) <> [].
  Proof.
    induction k as [|k IH]; intros i s F NE; cbn [PopCMAES.pop_loop]; [auto|]. cbv zeta.
    match goal with |- context [let '(_, _) := ?p in _] => destruct p as [lam st] end.
    pose proof (HR (S i) lam st) as Q. destruct (run (S i) lam st) as [r c].
    match goal with |- context [if ?b then ?u else PopCMAES.pop_loop _ _ _ _ _ _ _ _ _ _ _] => destruct b end;
      [split; [constructor; assumption|discriminate]|].
    apply IH; [constructor; assumption|discriminate].
  Qed.
  Lemma neat_counts rs : Forall neat rs -> begins (flat_map (fun r => o_tr (fst r)) rs) = length rs /\ ends (flat_map (fun r => o_tr (fst r)) rs) = length rs.
  Proof.
    induction 1 as [|r rs (pre & x & F) _ (IH1 & IH2)]; [split; reflexivity|]. cbn [flat_map length].
    rewrite begins_app, ends_app, IH1, IH2. destruct (framed_counts _ _ _ _ F) as (-> & ->). split; reflexivity.
  Qed.
  Lemma pop_counts v x rs : PopCMAES.pop_optimize bipop mr mf l0 s0 run grw small = (v, x, rs) ->
    begins (PopCMAES.pop_events rs) = length rs /\ ends (PopCMAES.pop_events rs) = S (length rs) /\
    exists tr r c, PopCMAES.pop_events rs = tr ++ [End (o_x r); End (o_x r)] /\ In (r, c) rs.
  Proof.
    unfold PopCMAES.pop_optimize. pose proof (HR 0 l0 s0) as Q. destruct (run 0 l0 s0) as [r0 c0]. intros E. injection E as _ _ <-.
    match goal with |- context [PopCMAES.pop_loop _ _ _ _ _ _ _ _ ?k ?i ?s] =>
      destruct (pop_loop_neat k i s ltac:(constructor; [exact Q|constructor]) ltac:(discriminate)) as (F & NE);
      generalize dependent (PopCMAES.q_runs (PopCMAES.pop_loop bipop mr mf l0 s0 run grw small k i s)) end.
    intros qs F NE. unfold PopCMAES.pop_events. rewrite rev_involutive.
    destruct qs as [|[r c] qs]; [congruence|]. rewrite begins_app, ends_app, rev_length.
    destruct (neat_counts (rev ((r, c) :: qs)) (Forall_rev F)) as (-> & ->). rewrite rev_length.
    cbn [length]. split; [cbn; lia|]. split; [cbn; lia|].
    inversion F as [|? ? (pre & y & b & T & _) _]; subst. cbn [fst] in T.
    exists (flat_map (fun r => o_tr (fst r)) (rev qs) ++ pre ++ Begin y :: b), r, c. split; [|rewrite <- in_rev; left; reflexivity].
    cbn [rev]. rewrite flat_map_app. cbn [flat_map fst]. rewrite T, app_nil_r. rewrite <- !app_assoc. cbn. rewrite <- !app_assoc. reflexivity.
  Qed.
End Pop.

Section LA.
  Import Lookahead Sgd.
  Context {N : Num} {G U D D' : Type}.
  Notation E := (Sgd.event N (list N) G).
  Variables (c : nat -> Cfg N (list N) G U D) (f : list (lev N E) -> SepFun N (list N) G) (cb : list (lev N E) -> Callbacks N (list N) G) (fuel0 : nat).
  Variables (has_max : bool) (base_max k max : nat) (tol : N) (exactO : bool) (dp : D' -> list N -> N -> list N -> D' * N)
    (nf bs : nat) (feval : list (lev N E) -> list N -> nat -> nat -> N) (stop : list (lev N E) -> bool).
  Notation base := (sgd_base c f cb fuel0).
  Definition two (e : lev N E) : Prop := match e with LRun _ _ _ inner => count_marks sgd_mark inner = 2 | _ => True end.
  Lemma base_two n b h x b' fast obj inner : base n b h x = Some (b', fast, obj, inner) -> count_marks sgd_mark inner = 2.
  Proof.
    unfold sgd_base. destruct b as [[u d] step]. destruct (optimize_with _ _ _ _ _ _ _ _) as [r| |] eqn:O; try discriminate.
    intros H. injection H as _ _ _ <-. destruct (sgd_frame _ _ _ _ _ _ _ _ _ O) as (b & -> & P).
    unfold count_marks. cbn. rewrite filter_app. cbn. rewrite app_length. cbn.
    replace (filter sgd_mark b) with (@nil E); [reflexivity|]. symmetry. clear - P. induction b as [|e b IH]; [reflexivity|].
    cbn. rewrite (P e (or_introl eq_refl)). apply IH. intros y I. apply P. right. exact I.
  Qed.
  Definition la_ok (e : @lexit N (U * D * N) D' E) : Prop := match e with LDone s | LConv s => Forall two (l_tr s) | LHang => True end.
  Lemma la_body_two s : Forall two (l_tr s) ->
    match lbody base has_max base_max k max tol dp stop s with inl s' => Forall two (l_tr s') | inr e => la_ok e end.
  Proof.
    intros P. unfold lbody. destruct (negb _); [exact P|].
    destruct (base _ _ _ _) as [[[[b fast] obj] inner]|] eqn:B; [|exact I]. destruct (dp _ _ _ _) as [d step]. cbv zeta.
    pose proof (base_two _ _ _ _ _ _ _ _ B) as Q.
    destruct (nisnan _ || _ || _); cbn; repeat (constructor; try assumption; try exact I).
  Qed.
  Lemma la_exact_two q : forall x i acc tr v tr', lexact nf bs feval q x i acc tr = Some (v, tr') -> Forall two tr -> Forall two tr'.
  Proof.
    induction q as [|q IH]; intros x i acc tr v tr' H P; cbn [lexact] in H; destruct (i <? nf); try discriminate.
    - injection H as _ <-. exact P.
    - apply (IH _ _ _ _ _ _ H). constructor; [exact I|exact P].
    - injection H as _ <-. exact P.
  Qed.
  Lemma la_two fuel b d step x r : lookahead base has_max base_max k max tol exactO dp nf bs feval stop fuel b d step x = Ret r -> Forall two (lr_tr r).
  Proof.
    unfold lookahead. intros H.
    match type of H with context [loop ?bd fuel ?s0] =>
      pose proof (loop_inv bd (fun s => Forall two (l_tr s)) la_ok la_body_two fuel s0 ltac:(constructor; [exact I|constructor])) as L;
      destruct (loop bd fuel s0) as [|[s|s|]]; try discriminate; cbn [la_ok] in L end.
    - destruct exactO.
      + destruct (lexact nf bs feval fuel (l_x s) 0 n0 (l_tr s)) as [[v tr]|] eqn:F; [|discriminate].
        inj H. apply Forall_rev. constructor; [exact I|]. exact (la_exact_two _ _ _ _ _ _ _ F L).
      + inj H. apply Forall_rev. constructor; [exact I|]. exact L.
    - inj H. apply Forall_rev. constructor; [exact I|]. exact L.
  Qed.
  Lemma shown_count (tr : list (lev N E)) : Forall two tr ->
    count_marks l_mark_all (shown_by_lookahead tr) = count_marks l_mark tr + 2 * inner_runs tr.
  Proof.
    unfold count_marks, inner_runs, shown_by_lookahead.
    induction 1 as [|e tr P _ IH]; [reflexivity|]. cbn [flat_map]. rewrite filter_app, app_length, IH.
    destruct e as [y|y z o inner|y|y p q o|y]; cbn; try lia.
    replace (length (filter l_mark_all (map inr inner))) with (length (filter sgd_mark inner)); [change (length (filter sgd_mark inner)) with (count_marks sgd_mark inner); rewrite P; lia|].
    clear. induction inner as [|e l IH]; [reflexivity|]. cbn. destruct (sgd_mark e); cbn; lia.
  Qed.
  Lemma la_shown fuel b d step x r : lookahead base has_max base_max k max tol exactO dp nf bs feval stop fuel b d step x = Ret r ->
    count_marks l_mark_all (shown_by_lookahead (lr_tr r)) = 2 + 2 * inner_runs (lr_tr r).
  Proof.
    intros H. rewrite (shown_count _ (la_two _ _ _ _ _ _ H)). f_equal.
    destruct (la_frame _ _ _ _ _ _ _ _ _ _ _ _ _ _ _ _ _ _ H) as (b' & -> & P).
    unfold count_marks. cbn. rewrite filter_app. cbn. rewrite app_length. cbn.
    replace (filter l_mark b') with (@nil (lev N E)); [reflexivity|]. symmetry. clear - P. induction b' as [|e l IH]; [reflexivity|].
    cbn. rewrite (P e (or_introl eq_refl)). apply IH. intros y I. apply P. right. exact I.
  Qed.
End LA.
