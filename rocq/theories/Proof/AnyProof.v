From Coq Require Import List Arith Bool Lia.
From Verif.Model Require Import SA Any.
From Verif.Spec Require Import AnySpec.
From Verif.Proof Require Import SAProof.
Import ListNotations.

Lemma stored_app : forall a b, stored (a ++ b) = stored a + stored b.
Proof. induction a as [|c a IH]; intros b; [reflexivity|]. destruct c; cbn; rewrite IH; reflexivity. Qed.

Lemma stored_rev : forall a, stored (rev a) = stored a.
Proof. induction a as [|c a IH]; [reflexivity|]. cbn [rev]. rewrite stored_app, IH. destruct c; cbn; lia. Qed.

Lemma content_snoc : forall cs c, content (cs ++ [c]) =
  match c with CSet t => Some (stored cs, t) | CClean => None | _ => content cs end.
Proof.
  intros cs c. unfold content. rewrite rev_unit. destruct c; cbn; try reflexivity. rewrite stored_rev. reflexivity.
Qed.

Lemma do_calls_snoc : forall cs c l, do_calls (cs ++ [c]) l =
  match do_calls cs l with Some l' => do_call c l' | None => None end.
Proof.
  induction cs as [|d cs IH]; intros c l; cbn.
  - destruct (do_call c l); reflexivity.
  - destruct (do_call d l); [apply IH|reflexivity].
Qed.

Lemma snoc_split : forall {A} (cs : list A) c before x after, cs ++ [c] = before ++ x :: after ->
  (after = [] /\ before = cs /\ x = c) \/ exists after', after = after' ++ [c] /\ cs = before ++ x :: after'.
Proof.
  intros A cs c before x after H. destruct after as [|y after] using rev_ind.
  - left. apply app_inj_tail in H. destruct H; auto.
  - right. clear IHafter. exists after. rewrite app_comm_cons, app_assoc in H. apply app_inj_tail in H. destruct H as [H ->]. auto.
Qed.

Lemma cleaned_snoc : forall cs c p, cleaned (cs ++ [c]) p <->
  cleaned cs p \/ (c = CClean /\ exists t, content cs = Some (p, t)).
Proof.
  intros cs c p. split.
  - intros (before & after & t & E & C). apply snoc_split in E. destruct E as [(-> & -> & <-)|(after' & -> & ->)].
    + right. split; [reflexivity|]. exists t. exact C.
    + left. exists before, after', t. auto.
  - intros [(before & after & t & -> & C)|(-> & t & C)].
    + exists before, (after ++ [c]), t. split; [rewrite <- app_assoc; reflexivity|exact C].
    + exists cs, [], t. auto.
Qed.

Definition any_of (c : option (nat * nat)) : any :=
  match c with Some (p, t) => mkAny (Some p) t t | None => any_empty end.

Record inv (cs : list call) (l : log) : Prop := {
  iv_any : l_any l = any_of (content cs);
  iv_cont : forall p t, content cs = Some (p, t) -> t <> 0 /\ nth_error (l_heap l) p = Some (mkCell t true);
  iv_good : good_log cs l
}.

Lemma inv_step : forall cs l c, inv cs l -> plain c -> exists l', do_call c l = Some l' /\ inv (cs ++ [c]) l'.
Proof.
  intros cs l c [IA IC IG] PL. destruct IG as [GL GA GO GD GH GV].
  assert (ANS : forall rs r, rs = l_answers l ++ [r] -> right_answer cs c r ->
            length rs = length (cs ++ [c]) /\ forall before x after, cs ++ [c] = before ++ x :: after ->
              exists r, nth_error rs (length before) = Some r /\ right_answer before x r).
  { intros rs r -> HR. split; [rewrite !app_length; cbn; lia|]. intros before x after E.
    apply snoc_split in E. destruct E as [(-> & -> & ->)|(after' & -> & E)].
    - exists r. split; [|exact HR]. rewrite nth_error_app2 by lia. rewrite GL, Nat.sub_diag. reflexivity.
    - destruct (GA before x after' E) as (r' & Hr & HR'). exists r'. split; [|exact HR'].
      rewrite nth_error_app1; [exact Hr|]. apply nth_error_Some. rewrite Hr. discriminate. }
  destruct l as [a m rs ds]. cbn in IA, IC, GL, GA, GO, GD, GH, GV. cbn [l_answers] in ANS. subst a.
  destruct c as [t|t| |t|t]; cbn [do_call plain] in *.
  - (* Set *)
    eexists. split; [reflexivity|]. destruct (ANS _ RNone eq_refl eq_refl) as [AL AA].
    constructor; cbn [l_any l_heap l_answers l_deleted].
    + rewrite content_snoc. unfold any_of, any_set. rewrite GH. reflexivity.
    + intros p t' E. rewrite content_snoc in E. injection E as <- <-. split; [exact PL|].
      rewrite <- GH, nth_error_app2, Nat.sub_diag by lia. reflexivity.
    + constructor; cbn [l_any l_heap l_answers l_deleted]; auto.
      * intros p. rewrite cleaned_snoc, GD. split; [tauto|]. intros [H|[H _]]; [exact H|discriminate].
      * rewrite app_length, stored_app, GH. reflexivity.
      * intros p c H. destruct (Nat.lt_ge_cases p (length m)) as [L|L].
        -- rewrite nth_error_app1 in H by exact L. apply GV. exact H.
        -- rewrite nth_error_app2 in H by exact L. destruct (p - length m) as [|k] eqn:EK; [|destruct k; discriminate H].
           injection H as <-. cbn. split; [|reflexivity]. intros _ HI. apply GD in HI. destruct HI as (b & a & t' & E & HC).
           assert (X : nth_error m p <> None).
           { assert (Y : p < stored b).
             { clear - HC. revert p t' HC. induction b as [|c b IH] using rev_ind; intros p t' HC; [discriminate|].
               rewrite content_snoc in HC. rewrite stored_app. destruct c; cbn; try (specialize (IH _ _ HC); lia); try discriminate.
               injection HC as <- _. lia. }
             apply nth_error_Some. rewrite GH, E, stored_app. lia. }
           apply nth_error_Some in X. lia.
  - destruct PL.
  - (* Clean *)
    unfold any_clean. destruct (content cs) as [[p t]|] eqn:EC; cbn [any_of a_held a_del any_empty].
    + destruct (IC p t eq_refl) as [Ht Hp]. destruct (Nat.eqb_spec t 0) as [Z|_]; [contradiction|].
      unfold delete. rewrite Hp. cbn [c_alive c_type andb]. rewrite Nat.eqb_refl.
      eexists. split; [reflexivity|]. destruct (ANS _ RNone eq_refl eq_refl) as [AL AA].
      assert (NI : ~ In p ds) by (apply (GV _ _ Hp); reflexivity).
      assert (PL2 : p < length m) by (apply nth_error_Some; rewrite Hp; discriminate).
      constructor; cbn [l_any l_heap l_answers l_deleted].
      * rewrite content_snoc. reflexivity.
      * rewrite content_snoc. discriminate.
      * constructor; cbn [l_any l_heap l_answers l_deleted]; auto.
        -- clear - GO NI. induction ds as [|d ds IH]; cbn; [constructor; [intros []|constructor]|].
           inversion GO; subst. constructor.
           ++ rewrite in_app_iff. cbn. intros [H|[H|[]]]; [contradiction|]. subst. apply NI. left; reflexivity.
           ++ apply IH; [assumption|]. intros H. apply NI. right; exact H.
        -- intros q. rewrite in_app_iff, cleaned_snoc, GD, EC. cbn. split.
           ++ intros [H|[<-|[]]]; [left; exact H|right; split; [reflexivity|exists t; reflexivity]].
           ++ intros [H|[_ (t' & E)]]; [left; exact H|right; left]. injection E; auto.
        -- rewrite set_nth_length, stored_app, GH. cbn. lia.
        -- intros q c H. rewrite in_app_iff. cbn. destruct (Nat.eq_dec q p) as [->|Nq].
           ++ rewrite set_nth_same in H by exact PL2. injection H as <-. cbn. split; [discriminate|]. intros HN. exfalso. apply HN. auto.
           ++ rewrite set_nth_other in H by exact Nq. rewrite (GV q c H). split; [|tauto]. intros HN [HI|[HI|[]]]; [tauto|congruence].
    + eexists. split; [reflexivity|]. destruct (ANS _ RNone eq_refl eq_refl) as [AL AA].
      constructor; cbn [l_any l_heap l_answers l_deleted].
      * rewrite content_snoc. reflexivity.
      * rewrite content_snoc. discriminate.
      * constructor; cbn [l_any l_heap l_answers l_deleted]; rewrite ?app_nil_r; auto.
        -- intros q. rewrite cleaned_snoc, GD, EC. split; [tauto|]. intros [H|[_ (t & E)]]; [exact H|discriminate].
        -- rewrite stored_app, GH. cbn. lia.
  - (* As *)
    unfold any_as.
    assert (K : forall g, right_answer cs (CAs t) (RAs g) -> inv (cs ++ [CAs t]) (mkLog (any_of (content cs)) m (rs ++ [RAs g]) ds)).
    { intros g HR. destruct (ANS _ (RAs g) eq_refl HR) as [AL AA]. constructor; cbn [l_any l_heap l_answers l_deleted].
      - rewrite content_snoc. reflexivity.
      - rewrite content_snoc. exact IC.
      - constructor; cbn [l_any l_heap l_answers l_deleted]; auto.
        + intros q. rewrite cleaned_snoc, GD. split; [tauto|]. intros [H|[H _]]; [exact H|discriminate].
        + rewrite stored_app, GH. cbn. lia. }
    destruct (content cs) as [[p t']|] eqn:EC; cbn [any_of a_type a_held any_empty].
    + destruct (Nat.eqb_spec t t') as [->|Nt]; cbn [negb].
      * destruct (IC p t' eq_refl) as [Ht Hp]. rewrite Hp. cbn [c_alive c_type andb]. rewrite Nat.eqb_refl.
        eexists. split; [reflexivity|]. apply K. cbn. exact EC.
      * eexists. split; [reflexivity|]. apply K. cbn. intros q. rewrite EC. congruence.
    + destruct (Nat.eqb_spec t 0) as [Z|_]; [contradiction|]. cbn [negb]. eexists. split; [reflexivity|]. apply K. cbn. intros q. rewrite EC. discriminate.
  - (* Has *)
    eexists. split; [reflexivity|].
    assert (HR : right_answer cs (CHas t) (RHas (any_has t (any_of (content cs))))).
    { cbn. eexists. split; [reflexivity|]. unfold any_has. rewrite Nat.eqb_eq. destruct (content cs) as [[p t']|]; reflexivity. }
    destruct (ANS _ _ eq_refl HR) as [AL AA]. constructor; cbn [l_any l_heap l_answers l_deleted].
    + rewrite content_snoc. reflexivity.
    + rewrite content_snoc. exact IC.
    + constructor; cbn [l_any l_heap l_answers l_deleted]; auto.
      * intros q. rewrite cleaned_snoc, GD. split; [tauto|]. intros [H|[H _]]; [exact H|discriminate].
      * rewrite stored_app, GH. cbn. lia.
Qed.

Lemma inv0 : inv [] log0.
Proof.
  constructor; cbn; [reflexivity|discriminate|]. constructor; cbn; auto.
  - intros before c after H. destruct before; discriminate H.
  - constructor.
  - intros p. split; [intros []|]. intros (b & a & t & E & _). destruct b; discriminate E.
  - intros p c H. destruct p; discriminate H.
Qed.

Lemma inv_run : forall cs, Forall plain cs -> exists l, do_calls cs log0 = Some l /\ inv cs l.
Proof.
  intros cs; induction cs as [|c cs IH] using rev_ind; intros F.
  - exists log0. split; [reflexivity|exact inv0].
  - apply Forall_app in F. destruct F as [F Fc]. destruct (IH F) as (l & E & I). inversion Fc as [|? ? Pc _]; subst.
    destruct (inv_step cs l c I Pc) as (l' & E' & I'). exists l'. split; [|exact I']. rewrite do_calls_snoc, E. exact E'.
Qed.

Theorem any_ok : forall cs, Forall plain cs -> exists l, do_calls cs log0 = Some l /\ good_log cs l.
Proof. intros cs F. destruct (inv_run cs F) as (l & E & I). exists l. split; [exact E|apply I]. Qed.

(** with the discipline of the owner, everything stored is deleted *)
Definition pending (c : option (nat * nat)) : bool := match c with Some _ => true | None => false end.

Lemma tidy_app : forall a b full, tidy full (a ++ b) -> exists f, tidy f b /\ (forall b', tidy f b' -> tidy full (a ++ b')).
Proof.
  induction a as [|c a IH]; intros b full H.
  - exists full. auto.
  - destruct c; cbn in H; try (destruct (IH b _ H) as (f & A & B); exists f; split; [exact A|]; intros b' Hb'; cbn; apply B; exact Hb').
    destruct H as [-> H]. destruct (IH b _ H) as (f & A & B). exists f. split; [exact A|]. intros b' Hb'. cbn. split; [reflexivity|apply B; exact Hb'].
Qed.

Lemma tidy_runs : forall cs done l, Forall plain cs -> inv done l ->
  tidy (pending (content done)) cs ->
  l_deleted l = seq 0 (stored done - (if pending (content done) then 1 else 0)) ->
  (pending (content done) = true -> content done = Some (stored done - 1, a_type (l_any l)) /\ 1 <= stored done) ->
  exists l', do_calls cs l = Some l' /\ l_deleted l' = seq 0 (stored (done ++ cs)).
Proof.
  intros cs; induction cs as [|c cs IH]; intros done l F I TD D P.
  - cbn in TD. rewrite app_nil_r. exists l. split; [reflexivity|]. rewrite D, TD, Nat.sub_0_r. reflexivity.
  - inversion F as [|? ? Pc F']; subst. destruct (inv_step done l c I Pc) as (l1 & E1 & I1).
    cbn [do_calls]. rewrite E1. replace (done ++ c :: cs) with ((done ++ [c]) ++ cs) by (rewrite <- app_assoc; reflexivity).
    assert (A1 := iv_any _ _ I1). rewrite content_snoc in A1.
    destruct l as [a m rs ds]. cbn [l_deleted l_any] in *.
    destruct c as [t|t| |t|t]; cbn [tidy] in TD.
    + destruct TD as [TF TD]. rewrite TF in D. apply IH; auto.
      * rewrite content_snoc. exact TD.
      * rewrite content_snoc. cbn [pending]. cbn in E1. injection E1 as <-. cbn [l_deleted]. rewrite D, stored_app.
        f_equal. cbn. lia.
      * rewrite content_snoc. intros _. rewrite A1, stored_app. cbn. split; [|lia]. f_equal. f_equal. lia.
    + destruct Pc.
    + apply IH; auto.
      * rewrite content_snoc. exact TD.
      * rewrite content_snoc. cbn [pending]. rewrite stored_app. cbn [stored]. rewrite Nat.add_0_r, Nat.sub_0_r.
        assert (IA := iv_any _ _ I). cbn in IA. subst a. cbn [do_call] in E1. unfold any_clean in E1.
        destruct (content done) as [[p t]|] eqn:EC; cbn [pending any_of a_held a_del any_empty] in *.
        -- destruct (P eq_refl) as [EQ L1]. injection EQ as Ep. destruct (Nat.eqb_spec t 0) as [Z|_]; [destruct (iv_cont _ _ I p t EC); contradiction|].
           destruct (delete t p m); [|discriminate E1]. injection E1 as <-. cbn [l_deleted]. rewrite D, Ep.
           replace (stored done) with (S (stored done - 1)) at 3 by lia. rewrite seq_S. reflexivity.
        -- injection E1 as <-. cbn [l_deleted]. rewrite D, app_nil_r, Nat.sub_0_r. reflexivity.
      * rewrite content_snoc. discriminate.
    + assert (DL : l_deleted l1 = ds /\ l_any l1 = a).
      { cbn [do_call] in E1. destruct (any_as t a m); [|discriminate E1]. injection E1 as <-. auto. }
      destruct DL as [DL AL]. apply IH; auto; rewrite ?content_snoc, ?stored_app; cbn [stored]; rewrite ?Nat.add_0_r; auto.
      * rewrite DL. exact D.
      * rewrite AL. exact P.
    + assert (DL : l_deleted l1 = ds /\ l_any l1 = a) by (cbn [do_call] in E1; injection E1 as <-; auto).
      destruct DL as [DL AL]. apply IH; auto; rewrite ?content_snoc, ?stored_app; cbn [stored]; rewrite ?Nat.add_0_r; auto.
      * rewrite DL. exact D.
      * rewrite AL. exact P.
Qed.

Theorem tidy_ok : forall cs, Forall plain cs -> tidy false cs ->
  exists l, do_calls cs log0 = Some l /\ l_deleted l = seq 0 (stored cs).
Proof.
  intros cs F TD. apply (tidy_runs cs [] log0 F inv0); [exact TD|reflexivity|]. intros H. discriminate H.
Qed.

(** ** the owner *)
(** holder [a] owns the live object p of type t *)
Definition owns (a : any) (m : heap) (p t : nat) : Prop := a = mkAny (Some p) t t /\ nth_error m p = Some (mkCell t true).

Record oinv (o : owner) (m : heap) (ds : list nat) : Prop := {
  oi_init : if o_init o then exists p q t u, p <> q /\ t <> 0 /\ u <> 0 /\ owns (o_decay o) m p t /\ owns (o_update o) m q u /\
                (forall k, k < length m -> (In k ds <-> k <> p /\ k <> q))
            else o_decay o = any_empty /\ o_update o = any_empty /\ m = [] /\ ds = [];
  oi_nd : NoDup ds;
  oi_lt : forall k, In k ds -> k < length m
}.

Lemma nodup_snoc : forall {A} (l : list A) a, NoDup l -> ~ In a l -> NoDup (l ++ [a]).
Proof.
  intros A l a H N. induction H as [|x l Hx H IH]; cbn; [constructor; [intros []|constructor]|]. constructor.
  - rewrite in_app_iff. cbn. intros [K|[->|[]]]; [contradiction|]. apply N. left; reflexivity.
  - apply IH. intros K. apply N. right; exact K.
Qed.

Lemma clean_owned : forall a m p t, t <> 0 -> owns a m p t ->
  any_clean a m = Some (any_empty, set_nth p (mkCell t false) m, [p]).
Proof.
  intros a m p t Ht [-> Hp]. unfold any_clean. cbn [a_held a_del]. destruct (Nat.eqb_spec t 0); [contradiction|].
  unfold delete. rewrite Hp. cbn. rewrite Nat.eqb_refl. reflexivity.
Qed.

Lemma clean_empty : forall m, any_clean any_empty m = Some (any_empty, m, []).
Proof. reflexivity. Qed.

Lemma as_owned : forall a m p t, owns a m p t -> any_as t a m = Some (Got p).
Proof. intros a m p t [-> Hp]. unfold any_as. cbn. rewrite Nat.eqb_refl, Hp. cbn. rewrite Nat.eqb_refl. reflexivity. Qed.

(** clean the holder and store a new object *)
Lemma renew : forall a m p t t', t <> 0 -> owns a m p t ->
  exists m', (match any_clean a m with Some (a, m, d) => let (p, m) := alloc t' m in Some (any_set t' (Some p) a, m, d) | None => None end)
    = Some (mkAny (Some (length m)) t' t', m', [p]) /\
    length m' = S (length m) /\ nth_error m' (length m) = Some (mkCell t' true) /\
    (forall q, q <> p -> q < length m -> nth_error m' q = nth_error m q).
Proof.
  intros a m p t t' Ht H. rewrite (clean_owned a m p t Ht H). cbn. rewrite set_nth_length.
  eexists. split; [reflexivity|]. split; [rewrite app_length, set_nth_length; cbn; lia|]. split.
  - rewrite nth_error_app2 by (rewrite set_nth_length; lia). rewrite set_nth_length, Nat.sub_diag. reflexivity.
  - intros q Nq Lq. rewrite nth_error_app1 by (rewrite set_nth_length; exact Lq). apply set_nth_other. exact Nq.
Qed.

Lemma owns_lt : forall a m p t, owns a m p t -> p < length m.
Proof. intros a m p t [_ H]. apply nth_error_Some. rewrite H. discriminate. Qed.

Lemma owner_step : forall reset td tu o m ds, td <> 0 -> tu <> 0 -> oinv o m ds ->
  exists o' m' d p q, owner_optimize reset td tu o m = Some (o', m', d, Got p, Got q) /\ oinv o' m' (ds ++ d) /\ o_init o' = true.
Proof.
  intros reset td tu o m ds Htd Htu [I ND LT]. unfold owner_optimize.
  destruct (o_init o) eqn:EI.
  - destruct I as (p & q & t & u & Npq & Ht & Hu & OD & OU & Dead).
    assert (Lp := owns_lt _ _ _ _ OD). assert (Lq := owns_lt _ _ _ _ OU).
    assert (NP : ~ In p ds) by (intros K; apply Dead in K; [tauto|exact Lp]).
    assert (NQ : ~ In q ds) by (intros K; apply Dead in K; [tauto|exact Lq]).
    cbn [negb orb].
    (* the decay policy *)
    match goal with |- context [if negb (any_has td (o_decay o)) then ?x else ?y] => set (E1 := if negb (any_has td (o_decay o)) then x else y) end.
    assert (H1 : exists p1 m1 d1, E1 = Some (mkAny (Some p1) td td, m1, d1) /\ p1 <> q /\
              nth_error m1 p1 = Some (mkCell td true) /\ nth_error m1 q = Some (mkCell u true) /\
              NoDup (ds ++ d1) /\ (forall k, In k (ds ++ d1) -> k < length m1) /\
              (forall k, k < length m1 -> (In k (ds ++ d1) <-> k <> p1 /\ k <> q))).
    { unfold E1. destruct (any_has td (o_decay o)) eqn:HH; cbn [negb].
      - destruct OD as [EO Hp]. rewrite EO in HH |- *. unfold any_has in HH. cbn in HH. apply Nat.eqb_eq in HH. subst t.
        exists p, m, []. rewrite app_nil_r. destruct OU. repeat (split; try assumption).
        all: apply Dead; assumption.
      - destruct (renew (o_decay o) m p t td Ht OD) as (m1 & -> & L1 & N1 & Oth).
        exists (length m), m1, [p]. split; [reflexivity|]. split; [lia|]. split; [exact N1|].
        split; [rewrite Oth by (auto; lia); apply OU|]. split; [apply nodup_snoc; assumption|]. split.
        + intros k. rewrite in_app_iff. cbn. intros [K|[<-|[]]]; [specialize (LT _ K)|]; lia.
        + intros k Hk. rewrite in_app_iff. cbn. destruct (Nat.lt_ge_cases k (length m)) as [L|L].
          * rewrite (Dead k L). split; [intros [[A B]|[<-|[]]]; lia|]. intros [A B].
            destruct (Nat.eq_dec k p); [right; left; auto|left; auto].
          * split; [intros [K|[K|[]]]; [specialize (LT _ K)|]; lia|]. intros [A B]. lia. }
    clearbody E1. destruct H1 as (p1 & m1 & d1 & -> & N1 & C1 & CQ & ND1 & LT1 & Dead1).
    match goal with |- context [if (reset || false || negb (any_has tu (o_update o)))%bool then ?x else ?y] => set (E2 := if (reset || false || negb (any_has tu (o_update o)))%bool then x else y) end.
    assert (L1p : p1 < length m1) by (apply nth_error_Some; rewrite C1; discriminate).
    assert (L1q : q < length m1) by (apply nth_error_Some; rewrite CQ; discriminate).
    assert (H2 : exists q2 m2 d2, E2 = Some (mkAny (Some q2) tu tu, m2, d2, true) /\ p1 <> q2 /\
              nth_error m2 p1 = Some (mkCell td true) /\ nth_error m2 q2 = Some (mkCell tu true) /\
              NoDup (ds ++ d1 ++ d2) /\ (forall k, In k (ds ++ d1 ++ d2) -> k < length m2) /\
              (forall k, k < length m2 -> (In k (ds ++ d1 ++ d2) <-> k <> p1 /\ k <> q2))).
    { unfold E2. destruct (reset || false || negb (any_has tu (o_update o))) eqn:HH.
      - assert (OU1 : owns (o_update o) m1 q u) by (split; [apply OU|exact CQ]).
        rewrite (clean_owned _ _ _ _ Hu OU1). cbn. rewrite set_nth_length.
        exists (length m1), (set_nth q (mkCell u false) m1 ++ [mkCell tu true]), [q].
        split; [reflexivity|]. split; [lia|].
        split; [rewrite nth_error_app1 by (rewrite set_nth_length; exact L1p); rewrite set_nth_other by exact N1; exact C1|].
        split; [rewrite nth_error_app2 by (rewrite set_nth_length; lia); rewrite set_nth_length, Nat.sub_diag; reflexivity|].
        assert (NQ1 : ~ In q (ds ++ d1)) by (intros K; apply Dead1 in K; [tauto|exact L1q]).
        rewrite app_assoc. split; [apply nodup_snoc; assumption|].
        rewrite app_length, set_nth_length. cbn [length]. split.
        + intros k. rewrite in_app_iff. cbn. intros [K|[<-|[]]]; [specialize (LT1 _ K)|]; lia.
        + intros k Hk. rewrite in_app_iff. cbn. destruct (Nat.lt_ge_cases k (length m1)) as [L|L].
          * rewrite (Dead1 k L). split; [intros [[A B]|[<-|[]]]; lia|]. intros [A B].
            destruct (Nat.eq_dec k q); [right; left; auto|left; auto].
          * split; [intros [K|[K|[]]]; [specialize (LT1 _ K)|]; lia|]. intros [A B]. lia.
      - apply orb_false_iff in HH. destruct HH as [_ HH]. apply negb_false_iff in HH.
        destruct OU as [EU _]. rewrite EU in HH |- *. unfold any_has in HH. cbn in HH. apply Nat.eqb_eq in HH. subst u.
        exists q, m1, []. rewrite !app_nil_r. repeat (split; try assumption). all: apply Dead1; assumption. }
    clearbody E2. destruct H2 as (q2 & m2 & d2 & -> & N2 & C2 & CQ2 & ND2 & LT2 & Dead2).
    rewrite (as_owned _ m2 q2 tu) by (split; [reflexivity|exact CQ2]).
    rewrite (as_owned _ m2 p1 td) by (split; [reflexivity|exact C2]).
    eexists _, m2, _, p1, q2. split; [reflexivity|]. split; [|reflexivity].
    constructor; cbn [o_init o_decay o_update]; auto.
    exists p1, q2, td, tu. repeat (split; try assumption; try reflexivity). all: apply Dead2; assumption.
  - destruct I as (-> & -> & -> & ->). cbn. rewrite orb_true_r. cbn.
    rewrite (as_owned _ _ 1 tu), (as_owned _ _ 0 td) by (split; reflexivity).
    eexists _, _, _, _, _. split; [reflexivity|]. split; [|reflexivity].
    constructor; cbn [o_init o_decay o_update].
    + exists 0, 1, td, tu. repeat (split; try assumption; try reflexivity); try lia. all: cbn in *; intros; try contradiction; lia.
    + constructor.
    + intros k [].
Qed.

Lemma history_ok : forall reset h o m ds, Forall (fun c => fst c <> 0 /\ snd c <> 0) h -> oinv o m ds ->
  exists o' m' ds', owner_history reset h o m ds = Some (o', m', ds') /\ oinv o' m' ds' /\
    (o_init o = true \/ h <> [] -> o_init o' = true).
Proof.
  intros reset h; induction h as [|[td tu] h IH]; intros o m ds F I.
  - exists o, m, ds. split; [reflexivity|]. split; [exact I|]. tauto.
  - inversion F as [|? ? [A B] F']; subst. cbn in A, B.
    destruct (owner_step reset td tu o m ds A B I) as (o1 & m1 & d & p & q & E & I1 & N1).
    cbn [owner_history]. rewrite E. destruct (IH o1 m1 (ds ++ d) F' I1) as (o' & m' & ds' & E' & I' & N').
    exists o', m', ds'. split; [exact E'|]. split; [exact I'|]. intros _. apply N'. left; exact N1.
Qed.

Theorem owner_ok : forall reset h, Forall (fun c => fst c <> 0 /\ snd c <> 0) h ->
  exists o m ds m' d, owner_history reset h owner_new [] [] = Some (o, m, ds) /\
    owner_destroy o m = Some (m', d) /\ NoDup (ds ++ d) /\ (forall k, In k (ds ++ d) <-> k < length m').
Proof.
  intros reset h F. destruct (history_ok reset h owner_new [] [] F) as (o & m & ds & E & I & _).
  { constructor; cbn; [auto|constructor|intros k []]. }
  exists o, m, ds. unfold owner_destroy. destruct I as [I ND LT]. destruct (o_init o).
  - destruct I as (p & q & t & u & Npq & Ht & Hu & OD & OU & Dead).
    assert (Lp := owns_lt _ _ _ _ OD). assert (Lq := owns_lt _ _ _ _ OU).
    assert (NP : ~ In p ds) by (intros K; apply Dead in K; [tauto|exact Lp]).
    assert (NQ : ~ In q ds) by (intros K; apply Dead in K; [tauto|exact Lq]).
    rewrite (clean_owned _ _ _ _ Ht OD).
    rewrite (clean_owned _ (set_nth p (mkCell t false) m) q u Hu).
    2:{ split; [apply OU|]. rewrite set_nth_other by congruence. apply OU. }
    eexists _, _. split; [exact E|]. split; [reflexivity|]. rewrite !set_nth_length. cbn [app]. split.
    + replace (ds ++ [p; q]) with ((ds ++ [p]) ++ [q]) by (rewrite <- app_assoc; reflexivity).
      apply nodup_snoc; [apply nodup_snoc; assumption|]. rewrite in_app_iff. cbn. intros [K|[K|[]]]; [contradiction|congruence].
    + intros k. rewrite in_app_iff. cbn. split.
      * intros [K|[<-|[<-|[]]]]; [apply LT; exact K|exact Lp|exact Lq].
      * intros Hk. destruct (Nat.eq_dec k p); [right; left; auto|]. destruct (Nat.eq_dec k q); [right; right; left; auto|].
        left. apply Dead; auto.
  - destruct I as (-> & -> & -> & ->). cbn. eexists _, _. split; [exact E|]. split; [reflexivity|]. cbn. split; [constructor|].
    intros k. split; [intros []|lia].
Qed.
