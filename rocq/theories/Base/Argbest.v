(** The idiom  "if (x < best) { best = x; arg = e; }"  over a sequence. *)
From Coq Require Import List Bool.
Import ListNotations.

Section Argbest.
  Context {V E : Type}.
  Variables lt le : V -> V -> bool.
  Definition better_of (b : V * option E) (e : V * E) : V * option E :=
    if lt (fst e) (fst b) then (fst e, Some (snd e)) else b.
  Definition argbest (init : V) (l : list (V * E)) : V * option E := fold_left better_of l (init, None).

  Hypothesis lt_irrefl : forall x, lt x x = false.
  Hypothesis lt_trans : forall x y z, lt x y = true -> lt y z = true -> lt x z = true.
  Hypothesis le_lt : forall x y z, le x y = true -> lt y z = true -> lt x z = true.
  Hypothesis lt_le : forall x y, lt x y = true -> le x y = true.

  (** The result is the first best element, if it beats the initial value. *)
  Lemma argbest_ok init l :
    (argbest init l = (init, None) /\ forall v e, In (v, e) l -> lt v init = false) \/
    (exists pre v e post, l = pre ++ (v, e) :: post /\ argbest init l = (v, Some e) /\ lt v init = true /\
       (forall w d, In (w, d) pre -> le w v = false) /\ (forall w d, In (w, d) post -> lt w v = false)).
  Proof using lt_irrefl lt_trans le_lt lt_le.
    induction l as [|[v e] l IH] using rev_ind.
    - left. split; [reflexivity|]. intros v e [].
    - assert (Es : argbest init (l ++ [(v, e)]) = better_of (argbest init l) (v, e)) by (unfold argbest; rewrite fold_left_app; reflexivity).
      rewrite Es. unfold better_of. cbn [fst snd]. destruct IH as [[Ea H]|(pre & w & d & post & E1 & Ea & Hw & Hpre & Hpost)]; rewrite Ea; cbn [fst].
      + destruct (lt v init) eqn:Ev.
        * right. exists l, v, e, []. split; [reflexivity|]. split; [reflexivity|]. split; [exact Ev|]. split; [|intros ? ? []].
          intros w d Hw. apply H in Hw. destruct (le w v) eqn:K; [|reflexivity]. rewrite (le_lt _ _ _ K Ev) in Hw. discriminate.
        * left. split; [reflexivity|]. intros w d Hw. apply in_app_iff in Hw as [Hw|[Hw|[]]]; [eapply H; exact Hw|].
          injection Hw as <- <-. exact Ev.
      + destruct (lt v w) eqn:Ev.
        * right. exists l, v, e, []. split; [reflexivity|]. split; [reflexivity|]. split; [eapply lt_trans; eassumption|]. split; [|intros ? ? []].
          intros u c Hu. destruct (le u v) eqn:K; [|reflexivity]. pose proof (le_lt _ _ _ K Ev) as Kw.
          rewrite E1 in Hu. apply in_app_iff in Hu as [Hu|[Hu|Hu]].
          -- apply Hpre in Hu. rewrite (lt_le _ _ Kw) in Hu. discriminate.
          -- injection Hu as <- <-. rewrite lt_irrefl in Kw. discriminate.
          -- apply Hpost in Hu. congruence.
        * right. exists pre, w, d, (post ++ [(v, e)]). split; [rewrite E1, <- app_assoc; reflexivity|].
          repeat split; auto. intros u c Hu. apply in_app_iff in Hu as [Hu|[Hu|[]]]; [eapply Hpost; exact Hu|].
          injection Hu as <- <-. exact Ev.
  Qed.
End Argbest.
