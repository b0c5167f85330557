(** Proofs for C60, the optimizers other than SGD and Eve. *)
From Coq Require Import List Arith Bool Lia ZArith.
From Verif.Base Require Import Num Vec Size Loop.
From Verif.Model Require Import Common GradientDescent CD FrankWolfe LBFGS AugLag ParallelSgd PrimalDual.
From Verif.Proof Require Import NoLimit.
Import ListNotations.

(** ---- the loops with i != maxIterations ---- *)
Lemma bound_pos M : 0 < M -> bound M = M. Proof. destruct M; [lia|reflexivity]. Qed.
Lemma bound_0 : bound 0 = S size_max. Proof. reflexivity. Qed.
Ltac lims i := rewrite (eqb_f i) by (rewrite ?bound_0; try lia); rewrite (eqb_f i) by (rewrite ?bound_0; try lia).

Section Plain.
  Context {N : Num}.
  Lemma gd_loop_agree (h : N) tol f cb M fuel : forall i ov la t x tr, i + fuel < bound M -> i + fuel < bound 0 ->
    gd_loop h 0 tol f cb fuel i ov la t x tr = gd_loop h M tol f cb fuel i ov la t x tr.
  Proof.
    induction fuel as [|k IH]; intros i ov la t x tr H1 H2; cbn [gd_loop]; rewrite !(eqb_f i) by lia; destruct (negb _); try reflexivity.
    destruct (f x) as [v g]. destruct (_ || _); [reflexivity|]. destruct (nlt _ _); [reflexivity|]. apply IH; lia.
  Qed.
  Lemma gd_no_limit (h : N) tol f cb M fuel x : S fuel < M -> fuel < size_max -> gd h 0 tol f cb fuel x = gd h M tol f cb fuel x.
  Proof. intros H1 H2. apply gd_loop_agree; rewrite ?bound_pos, ?bound_0 by lia; lia. Qed.

  Lemma cd_loop_agree (h : N) tol ui f pg pol cb M fuel : forall i ov la t x tr, i + fuel < bound M -> i + fuel < bound 0 ->
    cd_loop h 0 tol ui f pg pol cb fuel i ov la t x tr = cd_loop h M tol ui f pg pol cb fuel i ov la t x tr.
  Proof.
    induction fuel as [|k IH]; intros i ov la t x tr H1 H2; cbn [cd_loop]; rewrite !(eqb_f i) by lia; destruct (negb (negb _ && _)); try reflexivity.
    destruct (pol i x) as [j|]; [|reflexivity]. destruct (_ || _); [reflexivity|]. destruct (negb _); [reflexivity|].
    destruct (ui =? 0); [reflexivity|]. destruct (_ =? 0); [destruct (_ || _); [reflexivity|]|]; apply IH; lia.
  Qed.
  Lemma cd_no_limit (h : N) tol ui f pg pol cb M fuel x : S fuel < M -> fuel < size_max ->
    cd h 0 tol ui f pg pol cb fuel x = cd h M tol ui f pg pol cb fuel x.
  Proof. intros H1 H2. apply cd_loop_agree; rewrite ?bound_pos, ?bound_0 by lia; lia. Qed.

  Lemma fw_loop_agree (tol : N) f lmo rule cb M fuel : forall i cur t x h tr, i + fuel < bound M -> i + fuel < bound 0 ->
    fw_loop 0 tol f lmo rule cb fuel i cur t x h tr = fw_loop M tol f lmo rule cb fuel i cur t x h tr.
  Proof.
    induction fuel as [|k IH]; intros i cur t x h tr H1 H2; cbn [fw_loop]; rewrite !(eqb_f i) by lia; destruct (negb _); try reflexivity.
    destruct (f x) as [v g]. destruct (nlt _ _); [reflexivity|]. apply IH; lia.
  Qed.
  Lemma fw_no_limit (tol : N) f lmo rule cb M fuel x : S fuel < M -> fuel < size_max ->
    frank_wolfe 0 tol f lmo rule cb fuel x = frank_wolfe M tol f lmo rule cb fuel x.
  Proof. intros H1 H2. apply fw_loop_agree; rewrite ?bound_pos, ?bound_0 by lia; lia. Qed.

  Lemma pd_loop_agree (s2 hf : N) p ch iv em sy ls nv nf rc ta t1 t2 t3 cb M fuel : forall i t s tr, i + fuel < bound M -> i + fuel < bound 0 ->
    pd_loop s2 hf p ch iv em sy ls nv nf rc ta t1 t2 t3 0 cb fuel i t s tr = pd_loop s2 hf p ch iv em sy ls nv nf rc ta t1 t2 t3 M cb fuel i t s tr.
  Proof.
    induction fuel as [|k IH]; intros i t s tr H1 H2; cbn [pd_loop]; rewrite !(eqb_f i) by lia; destruct (_ || t); try reflexivity.
    destruct (iteration _ _ _ _ _ _ _ _ _ _ _ _ _ _ _ s); try reflexivity. destruct conv; [reflexivity|]. apply IH; lia.
  Qed.
  Lemma pd_no_limit (s2 hf : N) p ch iv em sy ls nv nf rc ta t1 t2 t3 cb cu M fuel X ys yd Z : S fuel < M -> fuel < size_max ->
    pd_optimize s2 hf p ch iv em sy ls nv nf rc ta t1 t2 t3 0 cb cu fuel X ys yd Z = pd_optimize s2 hf p ch iv em sy ls nv nf rc ta t1 t2 t3 M cb cu fuel X ys yd Z.
  Proof.
    intros H1 H2. unfold pd_optimize. destruct (validate _ _ _ _ _ _); [reflexivity|]. f_equal.
    apply pd_loop_agree; rewrite ?bound_pos, ?bound_0 by lia; lia.
  Qed.

  Lemma lb_loop_agree nb (ar mg wo fa mi ma : N) mt tol n2 nF f cb M fuel : forall i s y v x g t tr, i + fuel < M ->
    lb_loop nb 0 ar mg wo fa mi ma mt tol n2 nF f cb fuel i s y v x g t tr = lb_loop nb M ar mg wo fa mi ma mt tol n2 nF f cb fuel i s y v x g t tr.
  Proof.
    induction fuel as [|k IH]; intros i s y v x g t tr H; cbn [lb_loop]; rewrite (eqb_f i M), (proj2 (Nat.eqb_neq M 0)) by lia; rewrite Nat.eqb_refl;
      cbn [negb orb andb]; destruct (negb (negb t)); try reflexivity.
    destruct (nlt _ mg); [reflexivity|]. destruct (nisnan v); [reflexivity|]. destruct (choose_scaling _ _ _ _ _ _); [|reflexivity].
    destruct (neq _ _); [reflexivity|]. destruct (negb (nfinite _)); [reflexivity|]. destruct (search_direction _ _ _ _ _ _); [|reflexivity].
    destruct (line_search _ _ _ _ _ _ _ _ _ _ _ _ _); [|reflexivity]. destruct (negb _); [reflexivity|]. destruct (neq _ _); [reflexivity|].
    destruct (nle _ _); [reflexivity|]. destruct (update_basis _ _ _ _ _ _ _ _) as [[? ?]|]; [|reflexivity]. apply IH. lia.
  Qed.
  (** L-BFGS has no limit at all for 0, not even 2^64 *)
  Lemma lbfgs_no_limit nb (ar mg wo fa mi ma : N) mt tol n2 nF f cb M fuel t s y x : fuel < M ->
    lbfgs nb 0 ar mg wo fa mi ma mt tol n2 nF f cb fuel t s y x = lbfgs nb M ar mg wo fa mi ma mt tol n2 nF f cb fuel t s y x.
  Proof. intro H. unfold lbfgs. destruct (f x) as [v g]. apply lb_loop_agree. lia. Qed.

  Lemma al_loop_agree {S} tf sf (tol : N) f cs (solve : _ -> S -> _) stop M fuel : forall i x l sg th la t s tr, i + fuel < al_limit M -> i + fuel < size_max ->
    al_loop 0 tf sf tol f cs solve stop fuel i x l sg th la t s tr = al_loop M tf sf tol f cs solve stop fuel i x l sg th la t s tr.
  Proof.
    induction fuel as [|k IH]; intros i x l sg th la t s tr H1 H2; cbn [al_loop]; change (al_limit 0) with size_max;
      rewrite !(eqb_f i) by lia; cbn [negb andb]; destruct (negb (negb t)); try reflexivity.
    destruct (solve tr s l sg x) as [x' s']. destruct (_ && _); [reflexivity|].
    destruct (penalty_loop _ _ _ _ _ _ _) as [[pen t3] tr3]. destruct t3; [reflexivity|]. destruct (nlt pen th).
    - destruct (lambda_loop _ _ _ _ _ _ _ _) as [[[? ?] ?]|]; [|reflexivity]. apply IH; lia.
    - destruct (nle _ _); [reflexivity|]. apply IH; lia.
  Qed.
  Lemma al_no_limit {S} tf sf (tol : N) f cs (solve : _ -> S -> _) stop M fuel t s l sg x : Datatypes.S fuel < M -> fuel < size_max ->
    auglag 0 tf sf tol f cs solve stop fuel t s l sg x = auglag M tf sf tol f cs solve stop fuel t s l sg x.
  Proof.
    intros H1 H2. unfold auglag. destruct (penalty_loop _ _ _ _ _ _ _) as [[p t1] tr1]. apply al_loop_agree; [|lia].
    destruct M; [lia|]. cbn [al_limit]. lia.
  Qed.

  Lemma psgd_loop_agree (tol : N) sh T share f st pm cbE gr cbG cbS sc M fuel : forall i o x la t tr, i + fuel <= bound M -> i + fuel <= bound 0 ->
    psgd_loop 0 tol sh T share f st pm cbE gr cbG cbS sc fuel i o x la t tr = psgd_loop M tol sh T share f st pm cbE gr cbG cbS sc fuel i o x la t tr.
  Proof.
    induction fuel as [|k IH]; intros i o x la t tr H1 H2; cbn [psgd_loop]; [reflexivity|]. rewrite !(eqb_f i) by lia. destruct (_ || t); try reflexivity.
    destruct (_ || _); [reflexivity|]. destruct (nlt _ _); [reflexivity|]. destruct (pexec _ _ _ _ _ _ _ _ _) as [s ls].
    destruct (finished _ _ _); [|reflexivity]. apply IH; lia.
  Qed.
  Lemma psgd_no_limit (tol : N) sh T share f st pm cbE gr cbG cbS sc M n fuel x : fuel < M -> fuel <= size_max ->
    psgd 0 tol sh T share f st pm cbE gr cbG cbS sc n fuel x = psgd M tol sh T share f st pm cbE gr cbG cbS sc n fuel x.
  Proof. intros H1 H2. apply psgd_loop_agree; rewrite ?bound_pos, ?bound_0 by lia; lia. Qed.
End Plain.
