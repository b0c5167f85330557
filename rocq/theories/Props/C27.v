(** C27: Frank-Wolfe. *)
From Coq Require Import List Arith Bool ZArith QArith Reals Lra Lia.
From Coq Require Import Floats.SpecFloat.
From Verif.Base Require Import Num Instances QInst Vec.
From Verif.Model Require Import Common FrankWolfe.
From Verif.Spec Require Import CommonSpec GDSpec Gradient FWSpec HeardSpec.
From Verif.Proof Require Import TraceLib FWProof FWConvex LBFGSEx HeardProof.
Import ListNotations.

(** For every number type, function, linear solver, update rule and callbacks: iterate
    [k] is the update of the pairs (iterate, solution) before it; at most
    maxIterations - 1 evaluations (unlimited for 0); the run ends at the first gap below
    the tolerance, at the limit or after a request; the value returned is the last one
    computed; no evaluation after a request. *)
Theorem C27_run :
  forall (N : Num) maxIterations (tolerance : N) f lmo rule cb x0 fuel r,
  frank_wolfe maxIterations tolerance f lmo rule cb fuel x0 = Ret r ->
  let es := evalgs (o_tr r) in
  bracketed x0 (o_x r) (o_tr r) /\
  (forall k e, nth_error es k = Some e ->
     f (e_at e) = (e_val e, e_grad e) /\ e_at e = fw_point lmo rule x0 es k /\
     exists h, snd e = cs_grad cb h (e_at e) (e_val e) (e_grad e)) /\
  (length es < bound maxIterations)%nat /\
  o_val r = last (map e_val es) nmax /\
  late cb evalg 0 (rev (o_tr r)) /\
  ((Forall (fun e => nlt (fw_gap lmo e) tolerance = false) es /\ o_x r = fw_point lmo rule x0 es (length es) /\
    steps_to (o_tr r) = map (fw_point lmo rule x0 es) (seq 1 (length es)) /\
    (S (length es) = bound maxIterations \/ asked cb (o_tr r))) \/
   (exists before e, es = before ++ [e] /\ Forall (fun e => nlt (fw_gap lmo e) tolerance = false) before /\
      nlt (fw_gap lmo e) tolerance = true /\ o_x r = e_at e /\
      steps_to (o_tr r) = map (fw_point lmo rule x0 es) (seq 1 (length before)))).
Proof.
  intros N maxIterations tolerance f lmo rule cb x0 fuel r E.
  pose proof (fw_ok maxIterations tolerance f lmo rule cb x0 fuel) as P. rewrite E in P. exact P.
Qed.
Print Assumptions C27_run.

Theorem C27_returns :
  forall (N : Num) maxIterations (tolerance : N) f lmo rule cb x0 fuel, (bound maxIterations <= S fuel)%nat ->
  exists r, frank_wolfe maxIterations tolerance f lmo rule cb fuel x0 = Ret r.
Proof.
  intros N maxIterations tolerance f lmo rule cb x0 fuel L.
  pose proof (fw_ok maxIterations tolerance f lmo rule cb x0 fuel) as P.
  destruct (frank_wolfe _ _ _ _ _ _ _ _); [eauto|contradiction|lia].
Qed.
Print Assumptions C27_returns.

(** Both update rules move along the segment from the iterate to the solution, so from a
    start in a convex set and with a solver that answers with points of the set every
    evaluated point, every step and the final iterate are in the set. *)
Theorem C27_stays_in_set :
  forall (mx : R) maxIterations (tolerance : R) f lmo cb x0 fuel r n K rule,
  convex_set n K -> K x0 -> (forall g, length g = n -> K (lmo g)) ->
  (forall x, K x -> length (snd (f x)) = n) ->
  (forall h x v g, length (cs_grad cb h x v g) = length g) ->
  (rule = rule_classic (N := RNum mx) \/
   exists lsMax lsTol F G, rule = rule_linesearch (N := RNum mx) lsMax lsTol F G) ->
  frank_wolfe (N := RNum mx) maxIterations tolerance f lmo rule cb fuel x0 = Ret r ->
  K (o_x r) /\ Forall K (map e_at (evalgs (o_tr r))) /\ Forall K (steps_to (o_tr r)).
Proof.
  intros mx maxIterations tolerance f lmo cb x0 fuel r n K rule CK K0 HL LF LC RU E.
  assert (HS : on_segment rule).
  { destruct RU as [-> |(a & b & c & d & ->)]; [apply classic_on_segment|apply linesearch_rule_on_segment]. }
  destruct (C27_run (RNum mx) _ _ _ _ _ _ _ _ _ E) as (_ & GD & _ & _ & _ & EN). cbn zeta in EN.
  pose proof (points_in mx n K lmo rule CK HS HL f cb x0 _ K0 LF LC GD) as P.
  assert (A : Forall K (map (e_at (N := RNum mx)) (evalgs (o_tr r)))).
  { apply Forall_forall. intros x I. apply in_map_iff in I. destruct I as (e & <- & I). apply In_nth_error in I.
    destruct I as [k I]. destruct (GD k e I) as (_ & -> & _). apply P.
    assert (k < length (evalgs (o_tr r)))%nat by (apply nth_error_Some; congruence). lia. }
  split; [|split; [exact A|]].
  - destruct EN as [(_ & -> & _)|(before & e & EB & _ & _ & -> & _)]; [apply P; lia|].
    rewrite Forall_forall in A. apply A. rewrite EB. apply in_map, in_or_app. right. left. reflexivity.
  - apply Forall_forall. intros x I.
    destruct EN as [(_ & _ & ST & _)|(before & e & EB & _ & _ & _ & ST)]; rewrite ST in I;
      apply in_map_iff in I; destruct I as (k & <- & I); apply in_seq in I; apply P; [lia|].
    rewrite EB, app_length. cbn [length]. lia.
Qed.
Print Assumptions C27_stays_in_set.

(** If moreover the objective is convex, the gradient is right and the solver solves its
    problem, then stopping on the gap gives a value within the tolerance of every value
    in the set. *)
Theorem C27_gap_is_a_certificate :
  forall (mx : R) (tolerance : R) f grad lmo cb x0 fuel maxIterations r n K rule before e,
  convex_set n K -> K x0 -> (forall g, length g = n -> minimises K g (lmo g)) ->
  (forall x, K x -> length (grad x) = n /\ above_tangent K f x (grad x)) ->
  (forall h x v g, cs_grad cb h x v g = g) ->
  (rule = rule_classic (N := RNum mx) \/
   exists lsMax lsTol F G, rule = rule_linesearch (N := RNum mx) lsMax lsTol F G) ->
  frank_wolfe (N := RNum mx) maxIterations tolerance (fun x => (f x, grad x)) lmo rule cb fuel x0 = Ret r ->
  evalgs (o_tr r) = before ++ [e] -> nlt (n := RNum mx) (fw_gap (N := RNum mx) lmo e) tolerance = true ->
  o_x r = e_at e /\ o_val r = f (o_x r) /\ (forall y, K y -> o_val r < f y + tolerance)%R.
Proof.
  intros mx tolerance f grad lmo cb x0 fuel maxIterations r n K rule before e CK K0 HL LF LC RU E EE GP.
  destruct (C27_stays_in_set mx maxIterations tolerance (fun x => (f x, grad x)) lmo cb x0 fuel r n K rule CK K0) as (_ & A & _); auto.
  { intros g L. apply HL, L. }
  { intros x Kx. apply LF, Kx. }
  { intros. rewrite LC. reflexivity. }
  destruct (C27_run (RNum mx) _ _ _ _ _ _ _ _ _ E) as (_ & GD & _ & V & _ & EN). cbn zeta in EN, V.
  assert (NE : nth_error (evalgs (o_tr r)) (length before) = Some e).
  { rewrite EE, nth_error_app2, Nat.sub_diag by lia. reflexivity. }
  destruct (GD _ _ NE) as (FE & _ & h & CG). rewrite LC in CG.
  destruct e as [[[x v] g] g']. unfold e_at, e_val, e_grad in *. cbn [fst snd] in *. injection FE as <- <-. subst g'.
  assert (OV : o_val r = f x). { rewrite V, EE, map_app. cbn. apply last_last. }
  assert (OX : o_x r = x).
  { destruct EN as [(FA & _)|(b' & e' & EB & _ & _ & -> & _)].
    - rewrite EE in FA. apply Forall_app in FA. destruct FA as [_ FA]. apply Forall_inv in FA. congruence.
    - rewrite EE in EB. apply app_inj_tail in EB. destruct EB as [_ <-]. reflexivity. }
  assert (Kx : K x).
  { rewrite EE, map_app in A. apply Forall_app in A. destruct A as [_ A]. apply Forall_inv in A. exact A. }
  split; [exact OX|]. split; [rewrite OX; exact OV|]. intros y Ky. rewrite OV.
  apply (gap_bound mx n K lmo CK f x (grad x) tolerance y Kx); [apply HL, LF, Kx|apply LF, Kx|exact GP|exact Ky].
Qed.
Print Assumptions C27_gap_is_a_certificate.

(** The line search: the point it leaves is on the segment and the value it returns is
    the objective there. *)
Theorem C27_line_search :
  forall (mx : R) lsMax (lsTol : R) f grad x1 x2, length x1 = length x2 ->
  exists t, (0 <= t <= 1)%R /\
    fst (line_search (N := RNum mx) lsMax lsTol f grad x1 x2) = segment_pt t x1 x2 /\
    snd (line_search (N := RNum mx) lsMax lsTol f grad x1 x2) = f (segment_pt t x1 x2).
Proof. intros. apply line_search_on_segment. assumption. Qed.
Print Assumptions C27_line_search.

(** ** What is not true *)
Definition unit_lmo (g : list QNum) : list QNum :=
  match g with [q] => if Qltb q 0 then [1%Q] else [0%Q] | _ => [] end.
Definition fw_Q maxIterations := frank_wolfe (N := QNum) maxIterations (1 # 1000)%Q half_square unit_lmo
  (rule_classic (N := QNum)) quiet 20.
(** ended by the limit, the value belongs to the iterate before; maxIterations = 1 makes
    no evaluation and returns the largest double *)
Theorem C27_value_at_iterate_refuted :
  (exists r, fw_Q 2 [0%Q] = Ret r /\ o_x r = [2 # 3]%Q /\ o_val r = (9 # 2)%Q /\
             fst (half_square (o_x r)) = (49 # 18)%Q) /\
  (exists r, fw_Q 1 [0%Q] = Ret r /\ o_x r = [0%Q] /\ o_val r = nmax (n := QNum)).
Proof. split; eexists; (split; [vm_compute; reflexivity|]); vm_compute; auto. Qed.
Print Assumptions C27_value_at_iterate_refuted.

(** in binary64 the secant line search of a convex function can leave NaN: on the segment
    from 0 to 1 with slopes -1e20 at 0 and 1 at 1 *)
Definition steep (x : list F64) : list F64 :=
  match x with [v] => if nlt v (n1 (n := F64)) then [fz (- 10 ^ 20)] else [fz 1] | _ => [] end.
Theorem C27_line_search_nan_refuted :
  fst (line_search (N := F64) 10 (ndiv (n := F64) (fz 1) (fz 100000)) (fun _ => fz 0) steep [fz 0] [fz 1]) = [fnan].
Proof. vm_compute. reflexivity. Qed.
Print Assumptions C27_line_search_nan_refuted.

(** the unit interval is convex, its linear problem is solved by an end point, and a
    linear function lies above its tangent *)
Definition unit_interval (x : list R) : Prop := match x with [q] => (0 <= q <= 1)%R | _ => False end.
Definition unit_end (g : list R) : list R := match g with [q] => if Rltb q 0 then [1%R] else [0%R] | _ => [] end.
Example C27_hypotheses :
  convex_set 1 unit_interval /\ (forall g, length g = 1%nat -> minimises unit_interval g (unit_end g)) /\
  above_tangent unit_interval (fun x => dotR [-2]%R x) [0]%R [-2]%R.
Proof.
  split; [|split].
  - split; [intros [|a [|]] H; cbn in *; tauto|]. intros t [|a [|]] [|b [|]] H KA KB; cbn in *; try tauto. nra.
  - intros [|q [|]] L; try discriminate. split.
    + cbn. destruct (Rltb_spec q 0); cbn; lra.
    + intros [|y [|]] Ky; cbn in *; try tauto. destruct (Rltb_spec q 0); cbn; nra.
  - intros [|y [|]] Ky; cbn in *; try tauto. lra.
Qed.
Example C27_gap_run :
  match frank_wolfe (N := QNum) 100 (1 # 1000)%Q half_square unit_lmo (rule_linesearch (N := QNum) 10 (1 # 1000)%Q
    (fun x => fst (half_square x)) (fun x => snd (half_square x))) quiet 20 [0%Q] with
  | Ret r => (o_val r, o_x r, length (evalgs (o_tr r))) = (2%Q, [1%Q], 2%nat)
  | _ => False end.
Proof. vm_compute. reflexivity. Qed.

(** The gradient the run goes on with is the one the callbacks handed back for the history
    at that point (for example a clipped one). *)
Theorem C27_callbacks_heard :
  forall (N : Num) maxIterations (tolerance : N) f lmo rule cb x0 fuel r,
  frank_wolfe maxIterations tolerance f lmo rule cb fuel x0 = Ret r -> heard cb (rev (o_tr r)).
Proof. intros. eapply fw_heard_all; eassumption. Qed.
Print Assumptions C27_callbacks_heard.
