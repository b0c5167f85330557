(** C67: the callbacks that report on a run, and TimerStop. *)
From Coq Require Import List Arith Bool ZArith Reals Lra Lia.
From Verif.Base Require Import Num Instances.
From Verif.Model Require Import Common Callbacks Reporting Sgd.
From Verif.Spec Require Import LpSpec SgdSpec ReportingSpec.
From Verif.Proof Require Import SgdMore ReportingProof ReportingBar ReportingMax.
Import ListNotations.

(** ** PrintLoss prints the objective of every epoch that ends, and never asks to stop. *)
Theorem C67_print_loss (N : Num) (objs printed : list N) :
  fold_left (fun p o => fst (print_loss p o)) objs printed = printed ++ objs /\
  forall p o, snd (print_loss (N := N) p o) = false.
Proof.
  split; [|reflexivity]. revert printed. induction objs as [|o objs IH]; intros p; cbn; [rewrite app_nil_r; reflexivity|].
  rewrite IH, <- app_assoc. reflexivity.
Qed.

(** ** TimerStop as the callback of SGD.  [now h] is the clock when the history of events is h; [began] the
    part of the history up to BeginOptimization.  SGD takes no further step after the first epoch that ends more
    than [duration] after the start. *)
Definition timer_cb {N : Num} {X G : Type} (duration : N) (now : list (event N X G) -> N) : Callbacks N X G :=
  {| cb_stop := fun h =>
       match h with
       | EndEpoch _ _ _ :: _ => timer_end_epoch duration (now (skipn (length h - 1) h)) (now h)
       | _ => false
       end;
     cb_grad := fun _ g => g |}.
Theorem C67_timer_stop (N : Num) (X G U D : Type) (c : Cfg N X G U D) (f : SepFun N X G) duration now
    (x : X) (u : U) (d : D) (step : N) (fuel : nat) (r : res N X G U D) pre y e o post :
  0 < sf_num f -> 0 < c_batch c ->
  optimize_with c f (timer_cb duration now) fuel u d step x = Return r ->
  r_trace r = pre ++ EndEpoch y e o :: post ->
  nlt duration (nsub (now (rev (pre ++ [EndEpoch y e o]))) (now (firstn 1 (r_trace r)))) = true ->
  (forall e', In e' post -> is_evalgrad e' = false) /\ (forall z, ~ In (Sgd.Step z) post) /\
  exists y' q, post = q ++ [EndOpt y'].
Proof.
  intros H1 H2 H3 H4 H5.
  assert (A : cb_stop (timer_cb duration now) (rev (pre ++ [EndEpoch y e o])) = true).
  { rewrite rev_app_distr. cbn [rev app timer_cb cb_stop]. unfold timer_end_epoch. rewrite rev_app_distr in H5. cbn [rev app] in H5.
    replace (skipn (length (EndEpoch y e o :: rev pre) - 1) (EndEpoch y e o :: rev pre)) with (firstn 1 (r_trace r)); [exact H5|].
    rewrite H4. cbn [length Nat.sub]. rewrite Nat.sub_0_r. destruct pre as [|p0 pre]; [reflexivity|]. cbn [rev app firstn]. rewrite app_length. cbn [length].
    rewrite Nat.add_1_r. cbn [skipn]. rewrite skipn_app, skipn_all, Nat.sub_diag. reflexivity. }
  assert (B : (forall e', In e' post -> is_evalgrad e' = false) /\
    (forall z, In (Sgd.Step z) post -> is_evalgrad (EndEpoch y e o) = true /\ exists q, post = Sgd.Step z :: q) /\ exists y' q, post = q ++ [EndOpt y'])
    by (exact (c05 c f (timer_cb duration now) x u d step fuel H1 H2 r pre (EndEpoch y e o) post H3 H4 eq_refl A)).
  destruct B as (B1 & B2 & B3).
  split; [exact B1|]. split; [|exact B3]. intros z Hz. destruct (B2 z Hz) as [B _]. discriminate.
Qed.

(** ** QueryFront keeps the first fronts of generations 0, rate, 2 rate, ... *)
Theorem C67_query_front (V : Type) (dv : V) rate gens : 0 < rate ->
  query_run dv rate 0 gens [] =
  Some (length gens,
        flat_map (fun k => if k mod rate =? 0 then [map (fun i => nth i (fst (nth k gens ([], []))) dv) (snd (nth k gens ([], [])))] else [])
          (seq 0 (length gens))).
Proof. intros H. rewrite query_run_app by exact H. reflexivity. Qed.
(** Refuted: "every query rate works": with rate 0 the first generation divides by zero. *)
Theorem C67_query_rate_refuted (V : Type) (dv : V) g gens : query_run dv 0 0 (g :: gens) [] = None.
Proof. destruct g. reflexivity. Qed.

(** ** Report.  Whatever the events of the run: the table has a row for each k-th iteration (an
    iteration is an epoch if any epoch ended, else a step), with its loss, the change since the
    previous row, the norm of the last gradient, the step size and the time; the summary gives the
    first and last loss and the numbers of iterations, epochs and calls.  Hypotheses: if gradients are computed,
    there is one before the first iteration ends, and the optimizer has a step size either
    always or never. *)
Theorem C67_report (N : Num) (X : Type) (trunc : N -> option nat) percentage separable maxIt
    (evs : list (rev_ (N := N) (X := X))) (x : X) now k :
  (norm_at evs = None \/ Forall (fun r => rc_norm r <> None) (recorded evs)) -> shown (recorded evs) rc_step ->
  iteration_step trunc percentage (length (recorded evs)) = Some k ->
  exists s r, rep_run trunc percentage separable maxIt rep_new evs x now = Ret (s, r) /\
    ro_x0 r = start_at evs /\ ro_x r = x /\
    (forall j, j < length (ro_rows r) <-> j * k < length (recorded evs)) /\
    (forall j, j < length (ro_rows r) -> exists w, nth_error (ro_rows r) j = Some w /\ row_ok (recorded evs) k j w) /\
    (count is_eval evs = 0 -> ro_sum r = None) /\
    (0 < count is_eval evs -> exists u, ro_sum r = Some u /\
       let losses := match recorded evs with [] => [value_at evs] | _ => map rc_loss (recorded evs) end in
       su_first u = hd n0 losses /\ su_last u = last losses n0 /\ su_change u = nsub (hd n0 losses) (last losses n0) /\
       su_iters u = length (recorded evs) /\ su_epochs u = count is_begin_epoch evs /\
       su_ecalls u = count is_eval evs /\
       su_gcalls u = (if existsb is_grad evs then Some (count is_grad evs) else None) /\
       su_time u = last (match recorded evs with [] => [now] | _ => map rc_time (recorded evs) end) n0 /\
       su_limit u = if separable then match maxIt with Some m => Some (m, m =? length losses) | None => None end else None).
Proof. apply report_ok. Qed.

(** The summary's gradient norm is the largest of those recorded; its step sizes are the first and the last. *)
Theorem C67_report_extremes (mx : R) (X : Type) trunc percentage separable maxIt (evs : list (rev_ (N := RNum mx) (X := X))) (x : X) now s r u :
  rep_run (N := RNum mx) trunc percentage separable maxIt rep_new evs x now = Ret (s, r) -> ro_sum r = Some u ->
  let norms := flat_map opt_list (map rc_norm (recorded evs)) in
  let steps := flat_map opt_list (map rc_step (recorded evs)) in
  su_steps u = match steps with [] => None | a :: _ => Some (a, last steps a) end /\
  (norms = [] -> su_norm u = None) /\
  (norms <> [] -> exists m : R, su_norm u = Some m /\ In m norms /\ forall v, In v norms -> (v <= m)%R).
Proof. apply report_extremes. Qed.

(** A Report object that is used for a second run reports on both runs together, as if their
    events were those of one run. *)
Theorem C67_report_reused (N : Num) (X : Type) (trunc : N -> option nat) p sep m
    (evs1 evs2 : list (rev_ (N := N) (X := X))) x1 t1 s1 r1 x2 t2 :
  rep_run trunc p sep m rep_new evs1 x1 t1 = Ret (s1, r1) ->
  recorded evs1 <> [] \/ count is_eval evs1 = 0 ->
  rep_run trunc p sep m s1 evs2 x2 t2 = rep_run trunc p sep m rep_new (evs1 ++ evs2) x2 t2.
Proof.
  intros E H. eapply report_reused; [exact E|]. destruct (state_ok evs1) as (_ & _ & _ & _ & _ & A6 & _ & A8 & _).
  destruct H as [H|H]; [left; rewrite A8; destruct (recorded evs1); [congruence|discriminate]|right; rewrite A6; exact H].
Qed.

Definition Ztrunc (z : Z) : option nat := if (z <? 0)%Z then None else Some (Z.to_nat z).
(** Refuted: "Report never reads outside its vectors".  A step (or a whole run) without gradients followed by one
    with gradients: the table reads a norm that was never stored. *)
Theorem C67_report_safe_refuted :
  rep_run (N := ZNum) (X := unit) Ztrunc 1%Z false None rep_new
    [RBegin tt; REval 5%Z; RStep None 1%Z; REval 4%Z; RGrad 2%Z; RStep None 2%Z] tt 3%Z = Bad.
Proof. reflexivity. Qed.
(** Refuted: "Reached maximum iterations" tells whether they were reached.  Two epochs of ten functions,
    with maxIterations = 20: the report counts two iterations and answers no. *)
Theorem C67_reached_refuted : exists s r u,
  rep_run (N := ZNum) (X := unit) Ztrunc 1%Z true (Some 20) rep_new
    ([RBegin tt] ++ concat (repeat ([RBeginEpoch] ++ concat (repeat [REval 1%Z; RGrad 1%Z; RStep None 1%Z] 10) ++ [REndEpoch 10%Z None 1%Z]) 2))
    tt 3%Z = Ret (s, r) /\ ro_sum r = Some u /\ su_limit u = Some (20, false) /\ su_ecalls u = 20 /\ su_iters u = 2.
Proof. eexists. eexists. eexists. split; [vm_compute; reflexivity|]. repeat split. Qed.
(** Refuted: "iterationsPercentage = 0.1 shows a tenth of the iterations".  Of 1000 iterations it shows 10. *)
Theorem C67_percentage_refuted mx trunc : trunc_ok trunc ->
  iteration_step (N := RNum mx) trunc (1 / 10)%R 1000 = Some 100 /\ (forall j, j < 10 <-> j * 100 < 1000).
Proof. intros H. split; [apply step_1000; exact H|lia]. Qed.

(** The coordinates, when there are more than [size]: a column vector is shown by its first size - 1
    elements and the last. *)
Theorem C67_truncated_column (N : Num) (data : list N) nrows size : length data = nrows -> 2 <= size -> size < nrows ->
  truncate_print data nrows 1 size = Ret (map Elem (firstn (size - 1) data) ++ [LastElem (last data n0)]).
Proof. apply column_ok. Qed.
(** Refuted: the same for matrices.  Of a 5 x 2 matrix with columns 0..4 and 5..9 the second column is shown
    as 4 5 6 ... 9; of a 3 x 2 matrix with size 2 nothing is shown, an index is out of range. *)
Theorem C67_truncated_matrix_refuted :
  truncate_print (N := ZNum) [0; 1; 2; 3; 4; 5; 6; 7; 8; 9]%Z 5 2 4 =
    Ret [Elem (N := ZNum) 0%Z; Elem (N := ZNum) 1%Z; Elem (N := ZNum) 2%Z; LastElem (N := ZNum) 4%Z;
         Elem (N := ZNum) 4%Z; Elem (N := ZNum) 5%Z; Elem (N := ZNum) 6%Z; LastElem (N := ZNum) 9%Z] /\
  truncate_print (N := ZNum) [0; 1; 2; 3; 4; 5]%Z 3 2 2 = Bad.
Proof. split; reflexivity. Qed.

(** ** ProgressBar, over the reals, for widths from 1 to 100: what it shows in one epoch.  Step k: k of the steps per
    epoch, floor(100 k / steps) percent, and the sum of the losses per point divided by k + 1; at the end of the
    epoch the objective reported. *)
Theorem C67_progress_bar mx trunc w batch epoch epochs size vs o (s : pbar (N := RNum mx)) :
  trunc_ok trunc -> 1 <= w <= 100 -> 0 < size ->
  pb_width s = pb_width (pbar_new (N := RNum mx) w) -> pb_size s = size -> pb_epochs s = epochs ->
  pbar_epoch_lines (N := RNum mx) trunc 100 batch epoch vs o s =
  Ret ((match vs with [] => [] | _ => [Heading epoch epochs] end) ++
       map (fun k => StepLine (N := RNum mx) k size (bar_of mx trunc w (100 * k / size)) (100 * k / size)
                       (sumR (map (fun v => v / INR batch) (firstn k vs)) / INR (S k))%R) (seq 1 (length vs)) ++
       [EpochLine (N := RNum mx) (length vs) size (bar_of mx trunc w (100 * length vs / size)) (100 * length vs / size) o]).
Proof. intros HT Hw Hs E1 E2 E3. apply (epoch_ok mx trunc HT w batch epoch epochs size Hw Hs vs o s E1 E2 E3). Qed.
(** The bar: marks at 0, s, 2 s, ... below 100 where s = floor(100 / width); '=' before the percentage, '>'
    at it, '.' after it. *)
Theorem C67_bar mx trunc w p : trunc_ok trunc -> 1 <= w <= 100 ->
  bar_loop (N := RNum mx) trunc 100 (pb_width (pbar_new (N := RNum mx) w)) 0 p = Ret (bar_of mx trunc w p) /\
  (forall q, q < length (bar_of mx trunc w p) <-> q * (100 / w) < 100) /\
  bar_of mx trunc w p =
    map (fun q => let i := q * (100 / w) in if i <? p then Done else if i =? p then Here else Todo) (seq 0 (length (bar_of mx trunc w p))).
Proof.
  intros HT Hw. split; [apply bar_of_ok; assumption|]. destruct (bar_ok mx trunc HT w p Hw 100 0 ltac:(lia)) as (l & E & E1 & E2).
  rewrite (bar_of_ok mx trunc HT w p Hw) in E. injection E as E. rewrite E. split; [exact E2|exact E1].
Qed.
(** BeginOptimization: steps per epoch and epochs, both rounded up. *)
Theorem C67_bar_totals (N : Num) n b m (s : pbar (N := N)) : 0 < n -> 0 < b ->
  exists s', pbar_begin n b m s = Ret s' /\ pb_width s' = pb_width s /\
    pb_size s' * b < n + b /\ n <= pb_size s' * b /\ pb_epochs s' * n < m + n /\ m <= pb_epochs s' * n.
Proof.
  intros Hn Hb. unfold pbar_begin. destruct (Nat.eqb_spec n 0); [lia|]. destruct (Nat.eqb_spec b 0); [lia|]. cbn [orb]. eexists. split; [reflexivity|].
  cbn [pb_width pb_size pb_epochs]. split; [reflexivity|].
  assert (C : forall a q, 0 < q -> ceil_div a q * q < a + q /\ a <= ceil_div a q * q).
  { intros a q Hq. unfold ceil_div. pose proof (Nat.div_mod a q ltac:(lia)). pose proof (Nat.mod_upper_bound a q ltac:(lia)). destruct (Nat.eqb_spec (a mod q) 0); nia. }
  destruct (C n b Hb). destruct (C m n Hn). repeat split; assumption.
Qed.
(** Refuted: "ProgressBar(70) shows a bar of 70 characters": it has 100. *)
Theorem C67_bar_length_refuted mx trunc p : trunc_ok trunc -> length (bar_of mx trunc 70 p) = 100.
Proof.
  intros H. destruct (C67_bar mx trunc 70 p H ltac:(lia)) as (_ & E & _). change (100 / 70) with 1 in E.
  pose proof (E 99) as E1. pose proof (E 100) as E2. lia.
Qed.
(** Refuted: "every width works": a bar wider than 100 is never finished. *)
Theorem C67_wide_bar_refuted mx trunc w p : trunc_ok trunc -> 100 < w ->
  forall fuel, bar_loop (N := RNum mx) trunc fuel (pb_width (pbar_new (N := RNum mx) w)) 0 p = More.
Proof. intros H Hw. apply bar_hangs; assumption. Qed.
(** Refuted: "the loss shown is the mean of the losses so far": after the first step it is half of it. *)
Theorem C67_bar_loss_refuted mx trunc (v : R) : trunc_ok trunc -> v <> 0%R ->
  exists h l p b, pbar_epoch_lines (N := RNum mx) trunc 100 1 1 [v] v
      {| pb_width := pb_width (pbar_new (N := RNum mx) 50); pb_obj := 0%R; pb_epochs := 1; pb_size := 1; pb_step := 1; pb_new := false; pb_epoch := 1 |} =
    Ret [h; StepLine (N := RNum mx) 1 1 b p (v / 2)%R; l] /\ (v / 2 <> v)%R.
Proof.
  intros HT Hv. exists (Heading 1 1), (EpochLine (N := RNum mx) 1 1 (bar_of mx trunc 50 (100 * 1 / 1)) (100 * 1 / 1) v), (100 * 1 / 1), (bar_of mx trunc 50 (100 * 1 / 1)). split; [|lra].
  etransitivity; [apply (C67_progress_bar mx trunc 50 1 1 1 1 [v] v _ HT ltac:(lia) ltac:(lia)); reflexivity|].
  cbn [length seq map app firstn sumR]. do 4 f_equal. cbn. lra.
Qed.

(** Cases that meet the hypotheses. *)
Example C67_trunc : trunc_ok (fun x => if Rle_dec 0 x then Some (Z.to_nat (Int_part x)) else None).
Proof.
  intros x k [H1 H2]. destruct (Rle_dec 0 x) as [_|H]; [|pose proof (pos_INR k); lra]. f_equal.
  assert (E : Int_part x = Z.of_nat k); [|rewrite E; apply Nat2Z.id]. rewrite INR_IZR_INZ in H1, H2. unfold Int_part. rewrite <- (tech_up x (Z.of_nat k + 1)); [lia| |]; rewrite plus_IZR; lra.
Qed.
Example C67_report_case :
  match rep_run (N := ZNum) (X := unit) Ztrunc 1%Z false None rep_new
    [RBegin tt; REval 9%Z; RGrad 6%Z; RStep None 1%Z; REval 4%Z; RGrad 2%Z; RStep None 2%Z] tt 3%Z with Ret (_, r) => ro_rows r | _ => [] end = [{| w_iter := 0; w_loss := 9%Z : ZNum; w_change := 0%Z : ZNum; w_norm := Some (6%Z : ZNum); w_step := None; w_time := 1%Z : ZNum |};
               {| w_iter := 1; w_loss := 4%Z : ZNum; w_change := 5%Z : ZNum; w_norm := Some (2%Z : ZNum); w_step := None; w_time := 2%Z : ZNum |}].
Proof. vm_compute. reflexivity. Qed.

Print Assumptions C67_print_loss.
Print Assumptions C67_timer_stop.
Print Assumptions C67_query_front.
Print Assumptions C67_query_rate_refuted.
Print Assumptions C67_report.
Print Assumptions C67_report_extremes.
Print Assumptions C67_report_reused.
Print Assumptions C67_report_safe_refuted.
Print Assumptions C67_reached_refuted.
Print Assumptions C67_percentage_refuted.
Print Assumptions C67_truncated_column.
Print Assumptions C67_truncated_matrix_refuted.
Print Assumptions C67_progress_bar.
Print Assumptions C67_bar.
Print Assumptions C67_bar_totals.
Print Assumptions C67_bar_length_refuted.
Print Assumptions C67_wide_bar_refuted.
Print Assumptions C67_bar_loss_refuted.
