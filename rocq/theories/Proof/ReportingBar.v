(** ProgressBar over the reals, QueryFront, the reuse of a Report and TruncatePrint. *)
From Coq Require Import List Arith Bool ZArith Reals Lra Lia.
From Verif.Base Require Import Num Instances.
From Verif.Model Require Import Common Callbacks Reporting.
From Verif.Spec Require Import LpSpec ReportingSpec.
Import ListNotations.

Section B.
Variable mx : R.
Notation RN := (RNum mx).
Variable trunc : R -> option nat.
Hypothesis HT : trunc_ok trunc.
Local Open Scope R_scope.

Lemma nofnat_R n : nofnat (N := RN) n = INR n.
Proof. unfold nofnat. cbn. symmetry. apply INR_IZR_INZ. Qed.
Lemma floor_div a b : (0 < b)%nat -> INR (a / b) <= INR a / INR b < INR (a / b) + 1.
Proof.
  intros H. pose proof (Nat.div_mod a b ltac:(lia)) as D. pose proof (Nat.mod_upper_bound a b ltac:(lia)) as M.
  assert (P : 0 < INR b) by (apply lt_0_INR; exact H).
  assert (E : INR a = INR b * INR (a / b) + INR (a mod b)) by (rewrite <- mult_INR, <- plus_INR, <- D; reflexivity).
  assert (M1 : INR (a mod b) < INR b) by (apply lt_INR; exact M). pose proof (pos_INR (a mod b)) as M0.
  split; (apply Rmult_le_reg_r with (INR b) || apply Rmult_lt_reg_r with (INR b)); try exact P;
    unfold Rdiv; rewrite ?Rmult_plus_distr_r, Rmult_assoc, Rinv_l by lra; nra.
Qed.
Lemma percent_R k size : (0 < size)%nat -> percent (N := RN) trunc k size = Some (100 * k / size)%nat.
Proof.
  intros H. unfold percent. rewrite !nofnat_R. apply HT. cbn [nmul ndiv RNum].
  replace (INR k / INR size * INR 100) with (INR (100 * k) / INR size).
  - apply floor_div. exact H.
  - rewrite mult_INR. field. apply not_0_INR. lia.
Qed.

Definition mark_at (progress i : nat) : mark := if (i <? progress)%nat then Done else if (i =? progress)%nat then Here else Todo.
(** the marks are for i, i + s, i + 2 s, ... below 100 *)
Lemma bar_ok w progress : (1 <= w <= 100)%nat -> forall fuel i, (100 <= fuel + i)%nat ->
  let s := (100 / w)%nat in
  exists l, bar_loop (N := RN) trunc fuel (nofnat (N := RN) 100 / nofnat w)%num i progress = Ret l /\
    l = map (fun q => mark_at progress (i + q * s)) (seq 0 (length l)) /\
    forall q, (q < length l)%nat <-> (i + q * s < 100)%nat.
Proof.
  intros Hw fuel. assert (S1 : (1 <= 100 / w)%nat) by (apply Nat.div_le_lower_bound; lia).
  induction fuel as [|fuel IH]; intros i Hf s.
  { cbn [bar_loop]. replace (i <? 100)%nat with false by (symmetry; apply Nat.ltb_ge; lia). exists []. split; [reflexivity|]. split; [reflexivity|]. cbn [length]. intros q. split; lia. }
  cbn [bar_loop]. destruct (Nat.ltb_spec i 100) as [L|L].
  2: { exists []. split; [reflexivity|]. split; [reflexivity|]. cbn [length]. intros q. split; lia. }
  assert (ET : trunc (nofnat (N := RN) i + nofnat (N := RN) 100 / nofnat w)%num = Some (i + s)%nat).
  { apply HT. rewrite !nofnat_R. cbn [nadd ndiv RNum]. rewrite plus_INR. pose proof (floor_div 100 w ltac:(lia)) as [F1 F2]. fold s in F1, F2. lra. }
  rewrite ET. destruct (IH (i + s)%nat ltac:(unfold s; lia)) as (l & E & EL & Q). rewrite E. eexists. split; [reflexivity|]. split.
  - cbn [length seq map]. f_equal; [unfold mark_at; rewrite Nat.add_0_r; reflexivity|]. rewrite EL at 1. rewrite <- seq_shift, map_map. apply map_ext. intros q. f_equal. cbn. fold s. lia.
  - intros [|q]; cbn [length]; [split; lia|]. specialize (Q q). fold s in Q. cbn [mult]. rewrite <- Nat.add_assoc in Q. split; intros H; [apply -> Nat.succ_lt_mono in Q || idtac|]; lia.
Qed.
(** a bar of more than 100 characters is never finished *)
Lemma bar_hangs w progress : (100 < w)%nat -> forall fuel, bar_loop (N := RN) trunc fuel (nofnat (N := RN) 100 / nofnat w)%num 0 progress = More.
Proof.
  intros Hw. induction fuel as [|fuel IH]; [reflexivity|]. cbn [bar_loop Nat.ltb Nat.leb].
  assert (ET : trunc (nofnat (N := RN) 0 + nofnat (N := RN) 100 / nofnat w)%num = Some 0%nat).
  { apply HT. rewrite !nofnat_R. cbn [nadd ndiv RNum]. pose proof (floor_div 100 w ltac:(lia)) as F. rewrite (Nat.div_small 100 w) in F by lia. change (INR 0) with 0 in *. lra. }
  rewrite ET, IH. reflexivity.
Qed.

(** the bar for a given percentage *)
Definition bar_of (w progress : nat) : list mark :=
  match bar_loop (N := RN) trunc 100 (nofnat (N := RN) 100 / nofnat w)%num 0 progress with Ret l => l | _ => [] end.
Lemma bar_of_ok w p : (1 <= w <= 100)%nat -> bar_loop (N := RN) trunc 100 (nofnat (N := RN) 100 / nofnat w)%num 0 p = Ret (bar_of w p).
Proof. intros H. unfold bar_of. destruct (bar_ok w p H 100 0 ltac:(lia)) as (l & E & _). rewrite E. reflexivity. Qed.

Section E.
Variables (w batch epoch epochs size : nat).
Hypothesis Hw : (1 <= w <= 100)%nat.
Hypothesis Hsize : (0 < size)%nat.
Notation pbar := (pbar (N := RN)).
(** the line of step k when the losses of the epoch so far are vs *)
Definition step_line (k : nat) (vs : list R) : line (N := RN) :=
  StepLine (N := RN) k size (bar_of w (100 * k / size)) (100 * k / size) (sumR (map (fun v => v / INR batch) vs) / INR (S k)).
Notation total vs := (sumR (map (fun v => v / INR batch) vs)).
Lemma total_snoc vs v : total (vs ++ [v]) = total vs + v / INR batch.
Proof. induction vs as [|a vs IH]; cbn; [lra|]. rewrite IH. lra. Qed.
Lemma step_ok (s : pbar) k vs (v : R) : pb_width s = (nofnat (N := RN) 100 / nofnat w)%num -> pb_size s = size -> pb_step s = k ->
  pb_obj s = total vs ->
  exists s', pbar_step (N := RN) trunc 100 (pbar_evaluate (N := RN) batch v s) =
      Ret (s', (if pb_new s then [Heading (pb_epoch s) (pb_epochs s)] else []) ++ [step_line k (vs ++ [v])]) /\
    pb_width s' = pb_width s /\ pb_size s' = size /\ pb_step s' = S k /\ pb_new s' = false /\
    pb_obj s' = total (vs ++ [v]).
Proof.
  intros E1 E2 E3 E4. unfold pbar_step, pbar_evaluate. cbn [pb_width pb_obj pb_epochs pb_size pb_step pb_new pb_epoch].
  rewrite E2, E3, percent_R by exact Hsize. rewrite E1, bar_of_ok by exact Hw. unfold step_line. rewrite total_snoc.
  assert (EO : nadd (n := RN) (pb_obj s) (ndiv (n := RN) v (nofnat batch)) = total vs + v / INR batch) by (rewrite nofnat_R, E4; reflexivity).
  change (T (RNum mx)) with R in *. rewrite EO. rewrite (nofnat_R (S k)).
  eexists. split; [reflexivity|]. cbn [pb_width pb_obj pb_epochs pb_size pb_step pb_new pb_epoch]. repeat split; reflexivity.
Qed.
Lemma steps_ok : forall vs2 vs1 (s : pbar), pb_width s = (nofnat (N := RN) 100 / nofnat w)%num -> pb_size s = size -> pb_step s = S (length vs1) ->
  pb_obj s = total vs1 ->
  exists s', pbar_steps (N := RN) trunc 100 batch vs2 s =
    Ret (s', (match vs2 with [] => [] | _ => if pb_new s then [Heading (pb_epoch s) (pb_epochs s)] else [] end) ++
             map (fun k => step_line (length vs1 + k) (vs1 ++ firstn k vs2)) (seq 1 (length vs2))) /\
    pb_width s' = pb_width s /\ pb_size s' = size /\ pb_step s' = S (length vs1 + length vs2).
Proof.
  induction vs2 as [|v vs2 IH]; intros vs1 s E1 E2 E3 E4.
  - exists s. cbn. rewrite Nat.add_0_r. repeat split; assumption.
  - cbn [pbar_steps]. destruct (step_ok s (S (length vs1)) vs1 v E1 E2 E3 E4) as (s1 & S1 & S2 & S3 & S4 & S5 & S6). rewrite S1.
    destruct (IH (vs1 ++ [v]) s1) as (s2 & T1 & T2 & T3 & T4); [congruence|exact S3|rewrite app_length; cbn [length]; rewrite S4; f_equal; lia|exact S6|].
    rewrite T1, S5. exists s2. split.
    + f_equal. f_equal. rewrite <- app_assoc. f_equal. cbn [app length seq map firstn]. rewrite app_length. cbn [length]. f_equal; [f_equal; lia|].
      assert (H0 : (match vs2 with [] => [] | _ :: _ => [] end : list (line (N := RN))) = []) by (destruct vs2; reflexivity). change (T (RNum mx)) with R in *.
      match goal with |- ?a ++ ?b = ?c => replace a with (@nil (line (N := RN))) by (destruct vs2; reflexivity) end. cbn [app].
      rewrite <- (seq_shift _ 1), map_map. apply map_ext. intros k. cbn [firstn]. rewrite <- app_assoc. cbn [app]. f_equal. lia.
    + split; [congruence|]. split; [exact T3|]. rewrite T4, app_length. cbn [length]. f_equal. lia.
Qed.
Lemma epoch_ok vs (o : R) (s : pbar) : pb_width s = (nofnat (N := RN) 100 / nofnat w)%num -> pb_size s = size -> pb_epochs s = epochs ->
  pbar_epoch_lines (N := RN) trunc 100 batch epoch vs o s =
  Ret ((match vs with [] => [] | _ => [Heading epoch epochs] end) ++
       map (fun k => step_line k (firstn k vs)) (seq 1 (length vs)) ++
       [EpochLine (N := RN) (length vs) size (bar_of w (100 * length vs / size)) (100 * length vs / size) o]).
Proof.
  intros E1 E2 E3. unfold pbar_epoch_lines.
  destruct (steps_ok vs [] (pbar_begin_epoch (N := RN) epoch s) E1 E2 eq_refl eq_refl) as (s1 & T1 & T2 & T3 & T4). rewrite T1.
  unfold pbar_end_epoch. rewrite T4, T3, T2. cbn [length plus Nat.sub]. rewrite Nat.sub_0_r, percent_R by exact Hsize.
  change (pb_width (pbar_begin_epoch (N := RN) epoch s)) with (pb_width s). rewrite E1, bar_of_ok by exact Hw. rewrite <- app_assoc.
  cbn [pbar_begin_epoch pb_new pb_epoch pb_epochs]. rewrite E3. reflexivity.
Qed.
End E.

(** ** Report: the share of iterations shown *)
Lemma step_1000 : iteration_step (N := RN) trunc (1 / 10) 1000 = Some 100%nat.
Proof.
  unfold iteration_step. rewrite !nofnat_R.
  match goal with |- context [trunc ?x] => assert (E : trunc x = Some 100%nat) end.
  { apply HT. cbn [nmul ndiv RNum]. rewrite !INR_IZR_INZ. cbn -[IZR]. lra. }
  rewrite E. reflexivity.
Qed.
End B.

(** ** QueryFront *)
Section Q.
Context {V : Type} (dv : V).
Lemma flat_map_map {A B C} (f : B -> list C) (g : A -> B) l : flat_map f (map g l) = flat_map (fun x => f (g x)) l.
Proof. induction l as [|a l IH]; [reflexivity|]. cbn. rewrite IH. reflexivity. Qed.
Lemma query_run_app rate : (0 < rate)%nat -> forall gens c store,
  query_run dv rate c gens store =
  Some ((c + length gens)%nat, store ++ flat_map (fun k => if ((c + k) mod rate =? 0)%nat then [map (fun i => nth i (fst (nth k gens ([], []))) dv) (snd (nth k gens ([], [])))] else []) (seq 0 (length gens))).
Proof.
  intros Hr. induction gens as [|[objs front] gens IH]; intros c store; cbn [query_run length seq flat_map].
  - rewrite Nat.add_0_r, app_nil_r. reflexivity.
  - unfold query_front. replace (rate =? 0)%nat with false by (symmetry; apply Nat.eqb_neq; lia). rewrite IH. f_equal. f_equal; [lia|].
    rewrite Nat.add_0_r. cbn [nth fst snd]. rewrite <- seq_shift, flat_map_map.
    match goal with |- context [flat_map ?f (seq 0 (length gens))] => set (F := f) end.
    match goal with |- _ = _ ++ _ ++ flat_map ?g _ => assert (EF : forall k, F k = g k) by (intros k; unfold F; replace (c + S k)%nat with (S c + k)%nat by lia; reflexivity) end.
    rewrite <- (flat_map_ext _ _ EF). destruct (c mod rate =? 0)%nat; cbn [app]; [rewrite <- app_assoc|]; reflexivity.
Qed.
End Q.

(** ** Reuse of a Report, TruncatePrint *)
Section U.
Context {N : Num} {X : Type}.
Variable trunc : N -> option nat.
(** a second run with the same object reports on both *)
Lemma report_reused p sep m (evs1 evs2 : list (rev_ (N := N) (X := X))) x1 t1 s1 r1 x2 t2 :
  rep_run trunc p sep m rep_new evs1 x1 t1 = Ret (s1, r1) ->
  (rp_objs (fold_left rep_on evs1 (rep_new (N := N) (X := X))) <> [] \/ rp_ecalls (fold_left rep_on evs1 (rep_new (N := N) (X := X))) = 0) ->
  rep_run trunc p sep m s1 evs2 x2 t2 = rep_run trunc p sep m rep_new (evs1 ++ evs2) x2 t2.
Proof.
  intros E H. unfold rep_run in *. rewrite fold_left_app. set (s := fold_left rep_on evs1 rep_new) in *.
  enough (s1 = s) as -> by reflexivity. unfold rep_end in E. destruct (iteration_step _ _ _); [|discriminate]. destruct (rows_loop _ _ _ _); try discriminate.
  injection E as <- _.
  assert (F : negb (0 <? length (rp_objs s)) && (0 <? rp_ecalls s) = false).
  { destruct H as [H|H]; [|rewrite H; apply andb_false_r]. destruct (rp_objs s); [congruence|reflexivity]. }
  rewrite F. destruct s; reflexivity.
Qed.

Lemma Reporting_last {A} (l : list A) d : nth (length l - 1) l d = last l d.
Proof. induction l as [|a [|b l] IH]; try reflexivity. cbn [length last] in *. rewrite <- IH. cbn. rewrite Nat.sub_0_r. reflexivity. Qed.
Notation elem := (Elem (N := N)). Notation lastelem := (LastElem (N := N)).
(** a column vector *)
Lemma rows_first (data : list N) nrows size : length data = nrows -> size < nrows -> forall left r, r + left = nrows -> r <= size ->
  trunc_rows data nrows (S size) 0 r left (Some r) =
  Ret (map elem (firstn (size - r) (skipn r data)) ++ [lastelem (last data n0)], Some (nrows - 1)).
Proof.
  intros LD HS. induction left as [|left IH]; intros r Hr Hs; [lia|]. cbn [trunc_rows]. destruct (Nat.ltb_spec r size) as [L|L].
  - destruct (nth_error data r) as [v|] eqn:E; [|apply nth_error_None in E; lia]. rewrite IH by lia.
    assert (SK : skipn r data = v :: skipn (S r) data).
    { clear -E. revert data E. induction r as [|r IH]; intros [|a l] E; try discriminate; [injection E as ->; reflexivity|]. cbn [skipn]. apply IH. exact E. }
    rewrite SK. replace (size - r) with (S (size - S r)) by lia. reflexivity.
  - replace (size - r) with 0 by lia. cbn [firstn map app mult]. rewrite Nat.add_0_r.
    destruct (nth_error data (nrows - 1)) as [v|] eqn:E; [|apply nth_error_None in E; lia].
    rewrite <- (Reporting_last data n0), LD. rewrite (nth_error_nth _ _ n0 E). reflexivity.
Qed.
Lemma column_ok (data : list N) nrows size : length data = nrows -> 2 <= size -> size < nrows ->
  truncate_print data nrows 1 size = Ret (map elem (firstn (size - 1) data) ++ [lastelem (last data n0)]).
Proof.
  intros LD H2 HS. destruct size as [|q]; [lia|]. unfold truncate_print. cbn [trunc_cols]. destruct (Nat.leb_spec q 0) as [L|L]; [lia|].
  rewrite (rows_first data nrows q LD ltac:(lia) nrows 0 ltac:(lia) ltac:(lia)). cbn [skipn]. rewrite !Nat.sub_0_r. cbn [Nat.sub]. rewrite Nat.sub_0_r, app_nil_r. reflexivity.
Qed.
End U.
