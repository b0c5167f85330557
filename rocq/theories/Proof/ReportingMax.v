(** The largest gradient norm and the first and last step size of a report. *)
From Coq Require Import List Arith Bool Reals Lra Lia.
From Verif.Base Require Import Num Instances.
From Verif.Model Require Import Common Reporting.
From Verif.Spec Require Import ReportingSpec.
From Verif.Proof Require Import ReportingProof.
Import ListNotations.

Section P.
Context {N : Num} {X : Type}.
Notation rev_ := (rev_ (N := N) (X := X)).
Lemma no_gradient_no_norm (evs : list rev_) : rp_hasG (fold_left rep_on evs rep_new) = false -> rp_norms (fold_left rep_on evs rep_new) = [].
Proof.
  induction evs as [|e evs IH] using rev_ind; [reflexivity|]. rewrite fold_left_app. cbn [fold_left]. set (s := fold_left rep_on evs rep_new) in *.
  destruct e; cbn [rep_on rp_hasG rp_norms]; try exact IH; try discriminate.
  - destruct (rp_hasE s); [exact IH|]. unfold rep_push. cbn [rp_hasG rp_norms]. intros H. rewrite H, (IH H). reflexivity.
  - unfold rep_clear. destruct (rp_hasE s); unfold rep_push; cbn [negb rp_hasG rp_norms]; intros H; rewrite H; [exact (IH H)|reflexivity].
Qed.
End P.
Section R.
Variable mx : R.
Lemma fold_max : forall (l : list R) (a : R),
  let m := fold_left (fun m v => if Rltb m v then v else m) l a in (In m (a :: l)) /\ (a <= m)%R /\ forall v, In v l -> (v <= m)%R.
Proof.
  induction l as [|b l IH]; intros a; cbn; [split; [auto|]; split; [lra|tauto]|].
  destruct (Rltb_spec a b) as [H|H].
  - destruct (IH b) as (I & G & A). split; [destruct I as [I|I]; auto|]. split; [cbn in G; lra|]. intros v [<-|J]; [exact G|apply A, J].
  - destruct (IH a) as (I & G & A). split; [destruct I as [I|I]; auto|]. split; [exact G|]. intros v [<-|J]; [cbn in G; lra|apply A, J].
Qed.
Theorem report_extremes (X : Type) trunc percentage separable maxIt (evs : list (rev_ (N := RNum mx) (X := X))) (x : X) now s r u :
  rep_run (N := RNum mx) trunc percentage separable maxIt rep_new evs x now = Ret (s, r) -> ro_sum r = Some u ->
  let norms := flat_map opt_list (map rc_norm (recorded evs)) in
  let steps := flat_map opt_list (map rc_step (recorded evs)) in
  su_steps u = match steps with [] => None | a :: _ => Some (a, last steps a) end /\
  (norms = [] -> su_norm u = None) /\
  (norms <> [] -> exists m : R, su_norm u = Some m /\ In m norms /\ forall v, In v norms -> (v <= m)%R).
Proof.
  intros E U. cbv zeta. destruct (state_ok evs) as (A1 & A2 & A3 & A4 & A5 & A6 & A7 & A8 & A9 & A10 & A11).
  unfold rep_run, rep_end in E. destruct (iteration_step _ _ _); [|discriminate]. destruct (rows_loop _ _ _ _); try discriminate.
  injection E as _ <-. cbn [ro_sum] in U. destruct (_ =? 0); [discriminate|]. injection U as <-. cbn [su_steps su_norm].
  rewrite A11, <- A10. split; [reflexivity|]. split.
  - intros ->. destruct (rp_hasG _); reflexivity.
  - intros NE. destruct (rp_hasG (fold_left rep_on evs rep_new)) eqn:G; [|exfalso; apply NE, no_gradient_no_norm, G].
    destruct (rp_norms _) as [|b0 l0]; [congruence|]. cbn [max_element]. destruct (fold_max l0 b0) as (I & B & C).
    eexists. split; [reflexivity|]. split; [exact I|]. intros v [<-|J]; [exact B|apply C, J].
Qed.
End R.
