(** Model of the callbacks that report on a run or watch the clock: PrintLoss, TimerStop,
    ProgressBar, Report and QueryFront.
    Files: /repo/include/ensmallen_bits/callbacks/print_loss.hpp, timer_stop.hpp, progress_bar.hpp,
      report.hpp, query_front.hpp.

    What is printed is a list of records, one for each line; the text around the numbers, the
    precision, and the elapsed times ProgressBar shows are left out.  A clock reading is part of the event
    at which the clock is read. *)
From Coq Require Import List Arith Bool ZArith.
From Verif.Base Require Import Num.
From Verif.Model Require Import Common Callbacks.
Import ListNotations.

Section Reporting.
  Context {N : Num} {X : Type}.
  (* conversion of a double to size_t; None: the value does not fit, undefined behaviour *)
  Variable trunc : N -> option nat.
  Local Open Scope num_scope.

  (** ** PrintLoss: print_loss.hpp 46-54; EndEpoch prints the objective and returns false *)
  Definition print_loss (printed : list N) (objective : N) : list N * bool := (printed ++ [objective], false).

  (** ** TimerStop: timer_stop.hpp 44-77; the state is the time at which the timer was started *)
  Definition timer_begin (now : N) : N := now.
  Definition timer_end_epoch (duration start now : N) : bool := nlt duration (now - start).

  (** ** QueryFront: the answers to a whole sequence of generations, each given by its objectives and first front *)
  Fixpoint query_run {V : Type} (dv : V) (rate counter : nat) (gens : list (list V * list nat)) (store : list (list V))
    : option (nat * list (list V)) :=
    match gens with
    | [] => Some (counter, store)
    | (objs, front) :: r =>
        match query_front rate counter objs front store dv with
        | None => None
        | Some (c, st) => query_run dv rate c r st
        end
    end.

  (** ** ProgressBar *)
  Inductive mark := Done | Here | Todo.                             (* '=', '>', '.' *)
  (* progress_bar.hpp 144-158, 212-226: for (size_t i = 0; i < 100; i += width), width a double *)
  Fixpoint bar_loop (fuel : nat) (width : N) (i progress : nat) : outc (list mark) :=
    if (i <? 100)%nat then
      match fuel with
      | O => More
      | S k =>
          match trunc (nofnat i + width) with
          | None => Bad
          | Some i' =>
              match bar_loop k width i' progress with
              | Ret l => Ret ((if (i <? progress)%nat then Done else if (i =? progress)%nat then Here else Todo) :: l)
              | Bad => Bad
              | More => More
              end
          end
      end
    else Ret [].

  Record pbar := { pb_width : N; pb_obj : N; pb_epochs : nat; pb_size : nat; pb_step : nat; pb_new : bool; pb_epoch : nat }.
  Inductive line :=
  | Heading (epoch epochs : nat)                                    (* epochs = 0: no total is shown *)
  | StepLine (step size : nat) (bar : list mark) (progress : nat) (loss : N)
  | EpochLine (step size : nat) (bar : list mark) (progress : nat) (loss : N).
  (* 37-49; 100.0 / widthIn *)
  Definition pbar_new (widthIn : nat) : pbar :=
    {| pb_width := nofnat 100 / nofnat widthIn; pb_obj := n0; pb_epochs := 0; pb_size := 0; pb_step := 1;
       pb_new := false; pb_epoch := 1 |}.
  (* 59-95; integer division by zero is undefined *)
  Definition ceil_div (a b : nat) : nat := a / b + (if a mod b =? 0 then 0 else 1)%nat.
  Definition pbar_begin (numFunctions batch maxIterations : nat) (s : pbar) : outc pbar :=
    if ((numFunctions =? 0) || (batch =? 0))%nat%bool then Bad
    else Ret {| pb_width := pb_width s; pb_obj := pb_obj s; pb_epochs := ceil_div maxIterations numFunctions;
                pb_size := ceil_div numFunctions batch; pb_step := pb_step s; pb_new := pb_new s; pb_epoch := pb_epoch s |}.
  (* 106-124 *)
  Definition pbar_begin_epoch (epoch : nat) (s : pbar) : pbar :=
    {| pb_width := pb_width s; pb_obj := n0; pb_epochs := pb_epochs s; pb_size := pb_size s; pb_step := 1; pb_new := true;
       pb_epoch := epoch |}.
  (* 182-191 *)
  Definition pbar_evaluate (batch : nat) (v : N) (s : pbar) : pbar :=
    {| pb_width := pb_width s; pb_obj := pb_obj s + v / nofnat batch; pb_epochs := pb_epochs s; pb_size := pb_size s;
       pb_step := pb_step s; pb_new := pb_new s; pb_epoch := pb_epoch s |}.
  (* ((double) step / epochSize) * 100 *)
  Definition percent (step size : nat) : option nat := trunc (nofnat step / nofnat size * nofnat 100).
  (* 134-172 *)
  Definition pbar_step (fuel : nat) (s : pbar) : outc (pbar * list line) :=
    let head := if pb_new s then [Heading (pb_epoch s) (pb_epochs s)] else [] in       (* 138-146 *)
    match percent (pb_step s) (pb_size s) with                                         (* 148 *)
    | None => Bad
    | Some p =>
        match bar_loop fuel (pb_width s) 0 p with
        | Ret bar =>
            let step' := S (pb_step s) in                                              (* 149: step++ *)
            Ret ({| pb_width := pb_width s; pb_obj := pb_obj s; pb_epochs := pb_epochs s; pb_size := pb_size s;
                    pb_step := step'; pb_new := false; pb_epoch := pb_epoch s |},
                 head ++ [StepLine (pb_step s) (pb_size s) bar p (pb_obj s / nofnat step')])   (* 164-166 *)
        | Bad => Bad
        | More => More
        end
    end.
  (* 202-234 *)
  Definition pbar_end_epoch (fuel : nat) (objective : N) (s : pbar) : outc (list line) :=
    match percent (pb_step s - 1) (pb_size s) with
    | None => Bad
    | Some p =>
        match bar_loop fuel (pb_width s) 0 p with
        | Ret bar => Ret [EpochLine (pb_step s - 1) (pb_size s) bar p objective]
        | Bad => Bad
        | More => More
        end
    end.
  (* the steps of one epoch: each Evaluate (or EvaluateWithGradient) is followed by StepTaken *)
  Fixpoint pbar_steps (fuel batch : nat) (vs : list N) (s : pbar) : outc (pbar * list line) :=
    match vs with
    | [] => Ret (s, [])
    | v :: r =>
        match pbar_step fuel (pbar_evaluate batch v s) with
        | Ret (s1, l1) => match pbar_steps fuel batch r s1 with Ret (s2, l2) => Ret (s2, l1 ++ l2) | Bad => Bad | More => More end
        | Bad => Bad
        | More => More
        end
    end.
  Definition pbar_epoch_lines (fuel batch epoch : nat) (vs : list N) (objective : N) (s : pbar) : outc (list line) :=
    match pbar_steps fuel batch vs (pbar_begin_epoch epoch s) with
    | Ret (s1, l1) => match pbar_end_epoch fuel objective s1 with Ret l2 => Ret (l1 ++ l2) | Bad => Bad | More => More end
    | Bad => Bad
    | More => More
    end.

  (** ** Report *)
  Inductive rev_ : Type :=
  | RBegin (x : X)
  | RBeginEpoch
  | REval (v : N)                                (* Evaluate and EvaluateWithGradient *)
  | REvalC (v : N)                               (* EvaluateConstraint *)
  | RGrad (norm : N)                             (* Gradient, GradientConstraint: arma::norm of the gradient *)
  | RStep (stepSize : option N) (now : N)        (* StepTaken; optimizer.StepSize() if there is one *)
  | REndEpoch (v : N) (stepSize : option N) (now : N).
  Record rep := {
    rp_x0 : option X; rp_obj : N; rp_norm : N; rp_hasG : bool; rp_hasE : bool;
    rp_gcalls : nat; rp_ecalls : nat; rp_epochs : nat;
    rp_objs : list N; rp_norms : list N; rp_steps : list N; rp_times : list N }.
  (* report.hpp 35-48 *)
  Definition rep_new : rep :=
    {| rp_x0 := None; rp_obj := n0; rp_norm := n0; rp_hasG := false; rp_hasE := false; rp_gcalls := 0; rp_ecalls := 0;
       rp_epochs := 0; rp_objs := []; rp_norms := []; rp_steps := []; rp_times := [] |}.
  (* 280-286, 305-311 with SaveStepSize 553-564 *)
  Definition rep_push (v : N) (ss : option N) (now : N) (s : rep) : rep :=
    {| rp_x0 := rp_x0 s; rp_obj := rp_obj s; rp_norm := rp_norm s; rp_hasG := rp_hasG s; rp_hasE := rp_hasE s;
       rp_gcalls := rp_gcalls s; rp_ecalls := rp_ecalls s; rp_epochs := rp_epochs s;
       rp_objs := rp_objs s ++ [v]; rp_norms := if rp_hasG s then rp_norms s ++ [rp_norm s] else rp_norms s;
       rp_steps := match ss with Some q => rp_steps s ++ [q] | None => rp_steps s end;
       rp_times := rp_times s ++ [now] |}.
  (* 270-278 *)
  Definition rep_clear (s : rep) : rep :=
    if rp_hasE s then s
    else {| rp_x0 := rp_x0 s; rp_obj := rp_obj s; rp_norm := rp_norm s; rp_hasG := rp_hasG s; rp_hasE := true;
            rp_gcalls := rp_gcalls s; rp_ecalls := rp_ecalls s; rp_epochs := rp_epochs s;
            rp_objs := []; rp_norms := []; rp_steps := []; rp_times := [] |}.
  Definition rep_on (s : rep) (e : rev_) : rep :=
    match e with
    | RBegin x =>                                                                      (* 58-64 *)
        {| rp_x0 := Some x; rp_obj := rp_obj s; rp_norm := rp_norm s; rp_hasG := rp_hasG s; rp_hasE := rp_hasE s;
           rp_gcalls := rp_gcalls s; rp_ecalls := rp_ecalls s; rp_epochs := rp_epochs s;
           rp_objs := rp_objs s; rp_norms := rp_norms s; rp_steps := rp_steps s; rp_times := rp_times s |}
    | RBeginEpoch =>                                                                   (* 243-251 *)
        {| rp_x0 := rp_x0 s; rp_obj := rp_obj s; rp_norm := rp_norm s; rp_hasG := rp_hasG s; rp_hasE := rp_hasE s;
           rp_gcalls := rp_gcalls s; rp_ecalls := rp_ecalls s; rp_epochs := S (rp_epochs s);
           rp_objs := rp_objs s; rp_norms := rp_norms s; rp_steps := rp_steps s; rp_times := rp_times s |}
    | REval v =>                                                                       (* 325-333 *)
        {| rp_x0 := rp_x0 s; rp_obj := v; rp_norm := rp_norm s; rp_hasG := rp_hasG s; rp_hasE := rp_hasE s;
           rp_gcalls := rp_gcalls s; rp_ecalls := S (rp_ecalls s); rp_epochs := rp_epochs s;
           rp_objs := rp_objs s; rp_norms := rp_norms s; rp_steps := rp_steps s; rp_times := rp_times s |}
    | REvalC v =>                                                                      (* 345-354 *)
        {| rp_x0 := rp_x0 s; rp_obj := rp_obj s + v; rp_norm := rp_norm s; rp_hasG := rp_hasG s; rp_hasE := rp_hasE s;
           rp_gcalls := rp_gcalls s; rp_ecalls := S (rp_ecalls s); rp_epochs := rp_epochs s;
           rp_objs := rp_objs s; rp_norms := rp_norms s; rp_steps := rp_steps s; rp_times := rp_times s |}
    | RGrad g =>                                                                       (* 365-374, 386-394 *)
        {| rp_x0 := rp_x0 s; rp_obj := rp_obj s; rp_norm := g; rp_hasG := true; rp_hasE := rp_hasE s;
           rp_gcalls := S (rp_gcalls s); rp_ecalls := rp_ecalls s; rp_epochs := rp_epochs s;
           rp_objs := rp_objs s; rp_norms := rp_norms s; rp_steps := rp_steps s; rp_times := rp_times s |}
    | RStep ss now => if rp_hasE s then s else rep_push (rp_obj s) ss now s             (* 299-314 *)
    | REndEpoch v ss now => rep_push v ss now (rep_clear s)                            (* 263-288 *)
    end.

  Record row := { w_iter : nat; w_loss : N; w_change : N; w_norm : option N; w_step : option N; w_time : N }.
  Record summary := {
    su_first : N; su_last : N; su_change : N;
    su_limit : option (nat * bool);            (* maximum iterations; whether they were reached *)
    su_iters : nat; su_epochs : nat;
    su_steps : option (N * N); su_norm : option N; su_ecalls : nat; su_gcalls : option nat; su_time : N }.
  Record report := { ro_x0 : option X; ro_x : X; ro_rows : list row; ro_sum : option summary }.
  (* reading a vector at i: out of range is undefined *)
  Definition opt_at (shown : bool) (l : list N) (i : nat) : outc (option N) :=
    if shown then match nth_error l i with Some v => Ret (Some v) | None => Bad end else Ret None.
  (* 116-131; [k] is iterationStep *)
  Fixpoint rows_loop (fuel k i : nat) (s : rep) : outc (list row) :=
    if (i <? length (rp_objs s))%nat then
      match fuel with
      | O => More
      | S fuel' =>
          match opt_at (rp_hasG s) (rp_norms s) i,
                opt_at (match rp_steps s with [] => false | _ => true end) (rp_steps s) i,
                rows_loop fuel' k (i + k) s with
          | Ret g, Ret q, Ret l =>
              let at_ j := nth j (rp_objs s) n0 in
              Ret ({| w_iter := i; w_loss := at_ i;
                      w_change := if (0 <? i)%nat then at_ (i - k)%nat - at_ i else n0;
                      w_norm := g; w_step := q; w_time := nth i (rp_times s) n0 |} :: l)
          | Bad, _, _ | _, Bad, _ | _, _, Bad => Bad
          | _, _, _ => More
          end
      end
    else Ret [].
  Definition ends (l : list N) : option (N * N) := match l with [] => None | a :: _ => Some (a, last l a) end.
  (* std::max_element *)
  Definition max_element (l : list N) : option N :=
    match l with [] => None | a :: r => Some (fold_left (fun m v => if nlt m v then v else m) r a) end.
  (* 112-114 *)
  Definition iteration_step (percentage : N) (n : nat) : option nat :=
    match trunc (nofnat n / (percentage * nofnat 100)) with
    | None => None
    | Some k => Some (if (k <=? 0)%nat then 1%nat else k)
    end.
  (* 74-231.  [separable]: the function has NumFunctions(); [maxIt]: the optimizer's MaxIterations(), if it
     has one *)
  Definition rep_end (percentage : N) (separable : bool) (maxIt : option nat) (x : X) (now : N) (s : rep)
    : outc (rep * report) :=
    match iteration_step percentage (length (rp_objs s)) with
    | None => Bad
    | Some k =>
        match rows_loop (length (rp_objs s)) k 0 s with
        | Bad => Bad
        | More => More
        | Ret rows =>
            let took := (0 <? length (rp_objs s))%nat in                               (* 155 *)
            let fill := negb took && (0 <? rp_ecalls s)%nat in                         (* 156 *)
            let objs := if fill then [rp_obj s] else rp_objs s in
            let times := if fill then [now] else rp_times s in
            let s' := {| rp_x0 := rp_x0 s; rp_obj := rp_obj s; rp_norm := rp_norm s; rp_hasG := rp_hasG s; rp_hasE := rp_hasE s;
                         rp_gcalls := rp_gcalls s; rp_ecalls := rp_ecalls s; rp_epochs := rp_epochs s;
                         rp_objs := objs; rp_norms := rp_norms s; rp_steps := rp_steps s; rp_times := times |} in
            Ret (s',
              {| ro_x0 := rp_x0 s; ro_x := x; ro_rows := rows;
                 ro_sum :=
                   if (rp_ecalls s =? 0)%nat then None                                 (* 161-171 *)
                   else
                     let first := nth 0 objs n0 in
                     let lst := nth (length objs - 1) objs n0 in
                     Some {| su_first := first; su_last := lst; su_change := first - lst;
                             su_limit := if separable then                             (* 186 *)
                                           match maxIt with Some m => Some (m, (m =? length objs)%nat) | None => None end
                                         else None;
                             su_iters := if took then length objs else 0;              (* 190-193 *)
                             su_epochs := rp_epochs s;
                             su_steps := ends (rp_steps s);
                             su_norm := if rp_hasG s then max_element (rp_norms s) else None;
                             su_ecalls := rp_ecalls s;
                             su_gcalls := if rp_hasG s then Some (rp_gcalls s) else None;
                             su_time := nth (length times - 1) times n0 |} |})
        end
    end.
  (* a whole run; the state is that of the callback object before it *)
  Definition rep_run (percentage : N) (separable : bool) (maxIt : option nat) (s : rep) (evs : list rev_) (x : X) (now : N)
    : outc (rep * report) :=
    rep_end percentage separable maxIt x now (fold_left rep_on evs s).

  (** ** Report::TruncatePrint, 512-551: [data] is the matrix, column by column *)
  Inductive token := Elem (v : N) | Dots | LastElem (v : N).      (* LastElem: " ... " and the element *)
  (* 528-546; [n] is None when it has wrapped around below zero *)
  Fixpoint trunc_rows (data : list N) (nrows size c r left : nat) (n : option nat) : outc (list token * option nat) :=
    match left with
    | O => Ret ([], n)
    | S left' =>
        if match size with O => true | S q => (r <? q)%nat end then                     (* r < size - 1 *)
          match n with
          | None => Bad
          | Some i =>
              match nth_error data i with
              | None => Bad
              | Some v =>
                  match trunc_rows data nrows size c (S r) left' (Some (S i)) with
                  | Ret (l, n') => Ret (Elem v :: l, n')
                  | Bad => Bad
                  | More => More
                  end
              end
          end
        else
          let i := (S c * nrows - 1)%nat in
          match nth_error data i with Some v => Ret ([LastElem v], Some i) | None => Bad end
    end.
  (* 518-550 *)
  Fixpoint trunc_cols (data : list N) (nrows ncols size c left : nat) (n : option nat) : outc (list token) :=
    match left with
    | O => Ret []
    | S left' =>
        let skip := match size with O => false | S q => (q <=? c)%nat end in            (* c >= size - 1 *)
        let n1 := if skip then
                    if ((ncols <=? 2) || (nrows =? 0))%nat%bool then None else Some ((ncols - 2) * nrows - 1)%nat
                  else n in
        match trunc_rows data nrows size c 0 nrows n1 with
        | Ret (l, n2) =>
            let l' := if skip then Dots :: l else l in
            if skip then Ret l'
            else match trunc_cols data nrows ncols size (S c) left' n2 with
                 | Ret r => Ret (l' ++ r)
                 | Bad => Bad
                 | More => More
                 end
        | Bad => Bad
        | More => More
        end
    end.
  Definition truncate_print (data : list N) (nrows ncols size : nat) : outc (list token) :=
    trunc_cols data nrows ncols size 0 ncols (Some 0%nat).
End Reporting.
