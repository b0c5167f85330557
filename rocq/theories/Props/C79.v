(** C79: coordinate descent converges. *)
From Coq Require Import List Arith Bool Reals Lra Lia.
From Verif.Base Require Import Num Vec Instances.
From Verif.Model Require Import Common CD.
From Verif.Spec Require Import CommonSpec CDSpec Gradient ConvergeSpec CoinSpec CDRateSpec.
From Verif.Proof Require Import CDRate.
Import ListNotations.
Local Open Scope R_scope.

(** Descent: in every run, with any descent policy that picks existing features and callbacks
    that do not change gradients, the objective falls by at least alpha (1 - alpha L / 2) times
    the squared partial gradients stepped along.  (The last gradient has no step if a callback
    stops the run there.) *)
Theorem C79_descends :
  forall (mx : R) d m L alpha f pg maxIterations tol upd policy (cb : CB (RNum mx) matR matR) fuel x r,
  column_smooth d m L f pg -> 0 < alpha -> alpha * L <= 2 -> shaped d m x ->
  (forall h x v g, cs_grad cb h x v g = g) -> (forall i y j, policy i y = Some j -> (j < d)%nat) ->
  cd (N := RNum mx) alpha maxIterations tol upd f pg policy cb fuel x = Ret r ->
  alpha * (1 - alpha * L / 2) *
    sumR (map (fun e => sqn (part pg (p_at (N := RNum mx) e) (p_feat (N := RNum mx) e)))
              (firstn (length (steps_to (o_tr r))) (grads (o_tr r))))
    <= f x - f (o_x r).
Proof. exact run_descends. Qed.
Print Assumptions C79_descends.

(** Random features: the objective returned after n iterations, averaged over the d^n equally
    likely sequences of features, approaches the best value at a linear rate. *)
Theorem C79_random_rate :
  forall (mx : R) d m L alpha f pg mu best tol upd (cb : CB (RNum mx) matR matR) x,
  column_smooth d m L f pg -> 0 < alpha -> alpha * L <= 2 -> 0 < mu -> (0 < d)%nat -> gradient_dominated d m mu f pg best ->
  (forall z, shaped d m z -> f best <= f z) -> shaped d m x -> upd <> 0%nat -> tol <= 0 ->
  (forall tr, cs_stop cb tr = false) -> (forall h x v g, cs_grad cb h x v g = g) -> forall n (v : list nat -> R),
  (forall js, v js = match cd (N := RNum mx) alpha (S n) tol upd f pg (fun i _ => random_descent d (nth (i - 1) js 0%nat)) cb n x with
       Ret r => o_val r | _ => 0 end) ->
  mean (choices n d) v - f best <= (1 - 2 * mu * (alpha * (1 - alpha * L / 2)) / INR d) ^ n * (f x - f best).
Proof. exact run_random. Qed.
Print Assumptions C79_random_rate.

(** Cyclic features: p sweeps over the d features shrink the gap by a fixed factor each. *)
Theorem C79_cyclic_rate :
  forall (mx : R) d m L alpha f pg mu best M tol upd (cb : CB (RNum mx) matR matR) x,
  column_smooth d m L f pg -> 0 < alpha -> alpha * L <= 2 -> (0 < d)%nat -> gradient_dominated d m mu f pg best ->
  (forall z, shaped d m z -> f best <= f z) -> parts_lipschitz d m M pg -> shaped d m x -> upd <> 0%nat -> tol <= 0 ->
  (forall tr, cs_stop cb tr = false) -> (forall h x v g, cs_grad cb h x v g = g) -> forall p,
  exists r, cd (N := RNum mx) alpha (S (p * d)) tol upd f pg (fun i _ => cyclic_descent d i) cb (p * d) x = Ret r /\
    o_val r = f (o_x r) /\
    f (o_x r) - f best <= (1 - mu * (alpha * (1 - alpha * L / 2)) / (1 + INR d * INR d * (M * M * (alpha * alpha)))) ^ p * (f x - f best).
Proof. exact run_cyclic. Qed.
Print Assumptions C79_cyclic_rate.

(** [choices] lists all sequences of n features. *)
Theorem C79_choices : forall d n, (0 < d)%nat ->
  (forall js, In js (choices n d) <-> length js = n /\ forall j, In j js -> (j < d)%nat) /\ length (choices n d) = (d ^ n)%nat.
Proof.
  intros d n Hd. split; [apply choices_in; exact Hd|]. induction n as [|n IH]; [reflexivity|]. cbn [choices Nat.pow].
  rewrite <- IH. rewrite <- (seq_length d 0) at 2. induction (seq 0 d) as [|j l IHl]; [reflexivity|].
  cbn [flat_map length]. rewrite app_length, map_length, IHl. lia.
Qed.
Print Assumptions C79_choices.

(** With d = 2 features, f(a, b) = a^2 + ab + b^2 satisfies all the hypotheses. *)
Definition f79 (x : matR) : R := match x with [[a]; [b]] => a * a + a * b + b * b | _ => 0 end.
Definition pg79 (x : matR) (j : nat) : matR :=
  match x with [[a]; [b]] => if j =? 0 then [[2 * a + b]; [0]] else [[0]; [a + 2 * b]] | _ => [] end.
Lemma shaped79 x : shaped 2 1 x -> exists a b, x = [[a]; [b]].
Proof.
  intros [A B]. destruct x as [|u [|v [|]]]; try discriminate.
  pose proof (B u (or_introl eq_refl)) as Hu. pose proof (B v (or_intror (or_introl eq_refl))) as Hv.
  destruct u as [|a [|]]; try discriminate. destruct v as [|b [|]]; try discriminate. eauto.
Qed.
Example C79_ex :
  column_smooth 2 1 2 f79 pg79 /\ gradient_dominated 2 1 1 f79 pg79 [[0]; [0]] /\
  (forall z, shaped 2 1 z -> f79 [[0]; [0]] <= f79 z) /\ parts_lipschitz 2 1 3 pg79 /\
  forall cb : CB (RNum 1000) matR matR, (forall tr, cs_stop cb tr = false) -> (forall h x v g, cs_grad cb h x v g = g) ->
    exists r, cd (N := RNum 1000) (1 / 2) 7 0 1 f79 pg79 (fun i _ => cyclic_descent 2 i) cb 6 [[3]; [1]] = Ret r /\
      f79 (o_x r) <= (39 / 40) ^ 3 * 13.
Proof.
  assert (column_smooth 2 1 2 f79 pg79) as CS.
  { intros x j Sx Hj. destruct (shaped79 x Sx) as (a & b & ->). destruct j as [|[|j]]; [| |lia]; unfold part; cbn.
    - split; [lia|]. split; [reflexivity|]. intros h y Hh (A & B & C). destruct h as [|h [|]]; try discriminate. cbn in A, C.
      destruct y as [|u [|v [|]]]; try discriminate. injection C as ->. specialize (B 1%nat ltac:(lia)). injection B as ->.
      unfold sqn. cbn. nra.
    - split; [lia|]. split; [reflexivity|]. intros h y Hh (A & B & C). destruct h as [|h [|]]; try discriminate. cbn in A, C.
      destruct y as [|u [|v [|]]]; try discriminate. injection C as ->. specialize (B 0%nat ltac:(lia)). injection B as ->.
      unfold sqn. cbn. nra. }
  assert (gradient_dominated 2 1 1 f79 pg79 [[0]; [0]]) as GD.
  { intros x Sx. destruct (shaped79 x Sx) as (a & b & ->). unfold grad_sq, part, sqn. cbn. pose proof (Rle_0_sqr (a + b)) as P. unfold Rsqr in P. lra. }
  assert (forall z, shaped 2 1 z -> f79 [[0]; [0]] <= f79 z) as LB.
  { intros x Sx. destruct (shaped79 x Sx) as (a & b & ->). cbn. pose proof (Rle_0_sqr (a + b)) as P. pose proof (Rle_0_sqr a) as P1. pose proof (Rle_0_sqr b) as P2. unfold Rsqr in *. lra. }
  assert (parts_lipschitz 2 1 3 pg79) as PL.
  { intros x y j Sx Sy Hj. destruct (shaped79 x Sx) as (a & b & ->). destruct (shaped79 y Sy) as (u & v & ->).
    unfold msq, part. destruct j as [|[|j]]; [| |lia]; cbn;
      pose proof (Rle_0_sqr (2 * (b - v) - (a - u))) as P; pose proof (Rle_0_sqr (2 * (a - u) - (b - v))) as Q;
      pose proof (Rle_0_sqr (a - u)) as P1; pose proof (Rle_0_sqr (b - v)) as P2; unfold Rsqr in *; lra. }
  split; [exact CS|]. split; [exact GD|]. split; [exact LB|]. split; [exact PL|]. intros cb Hs Hg.
  destruct (C79_cyclic_rate 1000 2 1 2 (1 / 2) f79 pg79 1 [[0]; [0]] 3 0 1 cb [[3]; [1]] CS ltac:(lra) ltac:(lra) ltac:(lia) GD LB PL) with (p := 3%nat) as (r & E & _ & B);
    [split; [reflexivity|intros c [<-|[<-|[]]]; reflexivity]|lia|lra|exact Hs|exact Hg|].
  exists r. split; [exact E|]. eapply Rle_trans; [|eapply Rle_trans; [exact (Rplus_le_compat_r (f79 [[0]; [0]]) _ _ B)|]]; [apply Req_le; ring|].
  cbn [INR]. match goal with |- (1 - ?z) ^ 3 * _ + _ <= _ => replace z with (1 / 40) by field end. cbn. lra.
Qed.

(** Nothing of the kind holds for the greedy policy: where the partial derivatives are negative
    it keeps picking feature 0, so for f(a, b) = a^2 + b^2, started at (0, -1), every run with it
    stays where it is, although -- as [C79_cyclic_rate] says -- sweeps would approach 0. *)
Definition f79g (x : matR) : R := match x with [[a]; [b]] => a * a + b * b | _ => 0 end.
Definition pg79g (x : matR) (j : nat) : matR :=
  match x with [[a]; [b]] => if j =? 0 then [[2 * a]; [0]] else [[0]; [2 * b]] | _ => [] end.
Theorem C79_greedy_rate_refuted :
  forall (mx alpha tol : R) maxIterations upd (cb : CB (RNum mx) matR matR) fuel r,
  (forall h x v g, cs_grad cb h x v g = g) ->
  cd (N := RNum mx) alpha maxIterations tol upd f79g pg79g (fun _ x => Some (greedy_descent (N := RNum mx) pg79g 2 x)) cb fuel [[0]; [-1]] = Ret r ->
  o_x r = [[0]; [-1]] /\ o_val r = 1.
Proof.
  intros mx alpha tol maxIterations upd cb fuel r Hg.
  assert (greedy_descent (N := RNum mx) pg79g 2 [[0]; [-1]] = 0%nat) as G.
  { unfold greedy_descent, greedy_scan. cbn. unfold Rltb. destruct (Rlt_dec _ _) as [H|H]; [exfalso; lra|]. destruct (Rlt_dec _ _) as [H2|H2]; [exfalso; lra|reflexivity]. }
  assert (sub_col (N := RNum mx) 0 (vscale (N := RNum mx) alpha (nth 0 (pg79g [[0]; [-1]] 0) [])) [[0]; [-1]] = [[0]; [-1]]) as ST.
  { cbn. apply (f_equal (fun z => [[z]; [-1]])). ring. }
  assert (f79g [[0]; [-1]] = 1) as V by (cbn; ring).
  intros H.
  destruct (cd_stuck (RNum mx) alpha maxIterations tol upd f79g pg79g (fun _ x => Some (greedy_descent (N := RNum mx) pg79g 2 x)) cb [[0]; [-1]] 0%nat Hg
    (fun _ => f_equal Some G) ST fuel _ _ _ _ _ r H) as [A B].
  split; [exact A|]. etransitivity; [exact B|exact V].
Qed.
Print Assumptions C79_greedy_rate_refuted.
