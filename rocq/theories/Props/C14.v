(** C14: SPSA. *)
From Coq Require Import List Arith Bool Reals Lra.
From Verif.Base Require Import Num Vec Instances.
From Verif.Model Require Import Common SPSA.
From Verif.Spec Require Import CommonSpec SPSASpec.
From Verif.Proof Require Import SPSAProof.
Import ListNotations.
Local Open Scope R_scope.

(** In exact arithmetic, for every power function, objective, random bits (one
    per coordinate) and callbacks: the run is n full iterations (see Spec/SPSASpec.v)
    with gains a_k = stepSize/(k+1+ak)^alpha and c_k = evaluationStepSize/(k+1)^gamma
    and signs s_k in {1,-1}, followed by one of three endings. *)
Theorem C14_spsa :
  forall (mx alpha gamma stepSize ess ak : R) (maxIterations : nat) (tolerance : R) pw f coin
         (cb : CB (RNum mx) (list R) (list R)) fuel x r,
  spsa (N := RNum mx) alpha gamma stepSize ess ak maxIterations tolerance pw f coin cb fuel x = Some r ->
  (forall k, length (coin k) = length x) ->
  let a := fun k => stepSize / pw (INR (k + 1) + ak) alpha in
  let c := fun k => ess / pw (INR (k + 1)) gamma in
  let s := fun k => map (fun b : bool => if b then 1 else -1) (coin k) in
  exists n tail, (n <= maxIterations)%nat /\
    o_tr r = Begin x :: rounds mx a c s f n 0 x ++ tail ++ [End (o_x r)] /\
    (let xf := arrived a c s f n 0 x in
     o_x r = xf /\
     ((* iteration limit, or a stop request at the end of an iteration *)
      (tail = [Ev (N := RNum mx) xf (f xf)] /\ o_val r = f xf /\
       ((0 + n)%nat = maxIterations \/ asked cb (o_tr r))) \/
      (* stop request at one of the two perturbed evaluations: the iterate is restored *)
      (tail = [Ev (N := RNum mx) (up c s (0 + n) xf) (f (up c s (0 + n) xf));
               Ev (N := RNum mx) (down c s (0 + n) xf) (f (down c s (0 + n) xf));
               Ev (N := RNum mx) xf (f xf)] /\ o_val r = f xf /\ asked cb (o_tr r)) \/
      (* tolerance *)
      (tail = [] /\ let vs := mx :: 0 :: objs a c s f n 0 x in
         o_val r = nth (S n) vs 0 /\ Rabs (nth n vs 0 - nth (S n) vs 0) < tolerance))) /\
    (forall h e rest, asked_at cb (o_tr r) h e rest -> steps_to rest = []).
Proof. exact spsa_ok. Qed.
Print Assumptions C14_spsa.

(** So the returned value is the objective at the final iterate, unless the
    tolerance exceeds DBL_MAX and not even one iteration is made. *)
Theorem C14_spsa_value :
  forall (mx alpha gamma stepSize ess ak : R) (maxIterations : nat) (tolerance : R) pw f coin
         (cb : CB (RNum mx) (list R) (list R)) fuel x r,
  spsa (N := RNum mx) alpha gamma stepSize ess ak maxIterations tolerance pw f coin cb fuel x = Some r ->
  (forall k, length (coin k) = length x) -> tolerance <= Rabs mx ->
  o_val r = f (o_x r).
Proof.
  intros mx alpha gamma stepSize ess ak m tol pw f coin cb fuel x r H Hl Ht.
  destruct (spsa_ok mx alpha gamma stepSize ess ak m tol pw f coin cb fuel x r H Hl)
    as (n & tail & _ & _ & (A & [(_ & B & _)|[(_ & B & _)|(_ & B & C)]]) & _);
    (etransitivity; [exact B|]); (etransitivity; [|apply (f_equal f); symmetry; exact A]); [reflexivity|reflexivity|]. clear A B.
  set (a := a_ alpha stepSize ak pw) in *. set (c := c_ gamma ess pw) in *. set (s := s_ coin) in *. clear - C Ht.
  destruct n as [|n].
  { cbn in C. rewrite Rminus_0_r in C. exfalso. apply (Rlt_irrefl tol). eapply Rle_lt_trans; [exact Ht|exact C]. }
  clear C. cbn [nth]. generalize 0%nat. revert x. induction n as [|n IH]; intros x k; cbn [objs nth arrived]; [reflexivity|].
  apply (IH (next a c s f k x) (S k)).
Qed.
Print Assumptions C14_spsa_value.

(** maxIterations = 0 is not "no limit" for SPSA: nothing is done at all. *)
Theorem C14_zero_iterations :
  forall (N : Num) alpha gamma stepSize ess ak (tolerance : N) pw f coin (cb : CB N (list N) (list N)) fuel x,
  spsa alpha gamma stepSize ess ak 0 tolerance pw f coin cb fuel x =
  Some {| o_val := f x; o_x := x; o_tr := [Begin x; Ev x (f x); End x] |}.
Proof. intros. destruct fuel; reflexivity. Qed.
Print Assumptions C14_zero_iterations.

(** Every run ends, so the hypotheses above are always met by some [r]. *)
Theorem C14_spsa_terminates :
  forall (N : Num) alpha gamma stepSize ess ak maxIterations (tolerance : N) pw f coin (cb : CB N (list N) (list N)) fuel x,
  (maxIterations <= fuel)%nat ->
  exists r, spsa alpha gamma stepSize ess ak maxIterations tolerance pw f coin cb fuel x = Some r.
Proof. exact @spsa_terminates. Qed.
Print Assumptions C14_spsa_terminates.

(** Two iterations from 4 with f(x) = x^2, nobody asking to stop. *)
Example C14_example :
  exists r, spsa (N := RNum 1000) 1 1 1 1 1 2 0 (fun _ _ => 1) (fun x => match x with [y] => y * y | _ => 0 end) (fun _ => [true])
    {| cs_stop := fun _ => false; cs_grad := fun _ _ _ g => g |} 5 [4] = Some r /\ o_val r = (fun x => match x with [y] => y * y | _ => 0 end) (o_x r).
Proof.
  destruct (C14_spsa_terminates (RNum 1000) 1 1 1 1 1 2 0 (fun _ _ => 1) (fun x => match x with [y] => y * y | _ => 0 end) (fun _ => [true])
    {| cs_stop := fun _ => false; cs_grad := fun _ _ _ g => g |} 5 [4]) as [r Hr]; [repeat constructor|].
  exists r. split; [exact Hr|]. apply (C14_spsa_value 1000 1 1 1 1 1 2 0 (fun _ _ => 1) (fun x => match x with [y] => y * y | _ => 0 end) (fun _ => [true]) _ 5 [4] r Hr); [reflexivity|].
  rewrite Rabs_pos_eq; lra.
Qed.
