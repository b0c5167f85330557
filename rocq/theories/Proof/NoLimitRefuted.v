(** Proofs for C60: optimizers documented to take maxIterations = 0 as "no limit" that do not. *)
From Coq Require Import List Arith Bool Lia ZArith Reals Lra.
From Coq Require Import Floats.SpecFloat.
From Verif.Base Require Import Num Vec Size Instances.
From Verif.Model Require Import Common SA FrankWolfe Updates.
From Verif.Spec Require Import NoLimitSpec.
Import ListNotations.

Section SA.
  Context {N : Num}.
  Variables (iv mc mt : nat) (tol mm im ga ta : N) (next : N -> N -> N) (lg ex : N -> N) (f : list N -> N) (rnd : nat -> N * N) (cb : CB N (list N) (list N)).
  Lemma generate_no_step s s' t : generate_move mc mm ga ta lg ex f rnd cb s = Some (s', t) -> no_step (sa_tr s) -> no_step (sa_tr s') /\ sa_t s' = sa_t s.
  Proof.
    unfold generate_move. destruct (nth_error (sa_x s) _); [|discriminate]. destruct (nth_error (sa_size s) _); [|discriminate].
    destruct (nth_error (sa_acc s) _); [|discriminate]. destruct (rnd _) as [u xi]. intros E H. injection E as <- <-. cbn [sa_tr sa_t]. split; [|reflexivity].
    intros y [C|C]; [discriminate|]. exact (H y C).
  Qed.
  Lemma init_no_step k : forall s t s' t', init_moves mc mm ga ta lg ex f rnd cb k s t = Some (s', t') -> no_step (sa_tr s) -> no_step (sa_tr s') /\ sa_t s' = sa_t s.
  Proof.
    induction k as [|k IH]; intros s t s' t' E H; cbn [init_moves] in E; [injection E as <- <-; auto|].
    destruct (generate_move _ _ _ _ _ _ _ _ _ s) as [[s1 t1]|] eqn:Eg; [|discriminate]. destruct (generate_no_step _ _ _ Eg H) as [A B].
    destruct (t || t1); [injection E as <- <-; auto|]. destruct (IH _ _ _ _ E A) as [C D]. split; [exact C|congruence].
  Qed.
  Lemma sa_zero t0 x r t : sa_optimize 0 iv mc mt tol mm im ga ta next lg ex f rnd cb t0 x = Ret (r, t) -> t = t0 /\ no_step (o_tr r).
  Proof.
    unfold sa_optimize. destruct (init_moves _ _ _ _ _ _ _ _ _ iv _ _) as [[s1 t1]|] eqn:E; [|discriminate]. cbn [cooling].
    apply init_no_step in E; [|cbn [sa_tr]; intros y [C|[C|[]]]; discriminate]. cbn [sa_t] in E. destruct E as [A B].
    intro H. injection H as <- <-. split; [exact B|]. cbn [sa_done o_tr]. intros y C. rewrite <- in_rev in C. destruct C as [C|C]; [discriminate|]. exact (A y C).
  Qed.
End SA.

(** the line search without iterations does not move *)
Lemma combine_0 (mx : R) (x1 x2 : list R) : length x1 = length x2 -> combine_pts (N := RNum mx) 0%R x1 x2 = x1.
Proof.
  unfold combine_pts. revert x2. induction x1 as [|a x1 IH]; intros [|b x2] H; try discriminate; [reflexivity|].
  cbn [vscale map vadd map2]. f_equal; [cbn; ring|]. apply IH. cbn in H. lia.
Qed.
Lemma linesearch_zero mx (tol : R) f grad (x1 x2 : list R) : length x1 = length x2 ->
  let d := ls_derivative (N := RNum mx) grad x1 (vsub (N := RNum mx) x2 x1) in
  (d 0 < 0)%R -> (0 < d 1)%R -> line_search (N := RNum mx) 0 tol f grad x1 x2 = (x1, f x1).
Proof.
  intros H d H0 H1. unfold line_search. fold d. cbn [n0 n1 RNum] in *. change (nle (n := RNum mx)) with Rleb. change (nlt (n := RNum mx)) with Rltb.
  destruct (Rleb_spec 0 (d 0%R)); [lra|]. destruct (Rleb_spec (d 1%R) 0); [lra|]. destruct (Rltb _ _); [reflexivity|].
  cbn [ls_secant]. rewrite combine_0 by exact H. reflexivity.
Qed.

(** Demon: NaN from the second step on *)
Lemma demon_beta_nan (b : F64) : demon_beta b 0 1 = S754_nan.
Proof.
  unfold demon_beta. cbn [Nat.ltb Nat.leb].
  change (nsub (n := F64) n1 (ndiv (n := F64) (nofnat 1) (nofnat 0))) with (S754_infinity true).
  generalize (nsub (n := F64) n1 b). intro y. destruct b as [[]|[]| |[] m e]; destruct y as [[]|[]| |[] m' e']; reflexivity.
Qed.
Lemma demon_keeps_nan (b : F64) T (s : unit * nat) h g : snd (demon_sgd_up b T s (S754_nan : F64) h g) = S754_nan.
Proof. reflexivity. Qed.
Lemma demon_zero (b : F64) (hg : list (F64 * F64)) (x : F64) : 2 <= length hg ->
  snd (fold_left (fun s q => demon_sgd_up b 0 (fst s) (snd s) (fst q) (snd q)) hg ((tt, 0), x)) = S754_nan.
Proof.
  destruct hg as [|[h1 g1] [|[h2 g2] l]]; cbn [length]; [lia|lia|]. intros _. cbn [fold_left fst snd].
  set (p := demon_sgd_up b 0 (fst (demon_sgd_up b 0 (tt, 0) x h1 g1)) (snd (demon_sgd_up b 0 (tt, 0) x h1 g1)) h2 g2).
  assert (H : snd p = S754_nan).
  { unfold p, demon_sgd_up, demon_up, vanilla_up. cbn [fst snd]. rewrite demon_beta_nan.
    match goal with |- nsub (nmul ?a S754_nan) _ = _ => destruct a as [[]|[]| |[] m e] end; reflexivity. }
  clearbody p. revert p H. induction l as [|[h g] l IH]; intros p H; cbn [fold_left]; [exact H|]. apply IH. cbn [fst snd]. rewrite H. reflexivity.
Qed.
