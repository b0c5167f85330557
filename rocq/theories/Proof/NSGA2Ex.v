(** Concrete runs of NSGA-II, and the general facts behind its defects. *)
From Coq Require Import List Arith Bool ZArith Lia Permutation.
From Verif.Base Require Import Num Vec Size Instances.
From Verif.Model Require Import SA Pareto NSGA2.
From Verif.Spec Require Import ParetoSpec NSGA2Spec.
From Verif.Proof Require Import NSGA2Proof.
Import ListNotations.

(** insertion sort: one std::sort *)
Fixpoint ins {A : Type} (lt : A -> A -> bool) (a : A) (l : list A) : list A :=
  match l with [] => [a] | b :: r => if lt b a then b :: ins lt a r else a :: l end.
Definition isort {A : Type} (lt : A -> A -> bool) (l : list A) : list A := fold_right (ins lt) [] l.
Lemma ins_perm : forall {A} lt (a : A) l, Permutation (ins lt a l) (a :: l).
Proof.
  intros A lt a l; induction l as [|b r IH]; cbn; [reflexivity|]. destruct (lt b a); [|reflexivity].
  rewrite IH. apply perm_swap.
Qed.
Lemma isort_perm : forall {A} lt (l : list A), Permutation (isort lt l) l.
Proof. intros A lt l; induction l as [|a l IH]; cbn; [reflexivity|]. rewrite ins_perm, IH. reflexivity. Qed.

(** Two objectives in one variable, 100 + x^2 and 200 + x^2; start at 0 with members 5 3 4 6;
    every child is its parent plus 50. *)
Definition zf1 (x : list ZNum) : ZNum := match x with [a] => (100 + a * a)%Z | _ => 0%Z end.
Definition zf2 (x : list ZNum) : ZNum := match x with [a] => (200 + a * a)%Z | _ => 0%Z end.
Definition zinit (i : nat) : list ZNum := [nth i [5; 3; 4; 6]%Z 0%Z].
Definition zrnd (g j : nat) : @draws ZNum :=
  {| d_a := 0; d_b := 1; d_cross := [0%Z]; d_ua := [0%Z]; d_na := [50%Z]; d_ub := [0%Z]; d_nb := [50%Z] |}.
Definition zrun (stop : list (nev ZNum) -> bool) (gens : nat) : nout (@nres ZNum) :=
  optimize (N := ZNum) 4 gens 1%Z 1%Z 1%Z 0%Z [-1000]%Z [1000]%Z [zf1; zf2] stop zinit zrnd isort isort 10 [0%Z].

Lemma z_good : forall gens, 1 <= gens ->
  nsga2_good (N := ZNum) 4 gens [-1000]%Z [1000]%Z [zf1; zf2] zinit zrnd isort 10 [0%Z].
Proof.
  intros gens H. constructor.
  - lia.
  - exact H.
  - split; [reflexivity|]. split; [reflexivity|]. intros [|i] l h; cbn; [intros [= <-] [= <-]; reflexivity|destruct i; discriminate].
  - reflexivity.
  - intros g j. repeat split; cbn; lia.
  - reflexivity.
  - intros c l. apply isort_perm.
  - lia.
Qed.

(** the front belongs to member 3 of the old population; set and iterate hold the child 55 *)
Lemma z_run1 : exists r, zrun (fun _ => false) 1 = NRet r /\
  r_front r = [[109; 209]]%Z /\ r_set r = [[55]]%Z /\ r_x r = [55]%Z /\ r_val r = 0%Z /\
  r_parents r = [[5]; [3]; [4]; [6]]%Z.
Proof.
  let v := eval vm_compute in (zrun (fun _ => false) 1) in match v with NRet ?r => exists r end.
  split; [vm_compute; reflexivity|]. repeat split.
Qed.

Lemma matches_false :
  exists n gens (lb ub : list ZNum) fs init rnd (r : @nres ZNum),
    nsga2_good n gens lb ub fs init rnd isort 10 [0%Z] /\
    optimize n gens 1%Z 1%Z 1%Z 0%Z lb ub fs (fun _ => false) init rnd isort isort 10 [0%Z] = NRet r /\
    r_front r <> map (objv fs) (r_set r) /\
    (* the iterate is dominated by a point that was evaluated *)
    (exists p, In p (r_parents r) /\ Dominates (objv fs p) (objv fs (r_x r))) /\
    (* the returned value is below every value of every objective *)
    (forall f x, In f fs -> length x = 1 -> (r_val r < f x)%Z).
Proof.
  exists 4, 1, [-1000]%Z, [1000]%Z, [zf1; zf2], zinit, zrnd.
  destruct z_run1 as (r & E & E1 & E2 & E3 & E4 & E5). exists r.
  split; [apply z_good; lia|]. split; [exact E|]. split; [rewrite E1, E2; discriminate|]. split.
  - exists [3]%Z. rewrite E3, E5. split; [cbn; auto|]. split.
    + intros [|[|i]] a b; cbn; try (intros [= <-] [= <-]; reflexivity). destruct i; discriminate.
    + exists 0, 109%Z, 3125%Z. repeat split; reflexivity.
  - intros f x Hf Hx. rewrite E4. clear - Hf Hx. destruct x as [|a [|b x]]; try discriminate Hx.
    cbn [T ZNum] in *. assert (Q := Z.square_nonneg a).
    destruct Hf as [<-|[<-|[]]]; unfold zf1, zf2; lia.
Qed.

Section Gen.
  Context {N : Num}.
  Notation vec := (list N).

  Lemma small_throws : forall n maxGen (cp mp ms eps : N) lb ub fs stop init rnd sortp sorti fuel x,
    1 <= n <= 3 -> optimize n maxGen cp mp ms eps lb ub fs stop init rnd sortp sorti fuel x = NThrow.
  Proof.
    intros n maxGen cp mp ms eps lb ub fs stop init rnd sortp sorti fuel x H. unfold optimize.
    destruct n as [|[|[|[|n]]]]; [lia|reflexivity|reflexivity|reflexivity|lia].
  Qed.

  (** no generation: fronts[0] does not exist *)
  Lemma no_generation : forall n (cp mp ms eps : N) lb ub fs stop init rnd sortp sorti fuel x,
    n = 0 \/ 4 <= n -> optimize n 0 cp mp ms eps lb ub fs stop init rnd sortp sorti fuel x = NBad.
  Proof.
    intros n cp mp ms eps lb ub fs stop init rnd sortp sorti fuel x H. unfold optimize.
    replace (Nat.ltb n 4 && negb (Nat.eqb (n mod 4) 0)) with false; [reflexivity|].
    destruct H as [->|H]; [reflexivity|]. replace (Nat.ltb n 4) with false; [reflexivity|].
    symmetry. apply Nat.ltb_ge. exact H.
  Qed.

  (** an empty population passes the check *)
  Lemma no_population : forall maxGen (cp mp ms eps : N) lb ub fs stop init rnd sortp sorti fuel x,
    (forall c, sortp c [] = []) ->
    optimize 0 maxGen cp mp ms eps lb ub fs stop init rnd sortp sorti (S fuel) x = NBad.
  Proof.
    intros maxGen cp mp ms eps lb ub fs stop init rnd sortp sorti fuel x SP. unfold optimize. cbn [Nat.ltb Nat.leb Nat.modulo Nat.eqb negb andb].
    change (Nat.ltb 0 4 && negb (0 mod 4 =? 0)) with false. cbv iota.
    set (lo := spread (length x) lb). set (hi := spread (length x) ub).
    cbn [seq map repeat].
    assert (G : forall k gen term s, n_pop s = [] -> n_fronts s = [] ->
      exists s', generations 0 cp mp ms eps fs stop rnd sortp sorti k (S fuel) gen lo hi x term s = NRet s' /\ n_fronts s' = []).
    { intros k; induction k as [|k IH]; intros gen term s HP HF; cbn [generations]; [eauto|].
      destruct term; [eauto|]. unfold generation. cbn [children]. rewrite HP. cbn [length Nat.ltb Nat.leb app].
      unfold fnds, first_pass. cbn [seq fold_left fnds_loop nth f_front removelast].
      cbn [n_fronts n_pop n_tr]. apply IH; cbn [n_pop n_fronts fold_left]; [|reflexivity].
      rewrite SP. reflexivity. }
    destruct (G maxGen 1 false {| n_pop := []; n_objs := []; n_fronts := []; n_ranks := []; n_tr := [NBegin x]; n_parents := [] |})
      as (s' & E & F); [reflexivity|reflexivity|]. rewrite E, F. reflexivity.
  Qed.

  Lemma evaluate_calls : forall n (fs : list (vec -> N)) pop,
    snd (evaluate n fs 0 pop (repeat (repeat n0 (length fs)) (length pop), 0)) = calls_for n (length fs).
  Proof.
    intros n fs pop. destruct (evaluate_ok n fs 0 pop (repeat (repeat n0 (length fs)) (length pop)) 0) as (_ & _ & C).
    - intros i row H. apply nth_error_In, repeat_spec in H. subst. rewrite repeat_length. reflexivity.
    - exact C.
  Qed.
End Gen.

(** the second child is its first parent *)
Lemma childB_is_A : forall (N : Num) (cp : N) idx pa pb,
  (forall a : N, nadd (nmul a (nsub n1 n1)) (nmul a n1) = a) ->
  (forall a : N, nadd (nmul a (nsub n1 n0)) (nmul a n0) = a) ->
  length idx = length pa -> snd (crossover cp idx pa pb) = pa.
Proof.
  intros N cp idx pa pb L1 L0. unfold crossover. cbn [snd]. revert pa.
  induction idx as [|u idx IH]; intros [|a pa] H; cbn in *; try lia; [reflexivity|].
  unfold vadd, vmul in *. cbn [map2]. f_equal; [|apply IH; lia].
  unfold ind. destruct (nlt u cp); [apply L1|apply L0].
Qed.

(** NaN objectives: no member survives the sort, fronts[0] does not exist *)
Definition nanf (t : list F64) (x : list F64) : F64 :=
  match x with [a] => if neq a (fz 1) then nth 1 t fnan else if neq a (fz 2) then nth 2 t fnan else nth 0 t fnan | _ => fnan end.
Definition nan_fs : list (list F64 -> F64) :=
  [nanf [fz 0; fz 1; fnan]; nanf [fnan; fz 0; fz 1]; nanf [fz 1; fnan; fz 0]].
Definition half : F64 := ndiv (n := F64) (fz 1) (fz 2).
Definition nan_init (i : nat) : list F64 := [nadd (n := F64) half (fz (nth i [0; 1; 2; 0]%Z 0%Z))].
Definition nan_rnd (g j : nat) : @draws F64 :=
  {| d_a := 0; d_b := 1; d_cross := [fz 0]; d_ua := [fz 0]; d_na := [fz 0]; d_ub := [fz 0]; d_nb := [fz 0] |}.
Definition is_bad {A : Type} (o : nout A) : bool := match o with NBad => true | _ => false end.
Lemma is_bad_eq : forall {A} (o : nout A), is_bad o = true -> o = NBad.
Proof. intros A o. destruct o; cbn; intros H; congruence. Qed.
Lemma nan_bad :
  optimize (N := F64) 4 1 (fz 1) (fz 1) (fz 1) (fz 0) [fz (-9)] [fz 9] nan_fs (fun _ => false) nan_init nan_rnd isort isort 10 [fz 0] = NBad.
Proof. apply is_bad_eq. vm_compute. reflexivity. Qed.
