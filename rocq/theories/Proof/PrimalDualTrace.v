From Coq Require Import List Arith Bool ZArith QArith Lia Reals Lra.
From Verif.Base Require Import Num Vec Instances QInst.
From Verif.Model Require Import Common Svec LRSDP PrimalDual.
From Verif.Spec Require Import LpSpec SvecSpec PrimalDualSpec.
From Verif.Proof Require Import LRSDPProof.
Import ListNotations.
Local Open Scope nat_scope.

Lemma last_any {A} : forall (l : list A) y d d', last (y :: l) d = last (y :: l) d'.
Proof. induction l as [|z l IH]; intros y d d'; [reflexivity|]. exact (IH z d d'). Qed.

Section T.
Context {N : Num}.
Variables sqrt2 half : N.
Variable p : program (N := N).
Variables (chol inv : matrix (N := N) -> option (matrix (N := N))) (eigmax : matrix (N := N) -> option N)
  (syl : matrix (N := N) -> matrix (N := N) -> matrix (N := N) -> matrix (N := N)) (lsolve : list (list N) -> list N -> option (list N))
  (normv : list N -> N) (normF : matrix (N := N) -> N) (recip : N -> N) (tau t1 t2 t3 : N)
  (maxIterations : nat) (cb : CB N (matrix (N := N)) (matrix (N := N))).
Notation loop := (pd_loop sqrt2 half p chol inv eigmax syl lsolve normv normF recip tau t1 t2 t3 maxIterations cb).
Notation iter := (iteration sqrt2 half p chol inv eigmax syl lsolve normv normF recip tau t1 t2 t3).

Lemma iter_X s X s' c : iter s = IStep X s' c -> X = ps_X s'.
Proof.
  unfold iteration. repeat match goal with |- match ?e with _ => _ end = _ -> _ => destruct e as [[[? ?] ?]|] || destruct e; try discriminate end.
  intros E. injection E as <- <- <-. reflexivity.
Qed.

Definition closing (r : pd_res (N := N)) : list (ev N (matrix (N := N)) (matrix (N := N))) :=
  match r_exit r with XAlpha | XLimit => [End (ps_X (r_state r))] | _ => [] end.

Lemma loop_trace : forall fuel it t s tr r, it <= bound maxIterations -> loop fuel it t s tr = Ret r ->
  exists xs, r_tr r = rev tr ++ map St xs ++ closing r /\
    it + length xs <= bound maxIterations /\ last xs (ps_X s) = ps_X (r_state r) /\
    (t = true -> xs = []) /\
    (forall pre x post, xs = pre ++ x :: post -> post <> [] -> cs_stop cb (rev (map St (pre ++ [x])) ++ tr) = false) /\
    (r_exit r = XLimit -> it + length xs = bound maxIterations \/
       (xs = [] /\ t = true) \/ (xs <> [] /\ cs_stop cb (rev (map St xs) ++ tr) = true) ).
Proof.
  assert (Z0 : forall t s tr r it, it <= bound maxIterations -> r_tr r = rev tr ++ closing r -> r_state r = s ->
     (r_exit r = XLimit -> it = bound maxIterations \/ t = true) ->
     exists xs : list (matrix (N := N)), r_tr r = rev tr ++ map St xs ++ closing r /\
    it + length xs <= bound maxIterations /\ last xs (ps_X s) = ps_X (r_state r) /\
    (t = true -> xs = []) /\
    (forall pre x post, xs = pre ++ x :: post -> post <> [] -> cs_stop cb (rev (map St (pre ++ [x])) ++ tr) = false) /\
    (r_exit r = XLimit -> it + length xs = bound maxIterations \/
       (xs = [] /\ t = true) \/ (xs <> [] /\ cs_stop cb (rev (map St xs) ++ tr) = true))).
  { intros t s tr r it LE ET ES EL. exists []. cbn. rewrite ES, Nat.add_0_r. repeat split; auto.
    - intros [|? ?] x post E; discriminate.
    - intros EX. destruct (EL EX); auto. }
  induction fuel as [|fuel IH]; intros it t s tr r LE E; cbn [pd_loop] in E.
  - destruct (_ || _) eqn:EO; [|discriminate]. injection E as <-. apply Z0; [exact LE|reflexivity|reflexivity|].
    intros _. apply orb_true_iff in EO. destruct EO as [EO|EO]; [left; apply Nat.eqb_eq; exact EO|right; exact EO].
  - destruct (_ || _) eqn:EO.
    { injection E as <-. apply Z0; [exact LE|reflexivity|reflexivity|].
      intros _. apply orb_true_iff in EO. destruct EO as [EO|EO]; [left; apply Nat.eqb_eq; exact EO|right; exact EO]. }
    apply orb_false_iff in EO. destruct EO as (EO & ->). apply Nat.eqb_neq in EO.
    destruct (iter s) as [| |X s' c] eqn:EI.
    + injection E as <-. apply Z0; [exact LE| |reflexivity|discriminate]. unfold closing. cbn. rewrite app_nil_r. reflexivity.
    + injection E as <-. apply Z0; [exact LE|reflexivity|reflexivity|discriminate].
    + pose proof (iter_X s X s' c EI) as ->. destruct c.
      * injection E as <-. exists [ps_X s']. unfold closing. cbn. repeat split; auto; try lia; try discriminate.
        intros [|? [|? ?]] x post E HP; try discriminate. injection E as _ E. symmetry in E. contradiction.
      * assert (LE' : (S it <= bound maxIterations)%nat) by lia.
        destruct (IH _ _ _ _ _ LE' E) as (xs & ET & EL & ELa & ES & EC & EX).
        exists (ps_X s' :: xs). cbn [length map last]. split; [rewrite ET; cbn [rev]; rewrite <- app_assoc; reflexivity|].
        split; [lia|]. split.
        { rewrite <- ELa. destruct xs as [|y xs]; [reflexivity|]. exact (last_any xs y _ _). }
        split; [discriminate|]. split.
        { intros [|y pre] x post EP HP; injection EP as E1 E2; subst.
          - cbn. destruct (cs_stop cb (St (ps_X s') :: tr)) eqn:CS; [|reflexivity]. exfalso. apply HP. apply ES. reflexivity.
          - cbn [map app rev]. rewrite <- app_assoc. apply EC with (post := post); [reflexivity|exact HP]. }
        { intros HX. destruct (EX HX) as [H|[(-> & H)|(H1 & H2)]]; [left; lia| |]; right; right; (split; [discriminate|]).
          - cbn. destruct (cs_stop cb (St (ps_X s') :: tr)); [reflexivity|discriminate].
          - cbn [map rev]. rewrite <- app_assoc. exact H2. }
Qed.
End T.

(** ** One-by-one matrices: minimise 2 x subject to x = 1 *)
Definition k1 {N : Num} (v : N) : matrix (N := N) := fun _ _ => v.
Definition pd1 : program (N := QNum) :=
  @Build_program QNum 1 (k1 (N := QNum) 2%Q) [] [] [k1 (N := QNum) 1%Q] [1%Q].
Definition pd1_run (tol : Q) (maxIterations fuel : nat) :=
  pd_optimize (N := QNum) 1%Q (1 # 2)%Q pd1
    (fun a => if Qeq_bool 1 (a 0%nat 0%nat) then Some a else None)     (* only X = Z = 1 is factored *)
    (fun l => if Qeq_bool 1 (l 0%nat 0%nat) then Some l else None)
    (fun m => Some (m 0%nat 0%nat))
    (fun a b c => k1 (N := QNum) (ndiv (n := QNum) (nopp (n := QNum) (c 0%nat 0%nat)) (nadd (n := QNum) (a 0%nat 0%nat) (b 0%nat 0%nat))))
    (fun m rhs => match m, rhs with [[a]], [b] => Some [ndiv (n := QNum) b a] | _, _ => None end)
    (fun v => match v with [a] => nabs (n := QNum) a | _ => 0%Q end)
    (fun A => nabs (n := QNum) (A 0%nat 0%nat))
    (fun x => if Qeq_bool x 0 then 1000%Q else ndiv (n := QNum) 1%Q x)
    (99 # 100)%Q tol tol tol maxIterations {| cs_stop := fun _ => false; cs_grad := fun _ _ _ g => g |}
    (fun a => if Qltb 0 (a 0%nat 0%nat) then Some a else None)
    fuel
    (@Build_marg QNum 1 1 (k1 (N := QNum) 1%Q)) (@Build_varg QNum 0 1 [])
    (@Build_varg QNum 1 1 [1%Q]) (@Build_marg QNum 1 1 (k1 (N := QNum) 1%Q)).
Definition at00 (tol : Q) (maxIterations fuel : nat) :=
  match pd1_run tol maxIterations fuel with
  | inr (Ret r) => Some (r_exit r, ps_X (r_state r) 0%nat 0%nat, Qred (ps_Z (r_state r) 0%nat 0%nat), ps_obj (r_state r), length (r_tr r),
      existsb (fun e => match e with End _ => true | _ => false end) (r_tr r))
  | _ => None
  end.
