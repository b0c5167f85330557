(** Model of ens::SPALeRASGD<DecayPolicyType>::Optimize and its policy SPALeRAStepsize.
    Files: /repo/include/ensmallen_bits/spalera_sgd/spalera_stepsize.hpp (st) and
    spalera_sgd_impl.hpp (line numbers without a file name).
    Simplifications: one number type for double and ElemType; a matrix is its list of elements
    and its size the length; i is unbounded (with maxIterations = 0 the limit is 2^64 - 1);
    std::pow with an integer exponent and std::exp are oracles, 1e-15 a parameter; the decay
    policy is a state and a function. *)
From Coq Require Import List Arith Bool ZArith.
From Verif.Base Require Import Num Vec Size Loop.
From Verif.Model Require Import Common VarRed.
Import ListNotations.
Local Open Scope nat_scope.

(** What the user sees of a call. *)
Inductive pev (N : Num) : Type :=
| PBegin (x : list N)
| PEval (x : list N) (begin count : nat) (v : N)
| PBoth (x : list N) (begin count : nat) (v : N) (g g' : list N)
| PStep (x : list N) (eta : N)
| PEndEpoch (k : nat) (v : N)
| PBeginEpoch (k : nat) (v : N)
| PShuffle
| PEnd (x : list N).
Arguments PBegin {N}. Arguments PEval {N}. Arguments PBoth {N}. Arguments PStep {N}.
Arguments PEndEpoch {N}. Arguments PBeginEpoch {N}. Arguments PShuffle {N}. Arguments PEnd {N}.
(** callbacks, as [VCB] of Model/VarRed.v *)
Record PCB (N : Num) : Type := {
  pc_stop : list (pev N) -> bool;
  pc_hook : list (pev N) -> list N -> list N -> list N }.
Arguments pc_stop {N}. Arguments pc_hook {N}.
Definition pshuffles {N : Num} (tr : list (pev N)) : nat :=
  length (filter (fun e => match e with PShuffle => true | _ => false end) tr).

(** st 216-244: the state of a Policy object *)
Record pst (N : Num) : Type := {
  s_mu0 : N; s_un : N; s_mn : N; s_rel : N; s_ph : nat; s_eve : nat;
  s_lr : list N; s_sums : list N; s_prev : list N }.
Arguments s_mu0 {N}. Arguments s_un {N}. Arguments s_mn {N}. Arguments s_rel {N}. Arguments s_ph {N}. Arguments s_eve {N}.
Arguments s_lr {N}. Arguments s_sums {N}. Arguments s_prev {N}.

Section Policy.
  Context {N : Num}.
  Variable npow : N -> nat -> N.                 (* std::pow(x, size_t) *)
  Variable nexp : N -> N.                        (* std::exp *)
  Variable tiny : N.                             (* 1e-15 *)
  Variables alpha epsilon rate : N.              (* st 249-256 *)

  (** st 99-115; [p] is the number of elements *)
  Definition fresh (p : nat) : pst N :=
    {| s_mu0 := n0; s_un := n0; s_mn := n0; s_rel := n0; s_ph := 0; s_eve := 0;
       s_lr := repeat n1 p; s_sums := repeat n0 p; s_prev := [] |}.

  Definition sq (a : N) : N := nmul a a.
  (** st 142-151 *)
  Definition relax (mb obj rel : N) (ph : nat) : N :=
    if nlt (ndiv n1 mb) (nofnat ph) then nadd (nmul (nsub n1 mb) rel) (nmul mb obj)
    else ndiv (nadd (nmul (nofnat ph) rel) obj) (nofnat (ph + 1)).
  (** st 193-198: the new relaxed sums *)
  Definition sums (g sm : list N) : list N :=
    let nrm := nsqrt (vsum (map sq g)) in
    let sm := vscale (nsub n1 alpha) sm in
    if nlt epsilon nrm then vadd sm (vscale (ndiv alpha nrm) g) else sm.
  (** st 186-191, 200-201: the factors of the learning rates *)
  Definition factors (p eve : nat) (sm : list N) : list N :=
    let mean := ndiv (nmul (ndiv alpha (nsub (nofZ 2%Z) alpha)) (nsub n1 (npow (nsub n1 alpha) (2 * (eve + 1))))) (nofnat p) in
    let std := ndiv (ndiv alpha (nsqrt (nofnat p))) (nsqrt (nofnat p)) in
    map (fun a => nexp (nmul (nsub (sq a) mean) (ndiv rate std))) sm.

  (** st 129-213: Update; None is the exception Armadillo throws for operands of different
      sizes (198, 200, 205).  The results are the iterate, the answer and the state. *)
  Definition update (lambda eta obj : N) (b n : nat) (x g : list N) (s : pst N) : option (list N * bool * pst N) :=
    let mb := ndiv (nofnat b) (nofnat n) in
    let rel := relax mb obj (s_rel s) (s_ph s) in
    let mu0 := ndiv (nadd (nmul (nofnat (s_ph s)) (s_mu0 s)) rel) (nofnat (s_ph s + 1)) in
    let un := nadd (s_un s) (nsub rel mu0) in
    let mn := if nlt un (s_mn s) then un else s_mn s in
    if nlt lambda (nsub un mn) then
      let lr := map (fun a => ndiv a (nofZ 2%Z)) (s_lr s) in
      if existsb (fun a => nle a tiny) lr then
        Some (s_prev s, false, {| s_mu0 := mu0; s_un := un; s_mn := mn; s_rel := rel; s_ph := s_ph s; s_eve := s_eve s;
                                  s_lr := lr; s_sums := s_sums s; s_prev := s_prev s |})
      else
        Some (s_prev s, true, {| s_mu0 := n0; s_un := n0; s_mn := n0; s_rel := n0; s_ph := 0; s_eve := 0;
                                 s_lr := lr; s_sums := s_sums s; s_prev := s_prev s |})
    else if negb ((length g =? length (s_lr s)) && (length x =? length (s_lr s))) then None
    else
      let sm := sums g (s_sums s) in
      let lr := vmul (s_lr s) (factors (length x) (s_eve s) sm) in
      Some (vsub x (vscale eta (vmul lr g)), true,
            {| s_mu0 := mu0; s_un := un; s_mn := mn; s_rel := rel; s_ph := s_ph s + 1; s_eve := s_eve s + 1;
               s_lr := lr; s_sums := sm; s_prev := x |}).
End Policy.

Section Opt.
  Context {N : Num}.
  Variable npow : N -> nat -> N.
  Variable nexp : N -> N.
  Variable tiny : N.
  Variables alpha epsilon rate : N.
  Variable f : VFun N.
  Variable cb : PCB N.
  Variables (b maxIterations : nat) (tolerance lambda : N) (shuffle exactObjective : bool).
  Context {D : Type}.
  Variable decay : D -> list N -> N -> list N -> D * N.   (* DecayPolicyType::Policy::Update *)
  Notation n := (vf_num f).
  Notation trace := (list (pev N)).
  Definition pmax : nat := match maxIterations with O => size_max | _ => maxIterations end.

  (** 107-114 and 237-247 *)
  Fixpoint pass (fuel : nat) (x : list N) (i : nat) (acc : N) (term : bool) (tr : trace) : option (N * bool * trace) :=
    if i <? n then
      match fuel with
      | O => None
      | S fuel =>
          let c := Nat.min b (n - i) in
          let v := vf_eval f (pshuffles tr) x i c in
          let tr := PEval x i c v :: tr in
          pass fuel x (i + b) (nadd acc v) (term || pc_stop cb tr) tr
      end
    else Some (acc, term, tr).

  Record lst : Type := { l_x : list N; l_pol : pst N; l_eta : N; l_d : D; l_i : nat; l_cf : nat; l_ep : nat;
                         l_over : N; l_last : N; l_term : bool; l_tr : trace }.
  Inductive lexit : Type := LDone (s : lst) | LConv (s : lst) | LFail (s : lst) | LBad.

  (** 143-229: one iteration; [lam] is the policy's lambda *)
  Definition pbody (lam : N) (s : lst) : lst + lexit :=
    if negb ((l_i s <? pmax) && negb (l_term s)) then inr (LDone s) else
    if n =? 0 then inr LBad else                                       (* 187: modulo 0 *)
    let x := l_x s in
    let cf := l_cf s in
    let c := Nat.min (Nat.min b (pmax - l_i s)) (n - cf) in
    let v := vf_eval f (pshuffles (l_tr s)) x cf c in
    let g := vf_grad f (pshuffles (l_tr s)) x cf c in
    let g' := pc_hook cb (l_tr s) x g in
    let tr := PBoth x cf c v g g' :: l_tr s in
    if pc_stop cb tr then                                              (* 162-163 *)
      inr (LDone {| l_x := x; l_pol := l_pol s; l_eta := l_eta s; l_d := l_d s; l_i := l_i s; l_cf := cf; l_ep := l_ep s;
                    l_over := l_over s; l_last := l_last s; l_term := true; l_tr := tr |})
    else
    match update npow nexp tiny alpha epsilon rate lam (l_eta s) v c n x g' (l_pol s) with
    | None => inr LBad
    | Some (x, false, pol) =>                                          (* 166-175 *)
      inr (LFail {| l_x := x; l_pol := pol; l_eta := l_eta s; l_d := l_d s; l_i := l_i s; l_cf := cf; l_ep := l_ep s;
                    l_over := l_over s; l_last := l_last s; l_term := false; l_tr := tr |})
    | Some (x, true, pol) =>
        let tr := PStep x (l_eta s) :: tr in
        let term := pc_stop cb tr in
        let '(d, eta) := decay (l_d s) x (l_eta s) g' in
        let i := l_i s + c in
        let cf := cf + c in
        let ov := nadd (l_over s) v in
        if negb (cf mod n =? 0) then
          inl {| l_x := x; l_pol := pol; l_eta := eta; l_d := d; l_i := i; l_cf := cf; l_ep := l_ep s;
                 l_over := ov; l_last := l_last s; l_term := term; l_tr := tr |}
        else
        let tr := PEndEpoch (l_ep s) (ndiv ov (nofnat n)) :: tr in
        let term := term || pc_stop cb tr in
        let ep := S (l_ep s) in
        if nisnan ov || nisinf ov || nlt (nabs (nsub (l_last s) ov)) tolerance then
          inr (LConv {| l_x := x; l_pol := pol; l_eta := eta; l_d := d; l_i := i; l_cf := cf; l_ep := ep;
                        l_over := ov; l_last := l_last s; l_term := term; l_tr := tr |})
        else
        let go := negb (i =? pmax) in                                  (* 215-221 *)
        let tr := PBeginEpoch ep (if go then n0 else ov) :: tr in
        let term := term || pc_stop cb tr in
        let tr' := if shuffle then PShuffle :: tr else tr in
        inl {| l_x := x; l_pol := pol; l_eta := eta; l_d := d; l_i := i; l_cf := if go then 0 else cf; l_ep := ep;
               l_over := if go then n0 else ov; l_last := if go then ov else l_last s; l_term := term; l_tr := tr' |}
    end.

  Inductive pend : Type := PLimit | PConverged | PFailed.
  Record pres : Type := { pr_val : N; pr_x : list N; pr_tr : trace; pr_end : pend; pr_pol : pst N; pr_lam : N; pr_eta : N; pr_d : D }.

  (** 60-252.  [old] is the policy left by an earlier call and its lambda, if it is kept
      (127-135); [eta] is the member stepSize and [d] the decay policy, which the call changes. *)
  Definition spalera (fuel : nat) (old : option (pst N * N)) (eta : N) (d : D) (x : list N) : outc pres :=
    match pass fuel x 0 n0 false [PBegin x] with
    | None => More
    | Some (ov, term, tr) =>
        let '(pol, lam) := match old with
                           | None => (fresh (length x), nmul (ndiv ov (nofnat n)) lambda)
                           | Some q => q
                           end in
        let tr := PBeginEpoch 1 ov :: tr in
        let fin (s : lst) v e tr := Ret {| pr_val := v; pr_x := l_x s; pr_tr := rev (PEnd (l_x s) :: tr); pr_end := e;
                                           pr_pol := l_pol s; pr_lam := lam; pr_eta := l_eta s; pr_d := l_d s |} in
        match loop (pbody lam) fuel {| l_x := x; l_pol := pol; l_eta := eta; l_d := d; l_i := 0; l_cf := 0; l_ep := 1;
                                       l_over := ov; l_last := nmax; l_term := term || pc_stop cb tr; l_tr := tr |} with
        | inl _ => More
        | inr LBad => Bad
        | inr (LConv s) => fin s (l_over s) PConverged (l_tr s)
        | inr (LFail s) => fin s (l_over s) PFailed (l_tr s)
        | inr (LDone s) =>
            if exactObjective then
              match pass fuel (l_x s) 0 n0 false (l_tr s) with
              | None => More
              | Some (v, _, tr) => fin s v PLimit tr
              end
            else fin s (l_over s) PLimit (l_tr s)
        end
    end.
End Opt.
