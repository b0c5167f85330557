(** Model of ens::BigBatchSGD<UpdatePolicyType>::Optimize with both of its policies.
    Files: /repo/include/ensmallen_bits/bigbatch_sgd/bigbatch_sgd_impl.hpp (line numbers
    without a file name), adaptive_stepsize.hpp (as), backtracking_line_search.hpp (bl).
    Simplifications: one number type for double and ElemType; i is unbounded (with
    maxIterations = 0 the limit is 2^64 - 1); std::pow(x, 2.0) is x * x; the conversion of
    batchDelta * batchSize to size_t is an oracle; trace(trans(a) * b) is the dot product. *)
From Coq Require Import List Arith Bool ZArith.
From Verif.Base Require Import Num Vec Size Loop.
From Verif.Model Require Import Common VarRed.
Import ListNotations.
Local Open Scope nat_scope.

(** What the user sees of a call; [BGradQ] and [BEvalQ] are evaluations no callback is
    told about. *)
Inductive bev (N : Num) : Type :=
| BBegin (x : list N)
| BGrad (x : list N) (i : nat) (g g' : list N)
| BGradQ (x : list N) (i : nat) (g : list N)
| BEvalQ (x : list N) (begin count : nat) (v : N)
| BStep (x : list N) (eta : N)
| BEval (x : list N) (begin count : nat) (v : N)
| BEndEpoch (k : nat) (v : N)
| BBeginEpoch (k : nat) (v : N)
| BShuffle
| BEnd (x : list N).
Arguments BBegin {N}. Arguments BGrad {N}. Arguments BGradQ {N}. Arguments BEvalQ {N}. Arguments BStep {N}.
Arguments BEval {N}. Arguments BEndEpoch {N}. Arguments BBeginEpoch {N}. Arguments BShuffle {N}. Arguments BEnd {N}.

(** callbacks, as [VCB] of Model/VarRed.v *)
Record BCB (N : Num) : Type := {
  bc_stop : list (bev N) -> bool;
  bc_hook : list (bev N) -> list N -> list N -> list N }.
Arguments bc_stop {N}. Arguments bc_hook {N}.
Definition bshuffles {N : Num} (tr : list (bev N)) : nat :=
  length (filter (fun e => match e with BShuffle => true | _ => false end) tr).

(** The update policy: BacktrackingLineSearch(searchParameter) or
    AdaptiveStepsize(backtrackStepSize, searchParameter). *)
Inductive bpolicy (N : Num) : Type := Backtrack (sp : N) | Adaptive (bts sp : N).
Arguments Backtrack {N}. Arguments Adaptive {N}.

Section BB.
  Context {N : Num}.
  Variable f : VFun N.
  Variable cb : BCB N.
  Variable pol : bpolicy N.
  Variables (maxIterations : nat) (tolerance : N) (shuffle exactObjective : bool).
  Variable norm : list N -> N.                   (* arma::norm(., 2) *)
  Variable offset : nat -> nat.                  (* 158: (size_t) (batchDelta * batchSize) *)
  Notation n := (vf_num f).
  Notation trace := (list (bev N)).
  Definition amax : nat := match maxIterations with O => size_max | _ => maxIterations end.
  Definition two : N := nofZ 2%Z.
  Definition over (g : list N) (k : nat) : list N := map (fun a => ndiv a (nofnat k)) g.
  Definition sqn (g : list N) : N := nmul (norm g) (norm g).

  (** 123-125, 132-135: the gradient of one function, with its callback *)
  Definition bgrad (x : list N) (i : nat) (term : bool) (tr : trace) : list N * bool * trace :=
    let g := vf_grad f (bshuffles tr) x i 1 in
    let g' := bc_hook cb tr x g in
    let tr := BGrad x i g g' :: tr in
    (g', term || bc_stop cb tr, tr).

  (** the running gradient, mean and variance *)
  Record gst : Type := { e_g : list N; e_d : list N; e_v : N; e_term : bool; e_tr : trace }.
  (** 132-145, 170-183: one more function; [k] is the divisor *)
  Definition sample (x : list N) (i k : nat) (s : gst) : gst :=
    let '(g, term, tr) := bgrad x i (e_term s) (e_tr s) in
    let d := vadd (e_d s) (over (vsub g (e_d s)) k) in
    {| e_g := vadd (e_g s) g; e_d := d;
       e_v := nadd (e_v s) (nmul (norm (vsub g (e_d s))) (norm (vsub g d))); e_term := term; e_tr := tr |}.
  (** a run of functions i, i+1, .. with divisors k, k+1, .. *)
  Fixpoint samples (x : list N) (i k count : nat) (s : gst) : gst :=
    match count with O => s | S c => samples x (S i) (S k) c (sample x i k s) end.

  (** 155: gB <= ((1 / ((double) batchSize - 1) * vB) / batchSize) *)
  Definition noisy (gB vB : N) (bs : nat) : bool :=
    nle gB (ndiv (nmul (ndiv n1 (nsub (nofnat bs) n1)) vB) (nofnat bs)).
  (** 155-191: the batch grows; [k] is the running counter.  The result also says whether
      it grew (reset). *)
  Fixpoint grow (fuel : nat) (x : list N) (cf bs c k : nat) (gB : N) (r : bool) (s : gst) : option (nat * nat * N * bool * gst) :=
    if noisy gB (e_v s) bs then
      let o := match offset bs with O => 1 | o => o end in                             (* 158-160 *)
      if n <=? cf + bs + o then Some (bs, c, gB, r, s) else                            (* 162-163 *)
      match fuel with
      | O => None
      | S fuel =>
          let start := if cf + bs + o - 1 <? n then cf + bs - 1 else 0 in              (* 166-167 *)
          let s := samples x start (k + 1) o s in
          grow fuel x cf (bs + o) (c + o) (k + o) (sqn (over (e_g s) (bs + o))) true s
      end
    else Some (bs, c, gB, r, s).

  (** as 200-227, bl 97-113: the line search *)
  Definition quiet (x : list N) (cf c : nat) (tr : trace) : N * trace :=
    let v := vf_eval f (bshuffles tr) x cf c in (v, BEvalQ x cf c v :: tr).
  Fixpoint search (fuel : nat) (shrink : N -> N) (sp : N) (x g : list N) (gB : N) (cf c : nat) (obj eta : N) (tr : trace) : option (N * trace) :=
    let '(v, tr) := quiet (vsub x (vscale eta g)) cf c tr in
    if nlt (nsub obj (nmul (nmul sp eta) gB)) v then
      match fuel with O => None | S fuel => search fuel shrink sp x g gB cf c obj (shrink eta) tr end
    else Some (eta, tr).
  Definition backtrack (fuel : nat) (shrink : N -> N) (sp : N) (x g : list N) (gB : N) (cf c : nat) (eta : N) (tr : trace) : option (N * trace) :=
    let '(obj, tr) := quiet x cf c tr in search fuel shrink sp x g gB cf c obj eta tr.

  (** as 124-144: the gradients at the new and the previous point, no callbacks *)
  Definition bgradq (x : list N) (i : nat) (tr : trace) : list N * trace :=
    let g := vf_grad f (bshuffles tr) x i 1 in (g, BGradQ x i g :: tr).
  Record rst : Type := { o_g : list N; o_gp : list N; o_d : list N; o_v : N; o_tr : trace }.
  Fixpoint regrad (x prev : list N) (i k count : nat) (s : rst) : rst :=
    match count with
    | O => s
    | S c =>
        let '(g, tr) := bgradq x i (o_tr s) in
        let d := vadd (o_d s) (over (vsub g (o_d s)) k) in
        let v := nadd (o_v s) (nmul (norm (vsub g (o_d s))) (norm (vsub g d))) in
        let '(gp, tr) := bgradq prev i tr in
        regrad x prev (S i) (S k) c {| o_g := vadd (o_g s) g; o_gp := vadd (o_gp s) gp; o_d := d; o_v := v; o_tr := tr |}
    end.
  Definition nz (a : N) : bool := negb (neq a n0).                                      (* double to bool *)
  (** as 163-178 *)
  Definition smooth (eta gn vB v : N) (bs : nat) : N :=
    let decay := if nz gn && nz vB && negb (bs =? 0)
                 then if bs <? n then ndiv (nsub n1 (ndiv (nmul (ndiv n1 (nsub (nofnat bs) n1)) vB) (nmul (nofnat bs) gn))) v
                      else ndiv n1 v
                 else n0 in
    let q := ndiv (nofnat bs) (nofnat n) in
    nadd (nmul eta (nsub n1 q)) (nmul decay q).

  (** as 92-182, bl 83-114: Update.  The state is iteratePrev; the results are it, the step
      size, the iterate and the gradient. *)
  Definition update (fuel : nat) (prev : list N) (eta : N) (x g : list N) (gB : N) (cf bs c : nat) (reset : bool) (tr : trace)
      : option (list N * N * list N * list N * trace) :=
    match pol with
    | Backtrack sp =>
        match backtrack fuel (fun e => ndiv e two) sp x g gB cf c (if reset then nmul eta two else eta) tr with
        | None => None
        | Some (eta, tr) => Some (prev, eta, x, g, tr)
        end
    | Adaptive bts sp =>
        match backtrack fuel (fun e => nmul e bts) sp x g gB cf c eta tr with
        | None => None
        | Some (eta, tr) =>
            let x1 := vsub x (vscale eta g) in
            let prev := match prev with [] => map (fun _ => n0) x | _ => prev end in
            let '(g1, tr) := bgradq x1 cf tr in
            let '(gp, tr) := bgradq prev cf tr in
            let s := regrad x1 prev (cf + 1) 1 (c - 1) {| o_g := g1; o_gp := gp; o_d := g1; o_v := n0; o_tr := tr |} in
            let gn := sqn (over (o_g s) c) in
            let v := ndiv (vdot (vsub x1 prev) (vsub (o_g s) (o_gp s))) (sqn (vsub x1 prev)) in
            match backtrack fuel (fun e => nmul e bts) sp x1 (o_g s) gn cf c (smooth eta gn (o_v s) v bs) (o_tr s) with
            | None => None
            | Some (eta, tr) => Some (x1, eta, x1, o_g s, tr)
            end
        end
    end.

  Record bst : Type := { b_x : list N; b_prev : list N; b_eta : N; b_bs : nat; b_i : nat; b_cf : nat; b_ep : nat;
                         b_over : N; b_last : N; b_term : bool; b_tr : trace }.
  Inductive bexit : Type := BDone (s : bst) | BConv (s : bst) | BBad | BMore.

  (** 108-258: one iteration *)
  Definition bbody (fuel : nat) (s : bst) : bst + bexit :=
    if negb ((b_i s <? amax) && negb (b_term s)) then inr (BDone s) else
    if n =? 0 then inr BBad else                                       (* 123: there is no function 0 *)
    let x := b_x s in
    let cf := b_cf s in
    let c := Nat.min (Nat.min (b_bs s) (amax - b_i s)) (n - cf) in     (* 117-119 *)
    let '(g, term, tr) := bgrad x cf (b_term s) (b_tr s) in
    let e := samples x (S cf) 1 (c - 1) {| e_g := g; e_d := g; e_v := n0; e_term := term; e_tr := tr |} in
    let gB := sqn (over (e_g e) c) in
    match (if c =? b_bs s then grow n x cf (b_bs s) c (Nat.max 1 c) gB false e
           else Some (b_bs s, c, gB, false, e)) with
    | None => inr BMore
    | Some (bs, c, gB, reset, e) =>
        if e_term e then                                               (* 194-195 *)
          inr (BDone {| b_x := x; b_prev := b_prev s; b_eta := b_eta s; b_bs := bs; b_i := b_i s; b_cf := cf; b_ep := b_ep s;
                        b_over := b_over s; b_last := b_last s; b_term := true; b_tr := e_tr e |})
        else
        match update fuel (b_prev s) (b_eta s) x (e_g e) gB cf bs c reset (e_tr e) with
        | None => inr BMore
        | Some (prev, eta, x, g, tr) =>
            let x := vsub x (vscale eta g) in                          (* 202 *)
            let tr := BStep x eta :: tr in
            let term := bc_stop cb tr in
            let v := vf_eval f (bshuffles tr) x cf c in
            let tr := BEval x cf c v :: tr in
            let term := term || bc_stop cb tr in
            let ov := nadd (b_over s) v in
            let i := b_i s + c in
            let cf := cf + c in
            if negb (cf mod n =? 0) then
              inl {| b_x := x; b_prev := prev; b_eta := eta; b_bs := bs; b_i := i; b_cf := cf; b_ep := b_ep s;
                     b_over := ov; b_last := b_last s; b_term := term; b_tr := tr |}
            else
            let tr := BEndEpoch (b_ep s) (ndiv ov (nofnat n)) :: tr in
            let term := term || bc_stop cb tr in
            let ep := S (b_ep s) in
            if nisnan ov || nisinf ov || nlt (nabs (nsub (b_last s) ov)) tolerance then
              inr (BConv {| b_x := x; b_prev := prev; b_eta := eta; b_bs := bs; b_i := i; b_cf := cf; b_ep := ep;
                            b_over := ov; b_last := b_last s; b_term := term; b_tr := tr |})
            else
            let tr := BBeginEpoch ep ov :: tr in
            let term := term || bc_stop cb tr in
            let go := negb (i =? amax) in                              (* 247-252 *)
            let tr' := if shuffle then BShuffle :: tr else tr in
            inl {| b_x := x; b_prev := prev; b_eta := eta; b_bs := bs; b_i := i; b_cf := if go then 0 else cf; b_ep := ep;
                   b_over := if go then n0 else ov; b_last := if go then ov else b_last s; b_term := term; b_tr := tr' |}
        end
    end.

  (** 267-281: the answers of the callbacks are ignored *)
  Fixpoint final_pass (fuel : nat) (x : list N) (bs i : nat) (acc : N) (tr : trace) : option (N * trace) :=
    if i <? n then
      match fuel with
      | O => None
      | S fuel =>
          let c := Nat.min bs (n - i) in
          let v := vf_eval f (bshuffles tr) x i c in
          final_pass fuel x bs (i + bs) (nadd acc v) (BEval x i c v :: tr)
      end
    else Some (acc, tr).

  Record bres : Type := { br_val : N; br_x : list N; br_tr : trace; br_conv : bool; br_bs : nat; br_eta : N; br_prev : list N }.

  (** 50-285; [bs], [eta] and [prev] are the members batchSize and stepSize and the policy's
      iteratePrev, which the call changes *)
  Definition bigbatch (fuel bs : nat) (eta : N) (prev x : list N) : outc bres :=
    let fin (s : bst) v c tr := Ret {| br_val := v; br_x := b_x s; br_tr := rev (BEnd (b_x s) :: tr); br_conv := c;
                                       br_bs := b_bs s; br_eta := b_eta s; br_prev := b_prev s |} in
    match loop (bbody fuel) fuel {| b_x := x; b_prev := prev; b_eta := eta; b_bs := bs; b_i := 0; b_cf := 0; b_ep := 1;
                                    b_over := n0; b_last := nmax; b_term := false; b_tr := [BBegin x] |} with
    | inl _ => More
    | inr BMore => More
    | inr BBad => Bad
    | inr (BConv s) => fin s (b_over s) true (b_tr s)
    | inr (BDone s) =>
        if exactObjective then
          match final_pass fuel (b_x s) (b_bs s) 0 n0 (b_tr s) with
          | None => More
          | Some (v, tr) => fin s v false tr
          end
        else fin s (b_over s) false (b_tr s)
    end.
End BB.
