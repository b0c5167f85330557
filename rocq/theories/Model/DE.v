(** Model of ens::DE::Optimize (differential evolution, best/1/bin).
    File: /repo/include/ensmallen_bits/de/de_impl.hpp. *)
From Coq Require Import List Arith Bool ZArith.
From Verif.Base Require Import Num Vec.
From Verif.Model Require Import Common SA.
Import ListNotations.

(** arma's Col::min(): starts from +infinity and keeps what is strictly smaller. *)
Definition vmin {N : Num} (inf : N) (l : list N) : N :=
  fold_left (fun m v => if nlt v m then v else m) l inf.

(** do { v = randi(); } while (reject v); the stream of draws is [draws], [pos] the
    next position; None is "not finished after [fuel] draws" *)
Fixpoint draw_until (draws : nat -> nat) (reject : nat -> bool) (fuel pos : nat) : option (nat * nat) :=
  match fuel with
  | O => None
  | S k => if reject (draws pos) then draw_until draws reject k (S pos) else Some (draws pos, S pos)
  end.

Section DE.
  Context {N : Num}.
  Notation vec := (list N).
  Notation ev := (ev N vec vec).
  Variables (populationSize maxGenerations : nat) (crossoverRate weight tolerance inf : N).
  Variable f : vec -> N.
  Variable noise : nat -> vec.             (* randn of initial member i, 74 *)
  Variable draws : nat -> nat.             (* the stream of randi(), reduced to the population, 104 and 109 *)
  Variable unif : nat -> vec.              (* the randu<>(n_rows) of trial k, 118 *)
  Variable cb : CB N vec vec.
  Variable fuel : nat.
  Local Open Scope num_scope.

  Record dst : Type := {
    d_pop : list vec; d_fit : list N; d_last : N; d_best : option vec;   (* None: the empty matrix *)
    d_pos : nat; d_k : nat; d_tr : list ev
  }.

  (** 72-87 *)
  Fixpoint de_init (x : vec) (k : nat) (s : dst) (term : bool) : dst * bool :=
    match k with
    | O => (s, term)
    | S k' =>
        let y := vadd (noise (length (d_pop s))) x in
        let v := f y in
        let tr := Ev y v :: d_tr s in
        let b := nlt v (d_last s) in
        de_init x k'
          {| d_pop := d_pop s ++ [y]; d_fit := d_fit s ++ [v];
             d_last := if b then v else d_last s; d_best := if b then Some y else d_best s;
             d_pos := d_pos s; d_k := d_k s; d_tr := tr |} (term || cs_stop cb tr)
    end.

  (** 119-125: only the first n_rows elements take part in the crossover *)
  Fixpoint crossover (cr : vec) (mutant x : vec) : vec :=
    match cr, mutant, x with
    | c :: cr', a :: m', b :: x' => (if nle crossoverRate c then b else a) :: crossover cr' m' x'
    | _, _, _ => mutant
    end.

  (** 95-148, for members i, i+1, ..., [k] of them.  The boolean is [terminate]. *)
  Fixpoint de_members (k i : nat) (s : dst) (term : bool) : outc (dst * bool) :=
    match k with
    | O => Ret (s, term)
    | S k' =>
        match nth_error (d_pop s) i with
        | None => Bad
        | Some x =>
          match draw_until (fun p => draws p mod populationSize) (fun l => l =? i)%nat fuel (d_pos s) with
          | None => More
          | Some (l, p1) =>
            match draw_until (fun p => draws p mod populationSize) (fun m => (m =? i) && (m =? l))%nat fuel p1 with
            | None => More
            | Some (m, p2) =>
              match d_best s, nth_error (d_pop s) l, nth_error (d_pop s) m with
              | Some b, Some xl, Some xm =>
                  let mutant := vadd b (vscale weight (vsub xl xm)) in
                  let y := crossover (unif (d_k s)) mutant x in
                  let vx := f x in
                  let tr1 := Ev x vx :: d_tr s in
                  let vy := f y in
                  let tr2 := Ev y vy :: tr1 in
                  let t2 := term || cs_stop cb tr1 || cs_stop cb tr2 in
                  if t2 then Ret ({| d_pop := d_pop s; d_fit := d_fit s; d_last := d_last s; d_best := d_best s;
                                     d_pos := p2; d_k := S (d_k s); d_tr := tr2 |}, true)
                  else
                    let take := nlt vy vx in
                    let tr3 := if take then St y :: tr2 else tr2 in
                    de_members k' (S i)
                      {| d_pop := set_nth i (if take then y else x) (d_pop s);
                         d_fit := set_nth i (if take then vy else vx) (d_fit s);
                         d_last := d_last s; d_best := d_best s; d_pos := p2; d_k := S (d_k s); d_tr := tr3 |}
                      (if take then cs_stop cb tr3 else false)
              | _, _, _ => Bad                       (* empty bestElement: sizes do not match *)
              end
            end
          end
        end
    end.

  (** 160-167: the first member whose fitness equals the minimum *)
  Fixpoint first_eq (m : N) (fit : list N) (pop : list vec) (old : option vec) : option vec :=
    match fit, pop with
    | v :: fit', x :: pop' => if neq v m then Some x else first_eq m fit' pop' old
    | _, _ => old
    end.

  (** 91-168; [k] is the number of generations left *)
  Fixpoint de_generations (k : nat) (s : dst) (term : bool) : outc dst :=
    match k, term with
    | O, _ | _, true => Ret s
    | S k', false =>
        match de_members populationSize 0 s false with
        | Ret (s1, t1) =>
            let m := vmin inf (d_fit s1) in
            if nlt (nabs (d_last s1 - m)) tolerance then Ret s1
            else de_generations k'
                   {| d_pop := d_pop s1; d_fit := d_fit s1; d_last := m;
                      d_best := first_eq m (d_fit s1) (d_pop s1) (d_best s1);
                      d_pos := d_pos s1; d_k := d_k s1; d_tr := d_tr s1 |} t1
        | Bad => Bad
        | More => More
        end
    end.

  (** 37-174.  [None] is the logic_error of line 61; an empty final iterate is []. *)
  Definition de_optimize (x : vec) : option (outc (Res N vec vec)) :=
    if (populationSize <? 3)%nat then None
    else
      let '(s, t) := de_init x populationSize
                       {| d_pop := []; d_fit := []; d_last := nmax; d_best := None; d_pos := 0; d_k := 0; d_tr := [] |} false in
      let s1 := {| d_pop := d_pop s; d_fit := d_fit s; d_last := d_last s; d_best := d_best s;
                   d_pos := d_pos s; d_k := d_k s; d_tr := Begin x :: d_tr s |} in
      Some (match de_generations maxGenerations s1 t with
            | Ret s2 => let xf := match d_best s2 with Some b => b | None => [] end in
                        Ret {| o_val := d_last s2; o_x := xf; o_tr := rev (End xf :: d_tr s2) |}
            | Bad => Bad
            | More => More
            end).
End DE.
