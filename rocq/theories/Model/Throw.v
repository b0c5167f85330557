(** The order in which Optimize() calls the function and the callbacks and writes to the iterate,
    which is a reference to the caller's matrix.  These are the loops of Model/GradientDescent.v,
    CD.v, SPSA.v, SA.v, LBFGS.v, DE.v and Sgd.v again; they list the calls and the writes, oldest first. *)
From Coq Require Import List Arith Bool.
From Verif.Base Require Import Num Vec Loop Size.
From Verif.Model Require Import Common GradientDescent CD SPSA SA LBFGS DE Sgd.
From Verif.Spec Require Import ThrowSpec.
Import ListNotations.

(** gradient_descent/gradient_descent_impl.hpp 62 (iterate refers to iterateIn), 69-112 *)
Section GD.
  Context {N : Num}.
  Notation vec := (list N).
  Variable stepSize : N.
  Variable maxIterations : nat.
  Variable tolerance : N.
  Variable f : vec -> N * vec.
  Variable cb : CB N vec vec.
  Fixpoint gd_calls (fuel i : nat) (last : N) (term : bool) (x : vec) (tr : list (ev N vec vec)) : list (act vec (ev N vec vec)) :=
    if negb (negb (i =? bound maxIterations) && negb term) then [Cb (End x)]   (* 111 *)
    else
      match fuel with
      | O => []
      | S fuel' =>
          let '(v, g) := f x in
          let g' := cs_grad cb tr x v g in
          let tr1 := EvG x v g g' :: tr in
          let t1 := term || cs_stop cb tr1 in
          Fn x :: Cb (EvG x v g g') ::                                        (* 72-75 *)
          (if nisnan v || nisinf v then [Cb (End x)]                          (* 87 *)
           else if nlt (nabs (nsub last v)) tolerance then [Cb (End x)]       (* 96 *)
           else
             let x' := vsub x (vscale stepSize g') in
             let tr2 := St x' :: tr1 in
             Put x' :: Cb (St x') ::                                          (* 104-105 *)
             gd_calls fuel' (S i) v (t1 || cs_stop cb tr2) x' tr2)
      end.
  Definition gd_log (fuel : nat) (x : vec) : list (act vec (ev N vec vec)) :=
    Cb (Begin x) :: gd_calls fuel 1 nmax false x [Begin x].                   (* 69 *)
End GD.

(** cd/cd_impl.hpp 63, 70-132 *)
Section CD.
  Context {N : Num}.
  Notation mat := (list (list N)).
  Variable stepSize : N.
  Variable maxIterations : nat.
  Variable tolerance : N.
  Variable updateInterval : nat.
  Variable f : mat -> N.
  Variable pg : mat -> nat -> mat.
  Variable policy : nat -> mat -> option nat.
  Variable cb : CB N mat mat.
  Fixpoint cd_calls (fuel i : nat) (overall last : N) (term : bool) (x : mat) (tr : list (ev N mat mat)) : list (act mat (ev N mat mat)) :=
    if negb (negb (i =? bound maxIterations) && negb term) then [Fn x; Cb (Ev x (f x)); Cb (End x)]  (* 128-131 *)
    else
      match fuel with
      | O => []
      | S fuel' =>
          match policy i x with
          | None => []
          | Some j =>
              let g := pg x j in
              let g' := cs_grad cb tr x overall g in
              let tr1 := Gr x j g g' :: tr in
              Fn x :: Cb (Gr x j g g') ::                                     (* 79-82 *)
              (if term || cs_stop cb tr1 then [Fn x; Cb (Ev x (f x)); Cb (End x)]
               else if negb ((j <? length x) && (j <? length g')) then []
               else
                 let x' := sub_col j (vscale stepSize (nth j g' [])) x in
                 let tr2 := St x' :: tr1 in
                 let t2 := cs_stop cb tr2 in
                 Put x' :: Cb (St x') ::                                      (* 87-88 *)
                 (if updateInterval =? 0 then []
                  else if i mod updateInterval =? 0 then
                    let v := f x' in
                    let tr3 := Ev x' v :: tr2 in
                    let t3 := t2 || cs_stop cb tr3 in
                    Fn x' :: Cb (Ev x' v) ::                                  (* 93-95 *)
                    (if nisnan v || nisinf v || nlt (nabs (nsub last v)) tolerance then [Cb (End x')]
                     else cd_calls fuel' (S i) v v t3 x' tr3)
                  else cd_calls fuel' (S i) overall last t2 x' tr2))
          end
      end.
  Definition cd_log (fuel : nat) (x : mat) : list (act mat (ev N mat mat)) :=
    Cb (Begin x) :: cd_calls fuel 1 n0 nmax false x [Begin x].
End CD.

(** spsa/spsa_impl.hpp 65-131: the iterate itself is perturbed *)
Section SPSA.
  Context {N : Num}.
  Notation vec := (list N).
  Variables (alpha gamma stepSize evaluationStepSize ak : N).
  Variable maxIterations : nat.
  Variable tolerance : N.
  Variable pw : N -> N -> N.
  Variable f : vec -> N.
  Variable coin : nat -> list bool.
  Variable cb : CB N vec vec.
  Notation plus := (SPSA.plus gamma evaluationStepSize pw coin).
  Notation minus := (SPSA.minus gamma evaluationStepSize pw coin).
  Notation back := (SPSA.back gamma evaluationStepSize pw coin).
  Fixpoint spsa_calls (fuel k : nat) (overall last : N) (term : bool) (x : vec) (tr : list (ev N vec vec)) : list (act vec (ev N vec vec)) :=
    if negb ((k <? maxIterations) && negb term) then [Fn x; Cb (Ev x (f x)); Cb (End x)]    (* 127-130 *)
    else
      match fuel with
      | O => []
      | S fuel' =>
          if nisnan overall || nisinf overall then [Cb (End x)]
          else if nlt (nabs (nsub last overall)) tolerance then [Cb (End x)]
          else
            let fp := f (plus k x) in
            let tr1 := Ev (plus k x) fp :: tr in
            let t1 := term || cs_stop cb tr1 in
            let fm := f (minus k x) in
            let tr2 := Ev (minus k x) fm :: tr1 in
            let t2 := t1 || cs_stop cb tr2 in
            let x1 := back k x in
            Put (plus k x) :: Fn (plus k x) :: Cb (Ev (plus k x) fp) ::       (* 101-104 *)
            Put (minus k x) :: Fn (minus k x) :: Cb (Ev (minus k x) fm) ::    (* 106-109 *)
            Put x1 ::                                                         (* 111 *)
            (if t2 then [Fn x1; Cb (Ev x1 (f x1)); Cb (End x1)]
             else
               let x2 := vsub x1 (vscale (akl alpha stepSize ak pw k) (spsa_gradient gamma evaluationStepSize pw coin k fp fm)) in
               let tr3 := St x2 :: tr2 in
               let t3 := cs_stop cb tr3 in
               let v := f x2 in
               let tr4 := Ev x2 v :: tr3 in
               let t4 := t3 || cs_stop cb tr4 in
               Put x2 :: Cb (St x2) :: Fn x2 :: Cb (Ev x2 v) ::               (* 116-122 *)
               spsa_calls fuel' (S k) v overall t4 x2 tr4)
      end.
  Definition spsa_log (fuel : nat) (x : vec) : list (act vec (ev N vec vec)) :=
    Cb (Begin x) :: spsa_calls fuel 0 n0 nmax false x [Begin x].
End SPSA.

(** lbfgs/lbfgs_impl.hpp 371, 263-331, 400-496: trial points are kept in newIterateTmp *)
Section LBFGS.
  Context {N : Num}.
  Notation vec := (list N).
  Variables (numBasis maxIterations : nat) (armijo minGradientNorm wolfe factr minStep maxStep : N) (maxTrials : nat) (tol : N).
  Variables norm2 normF : vec -> N.
  Variable f : vec -> N * vec.
  Variable cb : CB N vec vec.
  (* 267-278 for each trial of a line search from [x] along [d] with the given step sizes *)
  Fixpoint ls_calls (x d : vec) (tr : list (ev N vec vec)) (trials : list N) : list (act vec (ev N vec vec)) :=
    match trials with
    | [] => []
    | step :: r =>
        let p := vadd x (vscale step d) in
        let '(v, g) := f p in
        Fn p :: (if nisnan v then [] else
                   let e := EvG p v g (cs_grad cb tr p v g) in Cb e :: ls_calls x d (e :: tr) r)
    end.
  Fixpoint lb_calls (fuel itNum : nat) (s y : list vec) (v : N) (x g : vec) (term : bool)
      (tr : list (ev N vec vec)) : list (act vec (ev N vec vec)) :=
    if negb (((maxIterations =? 0) || negb (itNum =? maxIterations)) && negb term) then [Cb (End x)]   (* 495 *)
    else
      match fuel with
      | O => []
      | S fuel' =>
          if nlt (norm2 g) minGradientNorm then [Cb (End x)]
          else if nisnan v then [Cb (End x)]
          else
            match choose_scaling numBasis tol normF itNum g s y with
            | None => []
            | Some gamma =>
                if neq gamma n0 then [Cb (End x)]
                else if negb (nfinite gamma) then [Cb (End x)]
                else
                  match search_direction numBasis g itNum gamma s y with
                  | None => []
                  | Some d =>
                      match line_search armijo wolfe minStep maxStep maxTrials f cb v x g d term tr with
                      | None => []
                      | Some l =>
                          let trials := map (fun t => fst (fst t)) (ls_trials l) in
                          let stop := (if ls_ok l then [Put (ls_x l)] else []) ++ [Cb (End (ls_x l))] in
                          ls_calls x d tr trials ++                           (* 461-462 *)
                          (if negb (ls_ok l) then stop
                           else if neq (ls_step l) n0 then stop
                           else
                             let denom := nmaxi (nmaxi (nabs v) (nabs (ls_val l))) n1 in
                             if nle (ndiv (nsub v (ls_val l)) denom) factr then stop
                             else
                               match update_basis numBasis itNum (ls_x l) x (ls_g l) g s y with
                               | None => [Put (ls_x l)]
                               | Some (s', y') =>
                                   let tr1 := St (ls_x l) :: ls_tr l in
                                   let t1 := ls_term l || cs_stop cb tr1 in
                                   Put (ls_x l) :: Cb (St (ls_x l)) ::        (* 330, 492 *)
                                   lb_calls fuel' (S itNum) s' y' (ls_val l) (ls_x l) (ls_g l) t1 tr1
                               end)
                      end
                  end
            end
      end.
  Definition lbfgs_log (fuel : nat) (term0 : bool) (s0 y0 : list vec) (x : vec) : list (act vec (ev N vec vec)) :=
    let '(v, g) := f x in
    let g' := cs_grad cb [] x v g in
    let tr1 := [EvG x v g g'] in
    let t1 := term0 || cs_stop cb tr1 in
    Fn x :: Cb (EvG x v g g') :: Cb (Begin x) :: lb_calls fuel 0 s0 y0 v x g' t1 (Begin x :: tr1).   (* 400-408 *)
End LBFGS.

(** sa/sa_impl.hpp 61, 70-128, 141-203: the move is made on the iterate itself *)
Section SA.
  Context {N : Num}.
  Notation vec := (list N).
  Variables (maxIterations initMoves moveCtrlSweep maxToleranceSweep : nat).
  Variables (tolerance maxMoveCoef initMoveCoef gain target : N).
  Variable next : N -> N -> N.
  Variables (lg ex : N -> N).
  Variable f : vec -> N.
  Variable rnd : nat -> N * N.
  Variable cb : CB N vec vec.
  Notation generate := (generate_move moveCtrlSweep maxMoveCoef gain target lg ex f rnd cb).
  (* 154-184 *)
  Definition move_calls (s : sst) : list (act vec (ev N vec vec)) :=
    match nth_error (sa_x s) (sa_idx s), nth_error (sa_size s) (sa_idx s), nth_error (sa_acc s) (sa_idx s) with
    | Some prev, Some size, Some a =>
        let '(u, xi) := rnd (sa_j s) in
        let y := set_nth (sa_idx s) (nadd prev (laplace lg size u)) (sa_x s) in
        let e := f y in
        let delta := nsub e (sa_e s) in
        let keep := nle delta n0 || nlt xi (ex (ndiv (nopp delta) (sa_t s))) in
        Put y :: Fn y :: Cb (Ev y e) :: (if keep then [] else [Put (set_nth (sa_idx s) prev y)])
    | _, _, _ => []
    end.
  Fixpoint init_calls (k : nat) (s : sst) (term : bool) : list (act vec (ev N vec vec)) :=
    match k with
    | O => []
    | S k' => move_calls s ++
              match generate s with
              | None => []
              | Some (s', t) => if term || t then [] else init_calls k' s' false
              end
    end.
  Fixpoint cooling_calls (k : nat) (s : sst) (term : bool) (frozen : nat) : list (act vec (ev N vec vec)) :=
    match k, term with
    | O, _ | _, true => [Cb (End (sa_x s))]
    | S k', false =>
        move_calls s ++
        match generate s with
        | None => []
        | Some (s1, true) => [Cb (End (sa_x s1))]
        | Some (s1, false) =>
            let tr := St (sa_x s1) :: sa_tr s1 in
            let term' := cs_stop cb tr in
            let t' := next (sa_t s1) (sa_e s1) in
            let s2 := {| sa_x := sa_x s1; sa_e := sa_e s1; sa_t := t'; sa_idx := sa_idx s1; sa_sweep := sa_sweep s1;
                         sa_acc := sa_acc s1; sa_size := sa_size s1; sa_j := sa_j s1; sa_tr := tr |} in
            let fr := if nlt (nabs (nsub (sa_e s1) (sa_e s))) tolerance then S frozen else 0%nat in
            Cb (St (sa_x s1)) ::                                              (* 102 *)
            (if (maxToleranceSweep * moveCtrlSweep * length (sa_x s1) <=? fr)%nat
             then [Cb (End (sa_x s1))] else cooling_calls k' s2 term' fr)
        end
    end.
  Definition sa_log (t0 : N) (x : vec) : list (act vec (ev N vec vec)) :=
    let e := f x in
    let tr1 := [Ev x e] in
    let term := cs_stop cb tr1 in
    let s := {| sa_x := x; sa_e := e; sa_t := t0; sa_idx := 0; sa_sweep := 0;
                sa_acc := map (fun _ => n0) x; sa_size := map (fun _ => initMoveCoef) x;
                sa_j := 0; sa_tr := Begin x :: tr1 |} in
    Fn x :: Cb (Ev x e) :: Cb (Begin x) ::                                    (* 70-83 *)
    init_calls initMoves s term ++
    match init_moves moveCtrlSweep maxMoveCoef gain target lg ex f rnd cb initMoves s term with
    | None => []
    | Some (s1, t1) => cooling_calls maxIterations s1 t1 0
    end.
End SA.

(** sgd/sgd_impl.hpp 87 (iterate refers to iterateIn), 127-231.  [Cb Shuffled] is the call of the
    function's Shuffle(); [Fn] is EvaluateWithGradient() or Evaluate(). *)
Section SGD.
  Context {N : Num} {X G U D : Type}.
  Variable c : Cfg N X G U D.
  Variable f : SepFun N X G.
  Variable cb : Callbacks N X G.
  (* 166-206; [s] as in [epoch_end] *)
  Definition epoch_calls (s : st N X G U D) : list (act X (event N X G)) :=
    let ep := S (s_epoch s) in
    Cb (EndEpoch (s_x s) (s_epoch s) (ndiv (s_overall s) (nofnat (sf_num f)))) ::       (* 168 *)
    (if nisnan (s_overall s) || nisinf (s_overall s) then []
     else if nlt (nabs (nsub (s_last s) (s_overall s))) (c_tol c) then []
     else Cb (BeginEpoch (s_x s) ep (s_overall s)) ::                                    (* 193 *)
          (if c_shuffle c then [Cb Shuffled] else [])).                                  (* 204-205 *)
  (* 130-207 *)
  Definition body_calls (s : st N X G U D) : list (act X (event N X G)) :=
    if negb ((s_i s <? actual_max c) && negb (s_term s)) then [] else
    let k := effective_batch c f s in
    let '(obj, g) := sf_evalgrad f (s_shuf s) (s_x s) (s_cf s) k in
    let tr1 := EvalGrad (s_x s) (s_cf s) k obj g :: s_tr s in
    let t1 := ask cb (s_term s) tr1 in
    let g' := cb_grad cb tr1 g in
    let '(u', x') := c_up c (s_u s) (s_x s) (s_step s) g' in
    let tr2 := Step x' :: tr1 in
    let t2 := ask cb t1 tr2 in
    let '(d', step') := c_dp c (s_d s) x' (s_step s) g' in
    let s' := {| s_i := s_i s + k; s_cf := s_cf s + k;
                 s_epoch := s_epoch s; s_overall := nadd (s_overall s) obj; s_last := s_last s;
                 s_term := t2; s_x := x'; s_u := u'; s_d := d'; s_step := step';
                 s_shuf := s_shuf s; s_tr := tr2 |} in
    Fn (s_x s) :: Cb (EvalGrad (s_x s) (s_cf s) k obj g) ::                              (* 145-149 *)
    Put x' :: Cb (Step x') ::                                                            (* 153-156 *)
    (if sf_num f =? 0 then [] else if (s_cf s' mod sf_num f) =? 0 then epoch_calls s' else []).
  Fixpoint sgd_calls (fuel : nat) (s : st N X G U D) : list (act X (event N X G)) :=
    match fuel with
    | O => []
    | S k => body_calls s ++ match body c f cb s with inl s' => sgd_calls k s' | inr _ => [] end
    end.
  (* 218-228 *)
  Fixpoint exact_calls (fuel shuf : nat) (x : X) (i : nat) : list (act X (event N X G)) :=
    if i <? sf_num f then
      match fuel with
      | O => []
      | S fuel' =>
          let k := Nat.min (c_batch c) (sf_num f - i) in
          Fn x :: Cb (Eval x i k (sf_eval f shuf x i k)) :: exact_calls fuel' shuf x (i + c_batch c)
      end
    else [].
  Definition sgd_log (fuel : nat) (u : U) (d : D) (step : N) (x : X) : list (act X (event N X G)) :=
    Cb (BeginOpt x) :: Cb (BeginEpoch x 1 n0) ::                                         (* 127-129 *)
    sgd_calls fuel (init cb x u d step) ++
    match loop (body c f cb) fuel (init cb x u d step) with
    | inl _ | inr Xub => []
    | inr (Xret s) => [Cb (EndOpt (s_x s))]                                              (* 180, 189 *)
    | inr (Xloop s) =>
        (if c_exact c then exact_calls fuel (s_shuf s) (s_x s) 0 else []) ++
        (if c_exact c then match exact_loop c f fuel (s_shuf s) (s_x s) 0 n0 (s_tr s) with None => [] | Some _ => [Cb (EndOpt (s_x s))] end
         else [Cb (EndOpt (s_x s))])                                                     (* 230 *)
    end.
End SGD.

(** de/de_impl.hpp 57-173: the iterate holds the member that is being replaced *)
Section DE.
  Context {N : Num}.
  Notation vec := (list N).
  Notation acts := (list (act vec (ev N vec vec))).
  Variables (populationSize maxGenerations : nat) (crossoverRate weight tolerance inf : N).
  Variable f : vec -> N.
  Variable noise : nat -> vec.
  Variable draws : nat -> nat.
  Variable unif : nat -> vec.
  Variable cb : CB N vec vec.
  Variable fuel : nat.
  Notation dst := (dst (N := N)).
  (* 74-79; [i] members exist already *)
  Fixpoint de_init_calls (x : vec) (k i : nat) : acts :=
    match k with
    | O => []
    | S k' => let y := vadd (noise i) x in Fn y :: Cb (Ev y (f y)) :: de_init_calls x k' (S i)
    end.
  (* 95-148 *)
  Fixpoint de_member_calls (k i : nat) (s : dst) (term : bool) : acts :=
    match k with
    | O => []
    | S k' =>
        match nth_error (d_pop s) i with
        | None => []
        | Some x =>
          Put x ::                                                            (* 97 *)
          match draw_until (fun p => draws p mod populationSize) (fun l => l =? i)%nat fuel (d_pos s) with
          | None => []
          | Some (l, p1) =>
            match draw_until (fun p => draws p mod populationSize) (fun m => (m =? i) && (m =? l))%nat fuel p1 with
            | None => []
            | Some (m, p2) =>
              match d_best s, nth_error (d_pop s) l, nth_error (d_pop s) m with
              | Some b, Some xl, Some xm =>
                  let mutant := vadd b (vscale weight (vsub xl xm)) in
                  let y := crossover crossoverRate (unif (d_k s)) mutant x in
                  let vx := f x in
                  let tr1 := Ev x vx :: d_tr s in
                  let vy := f y in
                  let tr2 := Ev y vy :: tr1 in
                  let t2 := term || cs_stop cb tr1 || cs_stop cb tr2 in
                  Fn x :: Cb (Ev x vx) :: Fn y :: Cb (Ev y vy) ::              (* 127-133 *)
                  (if t2 then []
                   else
                     let take := nlt vy vx in
                     let tr3 := if take then St y :: tr2 else tr2 in
                     (if take then [Put y; Cb (St y)] else []) ++             (* 141-145 *)
                     de_member_calls k' (S i)
                       {| d_pop := set_nth i (if take then y else x) (d_pop s);
                          d_fit := set_nth i (if take then vy else vx) (d_fit s);
                          d_last := d_last s; d_best := d_best s; d_pos := p2; d_k := S (d_k s); d_tr := tr3 |}
                       (if take then cs_stop cb tr3 else false))
              | _, _, _ => []
              end
            end
          end
        end
    end.
  (* 92-168 *)
  Fixpoint de_gen_calls (k : nat) (s : dst) (term : bool) : acts :=
    match k, term with
    | O, _ | _, true => []
    | S k', false =>
        de_member_calls populationSize 0 s false ++
        match de_members populationSize crossoverRate weight f draws unif cb fuel populationSize 0 s false with
        | Ret (s1, t1) =>
            let m := vmin inf (d_fit s1) in
            if nlt (nabs (nsub (d_last s1) m)) tolerance then []
            else de_gen_calls k'
                   {| d_pop := d_pop s1; d_fit := d_fit s1; d_last := m;
                      d_best := first_eq m (d_fit s1) (d_pop s1) (d_best s1);
                      d_pos := d_pos s1; d_k := d_k s1; d_tr := d_tr s1 |} t1
        | _ => []
        end
    end.
  Definition de_log (x : vec) : acts :=
    if (populationSize <? 3)%nat then []
    else
      let '(s, t) := de_init f noise cb x populationSize
                       {| d_pop := []; d_fit := []; d_last := nmax; d_best := None; d_pos := 0; d_k := 0; d_tr := [] |} false in
      let s1 := {| d_pop := d_pop s; d_fit := d_fit s; d_last := d_last s; d_best := d_best s;
                   d_pos := d_pos s; d_k := d_k s; d_tr := Begin x :: d_tr s |} in
      de_init_calls x populationSize 0 ++ Cb (Begin x) :: de_gen_calls maxGenerations s1 t ++
      match de_generations populationSize crossoverRate weight tolerance inf f draws unif cb fuel maxGenerations s1 t with
      | Ret s2 => let xf := match d_best s2 with Some b => b | None => [] end in [Put xf; Cb (End xf)]   (* 170-172 *)
      | _ => []
      end.
End DE.
