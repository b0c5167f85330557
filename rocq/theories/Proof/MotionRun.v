(** Gradient descent and L-BFGS on the image of a function do the image of what they do on the
    function. *)
From Coq Require Import List Arith Bool Lia.
From Verif.Base Require Import Num Vec Size.
From Verif.Model Require Import Common GradientDescent SA LBFGS.
From Verif.Spec Require Import MotionSpec.
Import ListNotations.

Section GD.
  Context {N : Num}.
  Notation vec := (list N).
  Variables (M Q : vec -> vec) (PX PG : vec -> Prop) (h : N).
  Hypothesis Hstep : forall x g, PX x -> PG g -> PX (vsub x (vscale h g)) /\ M (vsub x (vscale h g)) = vsub (M x) (vscale h (Q g)).
  Variables (max : nat) (tol : N) (f f' : vec -> N * vec) (cb cb' : CB N vec vec).
  Hypothesis Hf : forall x, PX x -> PG (snd (f x)) /\ f' (M x) = (fst (f x), Q (snd (f x))).
  Hypothesis Hcb : image_cb M Q PG cb cb'.
  Notation E := (image_ev M Q).

  Lemma gd_loop_image : forall fuel i ov last term x tr, PX x ->
    match gd_loop h max tol f cb fuel i ov last term x tr, gd_loop h max tol f' cb' fuel i ov last term (M x) (map E tr) with
    | Some r, Some r' => image_res M Q r r' | None, None => True | _, _ => False end.
  Proof.
    assert (done : forall v x tr, image_res M Q (gd_done v x tr) (gd_done v (M x) (map E tr))).
    { intros. split; [reflexivity|]. split; [reflexivity|]. unfold gd_done. cbn [o_tr]. rewrite map_rev. reflexivity. }
    destruct Hcb as [Cs Cg].
    induction fuel as [|n IH]; intros i ov last term x tr Px; cbn [gd_loop];
      destruct (negb (negb (i =? bound max) && negb term)); try apply done; [exact I|].
    destruct (Hf x Px) as [Pg Ef]. rewrite Ef. destruct (f x) as [v g]. cbn [fst snd] in *.
    destruct (Cg tr x v g Pg) as [Pg' Eg]. rewrite Eg. set (g' := cs_grad cb tr x v g) in *.
    change (EvG (M x) v (Q g) (Q g') :: map E tr) with (map E (EvG x v g g' :: tr)). rewrite Cs.
    destruct (nisnan v || nisinf v); [apply done|]. destruct (nlt (nabs (nsub last v)) tol); [apply done|].
    destruct (Hstep x g' Px Pg') as [Px' Ex]. rewrite <- Ex. set (x' := vsub x (vscale h g')) in *.
    change (St (M x') :: map E (EvG x v g g' :: tr)) with (map E (St x' :: EvG x v g g' :: tr)). rewrite Cs.
    apply IH. exact Px'.
  Qed.
  Lemma gd_image fuel x : PX x ->
    match gd h max tol f cb fuel x, gd h max tol f' cb' fuel (M x) with
    | Some r, Some r' => image_res M Q r r' | None, None => True | _, _ => False end.
  Proof. intros Px. apply (gd_loop_image fuel 1 nmax nmax false x [Begin x] Px). Qed.
End GD.

Section LB.
  Context {N : Num}.
  Notation vec := (list N).
  Variables (n : nat) (M Q : vec -> vec).
  Notation len v := (length v = n).
  Hypothesis mo_step : forall x a d, len x -> len d -> M (vadd x (vscale a d)) = vadd (M x) (vscale a (Q d)).
  Hypothesis mo_diff : forall x y, len x -> len y -> vsub (M x) (M y) = Q (vsub x y).
  Hypothesis mo_qdiff : forall x y, len x -> len y -> vsub (Q x) (Q y) = Q (vsub x y).
  Hypothesis mo_add : forall u a v, len u -> len v -> Q (vadd u (vscale a v)) = vadd (Q u) (vscale a (Q v)).
  Hypothesis mo_sub : forall u a v, len u -> len v -> Q (vsub u (vscale a v)) = vsub (Q u) (vscale a (Q v)).
  Hypothesis mo_times : forall a d, len d -> Q (vtimes d a) = vtimes (Q d) a.
  Hypothesis mo_dot : forall u v, len u -> len v -> vdot (Q u) (Q v) = vdot u v.
  Variables (nb max : nat) (armijo mgn wolfe factr minStep maxStep : N) (maxTrials : nat) (tol : N).
  Variables (norm2 normF : vec -> N) (f f' : vec -> N * vec) (cb cb' : CB N vec vec).
  Hypothesis Hn2 : forall g, len g -> norm2 (Q g) = norm2 g.
  Hypothesis HnF : forall g, len g -> normF (Q g) = normF g.
  Hypothesis Hf : forall x, len x -> len (snd (f x)) /\ f' (M x) = (fst (f x), Q (snd (f x))).
  Hypothesis Hcb : image_cb M Q (fun g => len g) cb cb'.
  Notation E := (image_ev M Q).

  Lemma len_add (u : vec) (a : N) (v : vec) : len u -> len v -> len (vadd u (vscale a v)).
  Proof. intros A B. unfold vadd, vscale. rewrite map2_length, map_length. lia. Qed.
  Lemma len_subs (u : vec) (a : N) (v : vec) : len u -> len v -> len (vsub u (vscale a v)).
  Proof. intros A B. unfold vsub, vscale. rewrite map2_length, map_length. lia. Qed.
  Lemma len_sub (u v : vec) : len u -> len v -> len (vsub u v).
  Proof. intros A B. unfold vsub. rewrite map2_length. lia. Qed.
  Lemma len_times (a : N) (v : vec) : len v -> len (vtimes v a).
  Proof. intros A. unfold vtimes. now rewrite map_length. Qed.

  (** the first [it] pairs have been stored, in slots modulo [nb] *)
  Definition stored (it : nat) (s s' : list vec) : Prop :=
    length s' = length s /\
    forall j v, j < it -> nth_error s (j mod nb) = Some v -> len v /\ nth_error s' (j mod nb) = Some (Q v).

  Lemma stored_none it s s' j : stored it s s' -> nth_error s j = None -> nth_error s' j = None.
  Proof. intros [L _] H. apply nth_error_None in H. apply nth_error_None. lia. Qed.

  Lemma scaling_image it g s y s' y' : len g -> stored it s s' -> stored it y y' ->
    choose_scaling nb tol normF it (Q g) s' y' = choose_scaling nb tol normF it g s y.
  Proof.
    intros Lg Hs Hy. unfold choose_scaling. destruct it as [|k]; [now rewrite HnF|].
    destruct (nb =? 0); [reflexivity|].
    destruct (nth_error s (k mod nb)) as [sm|] eqn:Es; [|rewrite (stored_none _ _ _ _ Hs Es); reflexivity].
    destruct (proj2 Hs k sm (Nat.lt_succ_diag_r k) Es) as [Ls ->].
    destruct (nth_error y (k mod nb)) as [ym|] eqn:Ey; [|rewrite (stored_none _ _ _ _ Hy Ey); reflexivity].
    destruct (proj2 Hy k ym (Nat.lt_succ_diag_r k) Ey) as [Ly ->].
    now rewrite !mo_dot.
  Qed.

  Lemma loop1_image s y s' y' it : stored it s s' -> stored it y y' -> forall cnt limit d rho alpha, limit + cnt <= it -> len d ->
    match sd_loop1 nb s y it limit cnt d rho alpha, sd_loop1 nb s' y' it limit cnt (Q d) rho alpha with
    | Some (d1, r, a), Some (d1', r', a') => len d1 /\ d1' = Q d1 /\ r' = r /\ a' = a
    | None, None => True | _, _ => False end.
  Proof.
    intros Hs Hy. induction cnt as [|c IH]; intros limit d rho alpha Hc Ld; cbn [sd_loop1]; [auto|].
    destruct (nb =? 0) eqn:B; [exact I|]. apply Nat.eqb_neq in B.
    assert (P : (limit + S c + (nb - 1)) mod nb = (limit + c) mod nb).
    { replace (limit + S c + (nb - 1)) with (limit + c + 1 * nb) by lia. apply Nat.mod_add. exact B. }
    rewrite P.
    destruct (nth_error s ((limit + c) mod nb)) as [sm|] eqn:Es; [|rewrite (stored_none _ _ _ _ Hs Es); exact I].
    destruct (proj2 Hs (limit + c) sm ltac:(lia) Es) as [Ls ->].
    destruct (nth_error y ((limit + c) mod nb)) as [ym|] eqn:Ey; [|rewrite (stored_none _ _ _ _ Hy Ey); exact I].
    destruct (proj2 Hy (limit + c) ym ltac:(lia) Ey) as [Ly ->].
    rewrite !mo_dot by assumption.
    destruct ((it - (limit + S c) <? length rho) && (it - (limit + S c) <? length alpha)); [|exact I].
    rewrite <- mo_sub by assumption. apply IH; [lia|]. apply len_subs; assumption.
  Qed.

  Lemma loop2_image s y s' y' it rho alpha : stored it s s' -> stored it y y' -> forall cnt i d, i + cnt <= it -> len d ->
    match sd_loop2 nb s y it i cnt rho alpha d, sd_loop2 nb s' y' it i cnt rho alpha (Q d) with
    | Some d1, Some d1' => len d1 /\ d1' = Q d1 | None, None => True | _, _ => False end.
  Proof.
    intros Hs Hy. induction cnt as [|c IH]; intros i d Hc Ld; cbn [sd_loop2]; [auto|].
    destruct (nb =? 0) eqn:B; [exact I|].
    destruct (nth_error s (i mod nb)) as [sm|] eqn:Es; [|rewrite (stored_none _ _ _ _ Hs Es); exact I].
    destruct (proj2 Hs i sm ltac:(lia) Es) as [Ls ->].
    destruct (nth_error y (i mod nb)) as [ym|] eqn:Ey; [|rewrite (stored_none _ _ _ _ Hy Ey); exact I].
    destruct (proj2 Hy i ym ltac:(lia) Ey) as [Ly ->].
    destruct (nth_error rho (it - i - 1)) as [r|]; [|exact I]. destruct (nth_error alpha (it - i - 1)) as [a|]; [|exact I].
    rewrite mo_dot by assumption. rewrite <- mo_add by assumption. apply IH; [lia|]. apply len_add; assumption.
  Qed.

  Lemma direction_image g it gamma s y s' y' : len g -> stored it s s' -> stored it y y' ->
    match search_direction nb g it gamma s y, search_direction nb (Q g) it gamma s' y' with
    | Some d, Some d' => len d /\ d' = Q d | None, None => True | _, _ => False end.
  Proof.
    intros Lg Hs Hy. unfold search_direction. set (limit := if it <? nb then 0 else it - nb).
    assert (Lim : limit <= it) by (unfold limit; destruct (it <? nb); lia).
    pose proof (loop1_image s y s' y' it Hs Hy (it - limit) limit g (repeat n0 nb) (repeat n0 nb) ltac:(lia) Lg) as L1.
    destruct (sd_loop1 nb s y it limit (it - limit) g (repeat n0 nb) (repeat n0 nb)) as [[[d1 r] a]|],
      (sd_loop1 nb s' y' it limit (it - limit) (Q g) (repeat n0 nb) (repeat n0 nb)) as [[[d1' r'] a']|]; try contradiction; [|exact I].
    destruct L1 as (Ld & -> & -> & ->).
    pose proof (loop2_image s y s' y' it r a Hs Hy (it - limit) limit (vtimes d1 gamma) ltac:(lia) (len_times _ _ Ld)) as L2.
    rewrite mo_times in L2 by exact Ld.
    destruct (sd_loop2 nb s y it limit (it - limit) r a (vtimes d1 gamma)) as [d2|],
      (sd_loop2 nb s' y' it limit (it - limit) r a (vtimes (Q d1) gamma)) as [d2'|]; try contradiction; [|exact I].
    destruct L2 as (Ld2 & ->). split; [now apply len_times|]. symmetry. now apply mo_times.
  Qed.

  Lemma nth_error_set (v : vec) : forall l j, nth_error (set_nth j v l) j = if j <? length l then Some v else None.
  Proof.
    intros l j. destruct (j <? length l) eqn:B.
    - apply Nat.ltb_lt in B. revert j B. induction l as [|a l IH]; intros [|j] B; cbn in *; try lia; [reflexivity|]. apply IH. lia.
    - apply Nat.ltb_ge in B. revert j B. induction l as [|a l IH]; intros [|j] B; cbn in *; try lia; try reflexivity. apply IH. lia.
  Qed.
  Lemma nth_error_set_ne (v : vec) : forall l i j, i <> j -> nth_error (set_nth j v l) i = nth_error l i.
  Proof. induction l as [|a l IH]; intros [|i] [|j] B; cbn; try reflexivity; try congruence. apply IH. congruence. Qed.
  Lemma length_set (v : vec) : forall l j, length (set_nth j v l) = length l.
  Proof. induction l as [|a l IH]; intros [|j]; cbn; auto. Qed.

  Lemma stored_set it s s' v : nb <> 0 -> stored it s s' -> len v ->
    stored (S it) (set_nth (it mod nb) v s) (set_nth (it mod nb) (Q v) s').
  Proof.
    intros B [L H] Lv. split; [rewrite !length_set; exact L|]. intros j w Hj E0.
    destruct (Nat.eq_dec (j mod nb) (it mod nb)) as [e|e].
    - rewrite e, nth_error_set in *. rewrite L. destruct (it mod nb <? length s); [|discriminate]. injection E0 as <-. auto.
    - rewrite nth_error_set_ne in * by exact e. apply H; [|exact E0]. assert (j <> it) by congruence. lia.
  Qed.

  Lemma basis_image it x x0 g g0 s y s' y' : len x -> len x0 -> len g -> len g0 -> stored it s s' -> stored it y y' ->
    match update_basis nb it x x0 g g0 s y, update_basis nb it (M x) (M x0) (Q g) (Q g0) s' y' with
    | Some (s1, y1), Some (s1', y1') => stored (S it) s1 s1' /\ stored (S it) y1 y1' | None, None => True | _, _ => False end.
  Proof.
    intros Lx Lx0 Lg Lg0 Hs Hy. unfold update_basis. destruct (nb =? 0) eqn:B; [exact I|]. apply Nat.eqb_neq in B.
    rewrite (proj1 Hs), (proj1 Hy). destruct ((it mod nb <? length s) && (it mod nb <? length y)); [|exact I].
    rewrite mo_diff, mo_qdiff by assumption. split; apply stored_set; auto; now apply len_sub.
  Qed.

  Definition image_ls (l l' : LS (N := N)) : Prop :=
    ls_ok l' = ls_ok l /\ ls_val l' = ls_val l /\ ls_x l' = M (ls_x l) /\ ls_g l' = Q (ls_g l) /\
    ls_step l' = ls_step l /\ ls_term l' = ls_term l /\ ls_tr l' = map E (ls_tr l) /\ len (ls_x l) /\ len (ls_g l).
  Definition image_opt (o o' : option (LS (N := N))) : Prop :=
    match o, o' with Some l, Some l' => image_ls l l' | None, None => True | _, _ => False end.

  Lemma ls_loop_image : forall fuel k x d f0 slope lin step best obj term trials trials' tr, len x -> len d ->
    image_opt (ls_loop wolfe minStep maxStep maxTrials f cb fuel k x d f0 slope lin step best obj term trials tr)
      (ls_loop wolfe minStep maxStep maxTrials f' cb' fuel k (M x) (Q d) f0 slope lin step best obj term trials' (map E tr)).
  Proof.
    destruct Hcb as [Cs Cg].
    induction fuel as [|m IH]; intros k x d f0 slope lin step best obj term trials trials' tr Lx Ld; cbn [ls_loop]; [exact I|].
    rewrite <- mo_step by assumption. set (p := vadd x (vscale step d)).
    assert (Lp : len p) by (apply len_add; assumption).
    destruct (Hf p Lp) as [Lg Ef]. rewrite Ef. destruct (f p) as [v g]. cbn [fst snd] in *.
    destruct (nisnan v); [repeat split; assumption|].
    destruct (Cg tr p v g Lg) as [Lg' Eg]. rewrite Eg. set (g' := cs_grad cb tr p v g) in *.
    change (EvG (M p) v (Q g) (Q g') :: map E tr) with (map E (EvG p v g g' :: tr)). rewrite Cs.
    rewrite mo_dot by assumption. set (best' := if nlt v obj then step else best).
    match goal with |- image_opt (match ?w with Some _ => _ | None => ?dn end) (match ?w with Some _ => _ | None => ?dn' end) =>
      assert (D : image_opt dn dn'); [|destruct w as [w0|]; [|exact D]] end.
    { repeat split; try assumption; cbn [ls_x]; [symmetry; now apply mo_step|]. now apply len_add. }
    destruct (nlt step minStep || nlt maxStep step || (maxTrials <=? S k)); [exact D|]. apply IH; assumption.
  Qed.

  Lemma search_image v0 x g d term tr : len x -> len g -> len d ->
    image_opt (line_search armijo wolfe minStep maxStep maxTrials f cb v0 x g d term tr)
      (line_search armijo wolfe minStep maxStep maxTrials f' cb' v0 (M x) (Q g) (Q d) term (map E tr)).
  Proof.
    intros Lx Lg Ld. unfold line_search. rewrite mo_dot by assumption. destruct (nlt n0 (vdot g d) || negb (nfinite (vdot g d))).
    - repeat split; assumption.
    - now apply ls_loop_image.
  Qed.

  Notation image_out := (image_out M Q).
  Lemma done_image v x term tr : image_out (lb_done v x term tr) (lb_done v (M x) term (map E tr)).
  Proof. split; [|reflexivity]. split; [reflexivity|]. split; [reflexivity|]. cbn [o_tr]. rewrite map_rev. reflexivity. Qed.

  Lemma lb_loop_image : forall fuel it s y s' y' v x g term tr, len x -> len g -> stored it s s' -> stored it y y' ->
    image_out (lb_loop nb max armijo mgn wolfe factr minStep maxStep maxTrials tol norm2 normF f cb fuel it s y v x g term tr)
      (lb_loop nb max armijo mgn wolfe factr minStep maxStep maxTrials tol norm2 normF f' cb' fuel it s' y' v (M x) (Q g) term (map E tr)).
  Proof.
    pose proof Hcb as [Cs _].
    induction fuel as [|m IH]; intros it s y s' y' v x g term tr Lx Lg Hs Hy; cbn [lb_loop];
      destruct (negb (((max =? 0) || negb (it =? max)) && negb term)); try apply done_image; [exact I|].
    rewrite Hn2 by exact Lg. destruct (nlt (norm2 g) mgn); [apply done_image|]. destruct (nisnan v); [apply done_image|].
    rewrite (scaling_image it g s y s' y' Lg Hs Hy). destruct (choose_scaling nb tol normF it g s y) as [gamma|]; [|exact I].
    destruct (neq gamma n0); [apply done_image|]. destruct (negb (nfinite gamma)); [apply done_image|].
    pose proof (direction_image g it gamma s y s' y' Lg Hs Hy) as Di.
    destruct (search_direction nb g it gamma s y) as [d|], (search_direction nb (Q g) it gamma s' y') as [d'|]; try contradiction; [|exact I].
    destruct Di as [Ld ->]. pose proof (search_image v x g d term tr Lx Lg Ld) as Se.
    destruct (line_search armijo wolfe minStep maxStep maxTrials f cb v x g d term tr) as [l|],
      (line_search armijo wolfe minStep maxStep maxTrials f' cb' v (M x) (Q g) (Q d) term (map E tr)) as [l'|]; try contradiction; [|exact I].
    destruct Se as (-> & -> & -> & -> & -> & -> & -> & Lx' & Lg').
    destruct (negb (ls_ok l)); [apply done_image|]. destruct (neq (ls_step l) n0); [apply done_image|].
    match goal with |- image_out (if ?b then _ else _) _ => destruct b; [apply done_image|] end.
    pose proof (basis_image it (ls_x l) x (ls_g l) g s y s' y' Lx' Lx Lg' Lg Hs Hy) as Ba.
    destruct (update_basis nb it (ls_x l) x (ls_g l) g s y) as [[s1 y1]|],
      (update_basis nb it (M (ls_x l)) (M x) (Q (ls_g l)) (Q g) s' y') as [[s1' y1']|]; try contradiction; [|exact I].
    destruct Ba as [Hs1 Hy1].
    change (St (M (ls_x l)) :: map E (ls_tr l)) with (map E (St (ls_x l) :: ls_tr l)). rewrite Cs.
    apply IH; assumption.
  Qed.

  Lemma lbfgs_image fuel term s0 y0 s0' y0' x : len x -> length s0' = length s0 -> length y0' = length y0 ->
    image_out (lbfgs nb max armijo mgn wolfe factr minStep maxStep maxTrials tol norm2 normF f cb fuel term s0 y0 x)
      (lbfgs nb max armijo mgn wolfe factr minStep maxStep maxTrials tol norm2 normF f' cb' fuel term s0' y0' (M x)).
  Proof.
    intros Lx A B. unfold lbfgs. destruct (Hf x Lx) as [Lg Ef]. rewrite Ef. destruct (f x) as [v g]. cbn [fst snd] in *.
    destruct (proj2 Hcb [] x v g Lg) as [Lg' Eg]. change (map E []) with (@nil (ev N vec vec)) in Eg. rewrite Eg. set (g' := cs_grad cb [] x v g) in *.
    change [EvG (M x) v (Q g) (Q g')] with (map E [EvG x v g g']). rewrite (proj1 Hcb).
    change (Begin (M x) :: map E [EvG x v g g']) with (map E [Begin x; EvG x v g g']).
    apply lb_loop_image; try assumption; split; try assumption; intros; lia.
  Qed.
End LB.
