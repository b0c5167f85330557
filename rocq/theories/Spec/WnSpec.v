(** How far WNGrad's step size adapts: the constants of the convergence theorem. *)
From Coq Require Import Reals.
Local Open Scope R_scope.

(** [gap]: how far the start lies above a lower bound of the objective; [L]: Lipschitz constant of
    the gradient; [a]: the initial B() divided by the step size.  No iterate lies further above the
    lower bound than this: *)
Definition wn_height (L a gap : R) : R := gap + L * L / (2 * a).
(** and B() divided by the step size never exceeds this: *)
Definition wn_cap (L a gap : R) : R :=
  let h := wn_height L a gap in a + L + 2 * L * h / a + 2 * (1 + 2 * h / L) * h.
