(** Model of ens::Function and its mixins.
    Files: /repo/include/ensmallen_bits/function.hpp (57-130), function/add_*.hpp,
    function/add_separable_*.hpp, function/traits.hpp (311-378).

    A user class may supply Evaluate, Gradient and EvaluateWithGradient, each as a
    non-const, const or static member.  [A] are the arguments: the coordinates, or
    the coordinates with begin and batchSize for the separable versions (the two
    families of mixins have the same structure).  Simplifications: the methods are
    functions of their arguments, each is supplied in at most one form, and the
    gradient is a result rather than an output reference. *)
Inductive form : Type := NonConst | Const | Static.

Definition form_eqb (a b : form) : bool :=
  match a, b with NonConst, NonConst | Const, Const | Static, Static => true | _, _ => false end.

Record User (A V G : Type) : Type := {
  u_eval : option (form * (A -> V));
  u_grad : option (form * (A -> G));
  u_ewg : option (form * (A -> V * G))
}.
Arguments u_eval {A V G}. Arguments u_grad {A V G}. Arguments u_ewg {A V G}.

Definition supplied {M : Type} (o : option (form * M)) (k : form) : option M :=
  match o with Some (k', m) => if form_eqb k k' then Some m else None | None => None end.

(** Overload resolution of a call on a non-const ([cst = false]) or const object:
    [ov k] is the overload of form [k].  A non-const member is preferred on a
    non-const object and not viable on a const one; a static member next to a
    viable non-static one is ambiguous. [None]: the call does not compile. *)
Definition resolve {M : Type} (cst : bool) (ov : form -> option M) : option M :=
  match (if cst then None else ov NonConst), ov Const, ov Static with
  | Some m, _, None => Some m
  | None, Some m, None => Some m
  | None, None, Some m => Some m
  | _, _, _ => None
  end.

Section Mixins.
  Context {A V G : Type}.
  Variable u : User A V G.

  (* add_evaluate.hpp: 46-64/118-137/192-209 forward to the user's method;
     71-87/144-161/216-229 use the user's EvaluateWithGradient of the same form *)
  Definition f_eval_ov (k : form) : option (A -> V) :=
    match supplied (u_eval u) k with
    | Some m => Some m
    | None => match supplied (u_ewg u) k with
              | Some m => Some (fun a => fst (m a)) | None => None end
    end.
  (* add_gradient.hpp: 45-65/117-137/190-206; 72-89/144-162/213-227 *)
  Definition f_grad_ov (k : form) : option (A -> G) :=
    match supplied (u_grad u) k with
    | Some m => Some m
    | None => match supplied (u_ewg u) k with
              | Some m => Some (fun a => snd (m a)) | None => None end
    end.

  Definition has {M : Type} (o : option (form * M)) (k : form) : bool :=
    match supplied o k with Some _ => true | None => false end.
  (* traits.hpp 323-342 *)
  Definition has_nonconst_signatures : bool :=
    ((has (u_eval u) NonConst || has (u_grad u) NonConst) &&
     (has (u_eval u) NonConst || has (u_eval u) Const || has (u_eval u) Static) &&
     (has (u_grad u) NonConst || has (u_grad u) Const || has (u_grad u) Static))%bool.
  (* traits.hpp 361-378 *)
  Definition has_const_signatures : bool :=
    ((has (u_eval u) Const || has (u_grad u) Const) &&
     (has (u_eval u) Const || has (u_eval u) Static) &&
     (has (u_grad u) Const || has (u_grad u) Static))%bool.
  (* add_evaluate_with_gradient.hpp 205-213 *)
  Definition has_static_signatures : bool :=
    (has (u_eval u) Static && has (u_grad u) Static)%bool.

  Definition both (e : option (A -> V)) (g : option (A -> G)) : option (A -> V * G) :=
    match e, g with Some e, Some g => Some (fun a => (e a, g a)) | _, _ => None end.
  (* add_evaluate_with_gradient.hpp: 57-78/143-164/232-249 forward; 85-106, 171-194,
     256-278 combine Evaluate and Gradient *)
  Definition f_ewg_ov (k : form) : option (A -> V * G) :=
    match supplied (u_ewg u) k with
    | Some m => Some m
    | None =>
        match k with
        | NonConst => if has_nonconst_signatures
                      then both (resolve false f_eval_ov) (resolve false f_grad_ov) else None
        | Const => if has_const_signatures
                   then both (resolve true f_eval_ov) (resolve true f_grad_ov) else None
        | Static => if has_static_signatures
                    then both (supplied (u_eval u) Static) (supplied (u_grad u) Static) else None
        end
    end.

  (* what an optimizer gets when it calls f.Evaluate(...) etc. on a Function& *)
  Definition f_eval : option (A -> V) := resolve false f_eval_ov.
  Definition f_grad : option (A -> G) := resolve false f_grad_ov.
  Definition f_ewg : option (A -> V * G) := resolve false f_ewg_ov.
End Mixins.
