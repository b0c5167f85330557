(** Model of the type-erased holder and of its use by the optimisers.
    Files: /repo/include/ensmallen_bits/utility/any.hpp (Any) and
    /repo/include/ensmallen_bits/sgd/sgd_impl.hpp (48-53, 105-121).
    The heap is a list of objects with their type; type 0 is void.  An address is the
    number of the allocation, so it is never used twice.  [None] is undefined behaviour:
    deleting an object that is gone, deleting it as another type, or reading it then. *)
From Coq Require Import List Arith Bool.
From Verif.Model Require Import SA.
Import ListNotations.

Record cell := mkCell { c_type : nat; c_alive : bool }.
Definition heap := list cell.

(** the members of Any: void* held (None is NULL), std::type_index type, and the type the
    destructor function pointer was made for (0: the fake destructor) *)
Record any := mkAny { a_held : option nat; a_type : nat; a_del : nat }.

(** any.hpp 36-42 *)
Definition any_empty : any := mkAny None 0 0.

(** new T(...) *)
Definition alloc (t : nat) (m : heap) : nat * heap := (length m, m ++ [mkCell t true]).

(** delete static_cast<const T*>(x) *)
Definition delete (t p : nat) (m : heap) : option heap :=
  match nth_error m p with
  | Some c => if c_alive c && Nat.eqb (c_type c) t then Some (set_nth p (mkCell t false) m) else None
  | None => None
  end.

(** any.hpp 81-86 *)
Definition any_set (t : nat) (p : option nat) (a : any) : any := mkAny p t t.

(** any.hpp 91-95 *)
Definition any_has (t : nat) (a : any) : bool := Nat.eqb t (a_type a).

Inductive got : Type := Got (p : nat) | Threw.
(** any.hpp 44-78, and one access through the reference *)
Definition any_as (t : nat) (a : any) (m : heap) : option got :=
  if negb (Nat.eqb t (a_type a)) then Some Threw
  else match a_held a with
       | None => None
       | Some p =>
           match nth_error m p with
           | Some c => if c_alive c && Nat.eqb (c_type c) t then Some (Got p) else None
           | None => None
           end
       end.

(** any.hpp 103-112; also which object was deleted *)
Definition any_clean (a : any) (m : heap) : option (any * heap * list nat) :=
  match a_held a with
  | None => Some (a, m, [])
  | Some p =>
      if Nat.eqb (a_del a) 0 then Some (any_empty, m, [])
      else match delete (a_del a) p m with
           | Some m' => Some (any_empty, m', [p])
           | None => None
           end
  end.

(** ** one holder, and any calls in any order *)
Inductive call : Type :=
| CSet (t : nat)                 (* Set<T>(new T()) *)
| CSetNull (t : nat)             (* Set<T>(NULL)    *)
| CClean
| CAs (t : nat)
| CHas (t : nat).

Inductive answer : Type := RNone | RAs (g : got) | RHas (b : bool).

(** the answers of the calls, the addresses deleted in order, and the state at the end *)
Record log := mkLog { l_any : any; l_heap : heap; l_answers : list answer; l_deleted : list nat }.

Definition do_call (c : call) (l : log) : option log :=
  let (a, m, rs, ds) := l in
  match c with
  | CSet t => let (p, m') := alloc t m in Some (mkLog (any_set t (Some p) a) m' (rs ++ [RNone]) ds)
  | CSetNull t => Some (mkLog (any_set t None a) m (rs ++ [RNone]) ds)
  | CClean =>
      match any_clean a m with
      | Some (a', m', d) => Some (mkLog a' m' (rs ++ [RNone]) (ds ++ d))
      | None => None
      end
  | CAs t => match any_as t a m with Some g => Some (mkLog a m (rs ++ [RAs g]) ds) | None => None end
  | CHas t => Some (mkLog a m (rs ++ [RHas (any_has t a)]) ds)
  end.

Fixpoint do_calls (cs : list call) (l : log) : option log :=
  match cs with
  | [] => Some l
  | c :: cs => match do_call c l with Some l' => do_calls cs l' | None => None end
  end.

Definition log0 : log := mkLog any_empty [] [] [].

(** ** the owner: SGD keeps two holders and isInitialized *)
Record owner := mkOwner { o_decay : any; o_update : any; o_init : bool }.

(** sgd_impl.hpp 24-45 *)
Definition owner_new : owner := mkOwner any_empty any_empty false.

(** sgd_impl.hpp 105-121 and the first use of the policies (153, 159) of a call of Optimize()
    that needs a decay policy of type [td] and an update policy of type [tu] *)
Definition owner_optimize (reset : bool) (td tu : nat) (o : owner) (m : heap) : option (owner * heap * list nat * got * got) :=
  match (if negb (o_init o) || negb (any_has td (o_decay o)) then
           match any_clean (o_decay o) m with
           | Some (a, m, d) => let (p, m) := alloc td m in Some (any_set td (Some p) a, m, d)
           | None => None
           end
         else Some (o_decay o, m, [])) with
  | None => None
  | Some (dec, m, d1) =>
      match (if reset || negb (o_init o) || negb (any_has tu (o_update o)) then
               match any_clean (o_update o) m with
               | Some (a, m, d) => let (p, m) := alloc tu m in Some (any_set tu (Some p) a, m, d, true)
               | None => None
               end
             else Some (o_update o, m, [], o_init o)) with
      | None => None
      | Some (upd, m, d2, init) =>
          match any_as tu upd m, any_as td dec m with
          | Some gu, Some gd => Some (mkOwner dec upd init, m, d1 ++ d2, gd, gu)
          | _, _ => None
          end
      end
  end.

(** a history of Optimize() calls of one object; every As() must give an object *)
Fixpoint owner_history (reset : bool) (h : list (nat * nat)) (o : owner) (m : heap) (ds : list nat) : option (owner * heap * list nat) :=
  match h with
  | [] => Some (o, m, ds)
  | (td, tu) :: h =>
      match owner_optimize reset td tu o m with
      | Some (o, m, d, Got _, Got _) => owner_history reset h o m (ds ++ d)
      | _ => None
      end
  end.

(** sgd_impl.hpp 48-53 *)
Definition owner_destroy (o : owner) (m : heap) : option (heap * list nat) :=
  match any_clean (o_decay o) m with
  | None => None
  | Some (_, m, d1) =>
      match any_clean (o_update o) m with
      | None => None
      | Some (_, m, d2) => Some (m, d1 ++ d2)
      end
  end.

(** SGD and Any declare no copy constructor: the implicit one copies the members. *)
Definition owner_copy (o : owner) : owner := o.
