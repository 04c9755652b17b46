(** Specification of copy_on_write: a handle is just a value.
    A slot holds no handle ([None]), a moved-from handle ([Some None]) or a
    handle whose value is [v] ([Some (Some v)]); there is no sharing at all.
    The operation syntax is the model's; the meaning is given here. *)
From Verif Require Import Prelude CopyOnWrite_Model.
Set Implicit Arguments.

Section Spec.
Context {T : Type}.
Variable dflt : T.
Variable eqb ltb : T -> T -> bool.

Definition vslots := list (option (option T)).

(** Moved-from handles compare equal to each other and less than any value. *)
Definition val_eq (x y : option T) : bool :=
  match x, y with Some v, Some w => eqb v w | None, None => true | _, _ => false end.
Definition val_lt (x y : option T) : bool :=
  match x, y with Some v, Some w => ltb v w | None, Some _ => true | _, None => false end.

(** [None]: the caller broke a precondition (used a slot without a handle,
    constructed over an existing handle, read or wrote a moved-from handle).
    Only operations that cannot raise are specified here: the faults of the
    operations are required to be [NoFault]. *)
Definition spec_op (o : op (T := T)) (s : vslots) : option (vslots * out (T := T)) :=
  match o with
  | ODefault h NoFault =>
      match nth_error s h with Some None => Some (upd s h (Some (Some dflt)), Nothing) | _ => None end
  | OConstruct h v NoFault =>
      match nth_error s h with Some None => Some (upd s h (Some (Some v)), Nothing) | _ => None end
  | OCopy h k =>
      match nth_error s h, nth_error s k with
      | Some None, Some (Some x) => Some (upd s h (Some x), Nothing) | _, _ => None end
  | OMove h k =>
      match nth_error s h, nth_error s k with
      | Some None, Some (Some x) => Some (upd (upd s h (Some x)) k (Some None), Nothing) | _, _ => None end
  | ODestroy h =>
      match nth_error s h with Some (Some _) => Some (upd s h None, Nothing) | _ => None end
  | OAssign h k =>
      match nth_error s h, nth_error s k with
      | Some (Some _), Some (Some x) => Some (upd s h (Some x), Nothing) | _, _ => None end
  | OAssignMove h k =>
      match nth_error s h, nth_error s k with
      | Some (Some _), Some (Some x) => Some (upd (upd s k (Some None)) h (Some x), Nothing) | _, _ => None end
  | OAssignValue h v NoFault =>
      match nth_error s h with Some (Some _) => Some (upd s h (Some (Some v)), Nothing) | _ => None end
  | OWrite h f NoFault =>
      match nth_error s h with
      | Some (Some (Some v)) => Some (upd s h (Some (Some (f v))), Nothing) | _ => None end
  | OSwap h k =>
      match nth_error s h, nth_error s k with
      | Some (Some x), Some (Some y) => Some (upd (upd s h (Some y)) k (Some x), Nothing) | _, _ => None end
  | ORead h =>
      match nth_error s h with Some (Some (Some v)) => Some (s, Val v) | _ => None end
  | OEq h k =>
      match nth_error s h, nth_error s k with
      | Some (Some x), Some (Some y) => Some (s, Bool (val_eq x y)) | _, _ => None end
  | OLt h k =>
      match nth_error s h, nth_error s k with
      | Some (Some x), Some (Some y) => Some (s, Bool (val_lt x y)) | _, _ => None end
  | _ => None
  end.

Fixpoint spec_run (ops : list (op (T := T))) (s : vslots) : option (vslots * list (out (T := T))) :=
  match ops with
  | [] => Some (s, [])
  | o :: rest =>
      match spec_op o s with
      | Some (s', x) => match spec_run rest s' with Some (s2, xs) => Some (s2, x :: xs) | None => None end
      | None => None
      end
  end.

(** Number of slots holding a handle that points to object [a]. *)
Definition points_to (a : nat) (x : option handle) : bool :=
  match x with Some (Some b) => b =? a | _ => false end.
Definition handles_of (a : nat) (sl : list (option handle)) : nat :=
  length (filter (points_to a) sl).

End Spec.
