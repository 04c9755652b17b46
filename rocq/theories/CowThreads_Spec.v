(** What one thread would observe alone, on plain values: slots hold [None]
    (null) or a value; no sharing, no other threads. *)
From Verif Require Import Prelude CopyOnWrite_Model CowThreads_Model.
Set Implicit Arguments.

Section Spec.
Context {T : Type}.
Variable dflt : T.
Variable eqb : T -> T -> bool.

Definition alone_step (o : top (T := T)) (s : list (option T)) : option (list (option T) * list (tout (T := T))) :=
  match o with
  | TCopy d k =>
      match nth_error s d, nth_error s k with Some _, Some x => Some (upd s d x, []) | _, _ => None end
  | TMove d k =>
      match nth_error s d, nth_error s k with Some _, Some x => Some (upd (upd s k None) d x, []) | _, _ => None end
  | TDrop d => match nth_error s d with Some _ => Some (upd s d None, []) | None => None end
  | TSet d v => match nth_error s d with Some _ => Some (upd s d (Some v), []) | None => None end
  | TWrite d f =>
      match nth_error s d with Some (Some v) => Some (upd s d (Some (f v)), []) | _ => None end
  | TRead d => match nth_error s d with Some (Some v) => Some (s, [TVal v]) | _ => None end
  | TEq d k =>
      match nth_error s d, nth_error s k with
      | Some (Some v), Some (Some w) => Some (s, [TBool (eqb v w)])
      | Some None, Some None => Some (s, [TBool true])
      | Some _, Some _ => Some (s, [TBool false])
      | _, _ => None
      end
  | TDefault d => match nth_error s d with Some _ => Some (upd s d (Some dflt), []) | None => None end
  end.

(** Result: everything the program reads.  [None] if it misuses a handle. *)
Fixpoint alone (p : list (top (T := T))) (s : list (option T)) : option (list (tout (T := T))) :=
  match p with
  | [] => Some []
  | o :: rest =>
      match alone_step o s with
      | Some (s', xs) => match alone rest s' with Some ys => Some (xs ++ ys) | None => None end
      | None => None
      end
  end.

(** The values thread handles denote at the start. *)
Definition initial_values (vs : list T) (hs : list (option nat)) : list (option T) :=
  map (fun x => match x with Some k => nth_error vs k | None => None end) hs.

(** All handles refer to an existing value. *)
Definition handles_exist (vs : list T) (hs : list (option nat)) : Prop :=
  forall k, In (Some k) hs -> k < length vs.

(** Two threads are about to access the same value, at least one writing it. *)
Definition race (w : world (T := T)) : Prop :=
  exists i j ti tj a bi bj, i <> j /\
    nth_error (threads w) i = Some ti /\ nth_error (threads w) j = Some tj /\
    In (a, bi) (next_accesses ti) /\ In (a, bj) (next_accesses tj) /\ (bi || bj)%bool = true.

End Spec.
