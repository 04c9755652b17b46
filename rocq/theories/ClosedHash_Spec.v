(** What a closed_hash_set is: a finite set of values, no two with equal keys, in no particular order. *)
From Verif Require Import Prelude.
Local Open Scope nat_scope.

Section Spec.
Context {V K : Type} (key : V -> K) (key_eq : K -> K -> bool).

(** the hasher and key_equal requirements *)
Record hash_requirements (hash : K -> nat) : Prop := {
  req_refl : forall a, key_eq a a = true;
  req_sym : forall a b, key_eq a b = key_eq b a;
  req_trans : forall a b c, key_eq a b = true -> key_eq b c = true -> key_eq a c = true;
  req_hash : forall a b, key_eq a b = true -> hash a = hash b }.

Definition lookup (k : K) (l : list V) : option V := List.find (fun v => key_eq k (key v)) l.
Definition is_none {A} (o : option A) : bool := match o with None => true | Some _ => false end.
(** add [x], replacing the value with the same key if there is one *)
Definition put (x : V) (l : list V) : list V :=
  if is_none (lookup (key x) l) then x :: l else map (fun v => if key_eq (key x) (key v) then x else v) l.
Definition remove (k : K) (l : list V) : list V := filter (fun v => negb (key_eq k (key v))) l.
(** at most one value for each key *)
Fixpoint distinct (l : list V) : Prop :=
  match l with [] => True | a :: l => (forall b, In b l -> key_eq (key a) (key b) = false) /\ distinct l end.

Inductive op := Insert (x : V) | InsertRange (l : list V) | Erase (k : K) | Clear | Reserve (n : nat) | Copy | Index (k : K).
(** [Inserted v b]: the value the returned iterator refers to, and the bool *)
Inductive answer := Done | Inserted (v : option V) (b : bool) | Erased (n : nat) | Referred (v : option V).

Section Steps.
Context (make : K -> V).
Definition spec_step (l : list V) (o : op) : list V * answer :=
  match o with
  | Insert x => (put x l, Inserted (Some x) (is_none (lookup (key x) l)))
  | InsertRange xs => (fold_left (fun l x => put x l) xs l, Done)
  | Erase k => (remove k l, Erased (if is_none (lookup k l) then 0 else 1))
  | Clear => ([], Done)
  | Reserve n => (l, Done)
  | Copy => (l, Done)
  | Index k => match lookup k l with
               | Some v => (l, Referred (Some v))
               | None => (make k :: l, Referred (Some (make k)))
               end
  end.
Fixpoint spec_run (l : list V) (h : list op) : list V * list answer :=
  match h with
  | [] => (l, [])
  | o :: h => let '(l, a) := spec_step l o in let '(l, r) := spec_run l h in (l, a :: r)
  end.
End Steps.

(** how many elements a history can add *)
Definition cost (o : op) : nat :=
  match o with Insert _ | Index _ => 1 | InsertRange l => length l | _ => 0 end.
Definition total_cost (h : list op) : nat := list_sum (map cost h).
(** The table stays within the prime table: at most 1437356748 insertions, no reserve above the
    largest prime. *)
Definition fits (h : list op) : Prop :=
  (N.of_nat (total_cost h) <= 1437356748)%N /\
  Forall (fun o => match o with Reserve n => (N.of_nat n <= 2874713497)%N | _ => True end) h.
End Spec.
Arguments op V K : clear implicits.
Arguments answer V : clear implicits.
