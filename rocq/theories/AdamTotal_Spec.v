(** What the author of a sheet has to see to, for nothing undefined to happen *)
From Coq Require Import String ZArith.
From Verif Require Import Prelude Vm_Value Adam_Model.
From Coq Require Import List.
Import ListNotations.
Local Open Scope nat_scope.

(** whatever the variables are, an array the expression yields has at least [n] values *)
Fixpoint wide (n : nat) (e : expr) : Prop :=
  match e with
  | Ret (VArr l) => n <= length l
  | Ret _ | Fail => True
  | Look _ k => forall v, wide n (k v)
  end.
(** every term has a value for each of the cells it names: one cell takes the value itself, several take
    the values of an array *)
Definition terms_supply (Sh : sheet) : Prop :=
  forall x t, In x (rels Sh) -> In t (r_terms x) -> length (fst t) = 1 \/ wide (length (fst t)) (snd t).
