(** What a selection means (documentation of selection.hpp:33-45): going up from index 0 with the
    initial state [start_selected], each boundary at or below [i] toggles the state. *)
From Verif Require Import Prelude Selection_Model.

Inductive increasing : list nat -> Prop :=
| inc_nil : increasing []
| inc_one b : increasing [b]
| inc_cons a b s : a < b -> increasing (b :: s) -> increasing (a :: b :: s).

(** the documented precondition on the boundaries (selection.hpp:36, 83) *)
Definition valid (x : selection) : Prop := increasing (bounds x).

(** is index [i] in the set that the selection denotes *)
Definition selected (x : selection) (i : nat) : bool :=
  xorb (start_selected x) (Nat.odd (length (filter (fun b => Nat.leb b i) (bounds x)))).

Definition included (y x : selection) : Prop := forall i, selected y i = true -> selected x i = true.
(** only finitely many indices are selected *)
Definition bounded (x : selection) : Prop := exists n, forall i, n <= i -> selected x i = false.

(** The elements of [l] whose position, counted from [off], satisfies [f], in order. *)
Fixpoint pick {A} (f : nat -> bool) (off : nat) (l : list A) : list A :=
  match l with
  | [] => []
  | v :: l => if f off then v :: pick f (S off) l else pick f (S off) l
  end.

(** every boundary lies in a range of [n] elements (or at its end) *)
Definition within (x : selection) (n : nat) : Prop := forall b, In b (bounds x) -> b <= n.
