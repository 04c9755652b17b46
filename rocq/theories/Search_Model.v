(** Model of the searching and sortedness algorithms: /repo/adobe/algorithm/lower_bound.hpp:31-51,
    upper_bound.hpp:31-52, equal_range.hpp:44-65, binary_search.hpp:28-38, sorted.hpp:33-123.
    A range is a list, an iterator its index; [None] is a dereference outside the range (undefined
    behaviour). Integers do not overflow. Every algorithm also returns the number of times it
    applied the comparison [c]. The loops get fuel [n]; the proofs show it is never exhausted
    ([None] as well). *)
From Verif Require Import Prelude.
Local Open Scope nat_scope.

(** std::binary strict weak orderings, C models StrictWeakOrdering in all signatures *)
Definition strict_weak_order {T} (c : T -> T -> bool) : Prop :=
  (forall a, c a a = false) /\
  (forall a b d, c a b = true -> c b d = true -> c a d = true) /\
  (forall a b d, c a b = false -> c b a = false -> c b d = false -> c d b = false -> c a d = false).

Section Search.
Context {A T : Type} (c : T -> T -> bool) (p : A -> T) (r : list A) (x : T).

(** lower_bound.hpp:38-51 *)
Fixpoint lower_bound_n_ (fuel f n : nat) : option (nat * nat) :=
  if n =? 0 then Some (f, 0) else
  match fuel with
  | 0 => None
  | S fuel =>
    let h := Nat.div2 n in
    let m := f + h in
    match nth_error r m with
    | None => None
    | Some v =>
      match (if c (p v) x then lower_bound_n_ fuel (m + 1) (n - (h + 1))
             else lower_bound_n_ fuel f h) with
      | None => None
      | Some (i, k) => Some (i, k + 1)
      end
    end
  end.
Definition lower_bound_n (f n : nat) := lower_bound_n_ n f n.
(** lower_bound.hpp:134-136: lower_bound(f, l, x, c, p) over the whole range *)
Definition lower_bound := lower_bound_n 0 (length r).

(** upper_bound.hpp:37-55 *)
Fixpoint upper_bound_n_ (fuel f n : nat) : option (nat * nat) :=
  if n =? 0 then Some (f, 0) else
  match fuel with
  | 0 => None
  | S fuel =>
    let h := Nat.div2 n in
    let m := f + h in
    match nth_error r m with
    | None => None
    | Some v =>
      match (if negb (c x (p v)) then upper_bound_n_ fuel (m + 1) (n - (h + 1))
             else upper_bound_n_ fuel f h) with
      | None => None
      | Some (i, k) => Some (i, k + 1)
      end
    end
  end.
Definition upper_bound_n (f n : nat) := upper_bound_n_ n f n.
(** upper_bound.hpp:137-139 *)
Definition upper_bound := upper_bound_n 0 (length r).

(** equal_range.hpp:50-69 *)
Fixpoint equal_range_n_ (fuel f n : nat) : option (nat * nat * nat) :=
  if n =? 0 then Some (f, f, 0) else
  match fuel with
  | 0 => None
  | S fuel =>
    let h := Nat.div2 n in
    let m := f + h in
    match nth_error r m with
    | None => None
    | Some v =>
      if c (p v) x then
        match equal_range_n_ fuel (m + 1) (n - (h + 1)) with
        | None => None | Some (i, j, k) => Some (i, j, k + 1) end
      else if c x (p v) then
        match equal_range_n_ fuel f h with
        | None => None | Some (i, j, k) => Some (i, j, k + 2) end
      else
        match lower_bound_n f h, upper_bound_n (m + 1) (n - (h + 1)) with
        | Some (i, k1), Some (j, k2) => Some (i, j, k1 + k2 + 2)
        | _, _ => None
        end
    end
  end.
Definition equal_range_n (f n : nat) := equal_range_n_ n f n.
(** equal_range.hpp:170-172 *)
Definition equal_range := equal_range_n 0 (length r).

(** binary_search.hpp:34-39, [eqb] is operator== of T *)
Definition binary_search (eqb : T -> T -> bool) : option nat :=
  match lower_bound with
  | None => None
  | Some (result, _) =>
    if result =? length r then Some (length r) else
    match nth_error r result with
    | None => None
    | Some v => Some (if eqb (p v) x then result else length r)
    end
  end.
End Search.

(** std::adjacent_find: the first i with q(r[i], r[i+1]), or the end *)
Fixpoint adjacent_find {A} (q : A -> A -> bool) (r : list A) : nat :=
  match r with
  | a :: ((b :: _) as r') => if q a b then 0 else S (adjacent_find q r')
  | _ => length r
  end.
(** std::is_sorted: no element is less than its predecessor *)
Fixpoint std_is_sorted {A} (o : A -> A -> bool) (r : list A) : bool :=
  match r with
  | a :: ((b :: _) as r') => negb (o b a) && std_is_sorted o r'
  | _ => true
  end.
(** sorted.hpp:36-45 *)
Definition sorted {A} (o : A -> A -> bool) (r : list A) : nat :=
  let f := adjacent_find (fun a b => negb (o a b)) r in
  if f =? length r then f else f + 1.
(** sorted.hpp:63-69, and with a projection 89-95, 106-122 *)
Definition is_sorted {A T} (c : T -> T -> bool) (p : A -> T) (r : list A) : bool :=
  adjacent_find (fun a b => negb (c (p a) (p b))) r =? length r.
(** sorted.hpp:130-133 *)
Definition is_sorted_range {A} (less : A -> A -> bool) (r : list A) : bool := std_is_sorted less r.
