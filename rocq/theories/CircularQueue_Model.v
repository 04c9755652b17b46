(** Model of adobe::circular_queue<T> — /repo/adobe/circular_queue.hpp:250-439.
    Iterators into [container_m] are modelled by indices 0..capacity; undefined
    behaviour (dereferencing or advancing an iterator at the end of the container,
    decrementing one at its beginning, a failed assert) is the outcome [None]. *)
From Verif Require Import Prelude.

Section Model.
Context {A : Type}.

(** circular_queue.hpp:304-307: the four data members. *)
Record queue := Queue { container : list A; qbegin : nat; qend : nat; is_empty : bool }.

(** circular_queue.hpp:269 capacity() *)
Definition capacity (q : queue) : nat := length (container q).

(** circular_queue.hpp:330-332: circular_queue(capacity); [d] stands for T(). *)
Definition make (d : A) (cap : nat) : queue := Queue (repeat d cap) 0 0 true.

(** circular_queue.hpp:271 *)
Definition empty (q : queue) : bool := is_empty q.

(** circular_queue.hpp:272 *)
Definition full (q : queue) : bool := negb (is_empty q) && Nat.eqb (qbegin q) (qend q).

(** circular_queue.hpp:274-277 *)
Definition clear (q : queue) : queue := Queue (container q) (qend q) (qend q) true.

(** circular_queue.hpp:361-372: front(), assert(!empty()), then *begin_m. *)
Definition front (q : queue) : option A :=
  if empty q then None else nth_error (container q) (qbegin q).

(** [if (++it == end(container)) it = begin(container)], circular_queue.hpp:382-383, 395-396.
    Advancing an iterator that already is at the end is UB. *)
Definition advance (cap i : nat) : option nat :=
  if i <? cap then Some (if S i =? cap then 0 else S i) else None.

(** circular_queue.hpp:377-388 *)
Definition push_back (q : queue) (x : A) : option queue :=
  if qend q <? capacity q then
    let c := upd (container q) (qend q) x in       (* *end_m = std::move(x) *)
    let was_full := full q in
    match advance (capacity q) (qend q) with
    | Some e => Some (Queue c (if was_full then e else qbegin q) e false)
    | None => None
    end
  else None.

(** circular_queue.hpp:393-398 *)
Definition pop_front (q : queue) : option queue :=
  if empty q then None
  else match advance (capacity q) (qbegin q) with
       | Some b => Some (Queue (container q) b (qend q) (Nat.eqb b (qend q)))
       | None => None
       end.

(** circular_queue.hpp:403-409 *)
Definition putback (q : queue) : option queue :=
  if full q then None
  else
    let b := if qbegin q =? 0 then capacity q else qbegin q in
    match b with
    | O => None                                       (* --begin on an empty container *)
    | S b' => Some (Queue (container q) b' (qend q) false)
    end.

(** circular_queue.hpp:414-419 *)
Definition size (q : queue) : nat :=
  if qbegin q <? qend q then qend q - qbegin q
  else if is_empty q then 0 else capacity q - (qbegin q - qend q).

(** The elements in the iterator range [i,j) of the container. *)
Definition slice (l : list A) (i j : nat) : list A := firstn (j - i) (skipn i l).

(** circular_queue.hpp:314-317 first_range() *)
Definition first_range (q : queue) : list A :=
  slice (container q) (qbegin q) (if qbegin q <? qend q then qend q else capacity q).

(** circular_queue.hpp:319-322 second_range() *)
Definition second_range (q : queue) : list A :=
  slice (container q) (if qbegin q <? qend q then qend q else 0) (qend q).

(** std::copy of [xs] to the iterator [i] of container [c]: writes past the end are UB. *)
Definition copy_into (c : list A) (i : nat) (xs : list A) : option (list A * nat) :=
  if i + length xs <=? length c
  then Some (firstn i c ++ xs ++ skipn (i + length xs) c, i + length xs)
  else None.

(** circular_queue.hpp:339-347 copy constructor ([d] stands for T()). *)
Definition copy_ctor (d : A) (r : queue) : option queue :=
  let c0 := repeat d (capacity r) in
  if is_empty r then Some (Queue c0 0 0 true)
  else
    match copy_into c0 0 (first_range r) with
    | None => None
    | Some (c1, e1) =>
      match copy_into c1 e1 (second_range r) with
      | None => None
      | Some (c2, e2) => Some (Queue c2 0 e2 false)
      end
    end.

(** circular_queue.hpp:290-295 and 352-355: operator= takes its argument by value (copy
    constructor) and swaps all members, so the target becomes the copy. *)
Definition assign (d : A) (self r : queue) : option queue := copy_ctor d r.

(** std::equal(first1,last1,first2), <algorithm>: reading past the end of the
    second sequence is UB. *)
Fixpoint std_equal (eqb : A -> A -> bool) (xs ys : list A) : option bool :=
  match xs with
  | [] => Some true
  | x :: xs' =>
    match ys with
    | [] => None
    | y :: ys' => if eqb x y then std_equal eqb xs' ys' else Some false
    end
  end.

(** circular_queue.hpp:424-439 operator==. The segmented range over
    {first_range, second_range} is their concatenation (proved for the segmented
    iterator itself in Segmented_Props.v). *)
Definition equal (eqb : A -> A -> bool) (x y : queue) : option bool :=
  if negb (Nat.eqb (size x) (size y)) then Some false
  else std_equal eqb (first_range x ++ second_range x) (first_range y ++ second_range y).

(** The public mutators, as operations of a history. *)
Inductive op := Push (x : A) | Pop | Putback | Clear.

Definition step (q : queue) (o : op) : option queue :=
  match o with
  | Push x => push_back q x
  | Pop => pop_front q
  | Putback => putback q
  | Clear => Some (clear q)
  end.

Fixpoint run (q : queue) (os : list op) : option queue :=
  match os with
  | [] => Some q
  | o :: os' => match step q o with Some q' => run q' os' | None => None end
  end.
End Model.
Arguments queue : clear implicits.
Arguments op : clear implicits.
