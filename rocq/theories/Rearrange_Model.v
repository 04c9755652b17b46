(** Model of /repo/adobe/algorithm/reverse.hpp:117-133, rotate.hpp:38-66, reduce.hpp:33-117,
    gather.hpp:75-86, erase_if.hpp:44-135, find.hpp:195-217, copy.hpp:77-176.
    A range is a list and an iterator an index into it; [None] is undefined behaviour (an access
    outside the range). std:: algorithms are taken by their specification. *)
From Verif Require Import Prelude.
Local Open Scope nat_scope.

(** std::iter_swap *)
Definition iter_swap {A} (r : list A) (i j : nat) : option (list A) :=
  match nth_error r i, nth_error r j with
  | Some x, Some y => Some (upd (upd r i y) j x)
  | _, _ => None
  end.
(** std::reverse(f, l) *)
Definition std_reverse {A} (r : list A) (f l : nat) : list A :=
  firstn f r ++ rev (firstn (l - f) (skipn f r)) ++ skipn l r.

(** reverse.hpp:122-133; fuel: the loop runs at most m - f times *)
Fixpoint reverse_until_ {A} (fuel : nat) (r : list A) (f m l : nat) : option (list A * nat * nat) :=
  if negb (f =? m) && negb (m =? l) then
    match fuel with
    | 0 => None
    | S fuel =>
      if l =? 0 then None else
      let l := l - 1 in
      match iter_swap r f l with
      | None => None
      | Some r => reverse_until_ fuel r (f + 1) m l
      end
    end
  else Some (r, f, l).
Definition reverse_until {A} (r : list A) (f m l : nat) := reverse_until_ (m - f) r f m l.

(** rotate.hpp:39-51 *)
Definition rotate {A} (r : list A) (f m l : nat) : option (list A * nat * nat) :=
  let r := std_reverse r f m in
  let r := std_reverse r m l in
  match reverse_until r f m l with
  | None => None
  | Some (r, f', l') => Some (std_reverse r f' l', f', l')
  end.

Section Reduce.
Context {T : Type} (eqb : T -> T -> bool) (op : T -> T -> T) (z : T).
(** reduce.hpp:38-60: find_not, then fold over the non-zero elements *)
Fixpoint reduce_rest (result : T) (l : list T) : T :=
  match l with
  | [] => result
  | x :: l => reduce_rest (if negb (eqb x z) then op result x else result) l
  end.
Fixpoint reduce_nonzeros (l : list T) : T :=
  match l with
  | [] => z
  | x :: l' => if eqb z x then reduce_nonzeros l' else reduce_rest x l'
  end.
(** reduce.hpp:68-93: returns the carry and the changed counter; the loop over [f, l) *)
Fixpoint add_loop (v : list T) (x : T) : T * list T :=
  match v with
  | [] => (x, [])
  | y :: v' =>
    if negb (eqb y z) then let (c, v'') := add_loop v' (op y x) in (c, z :: v'')
    else (z, x :: v')
  end.
Definition add_to_counter (v : list T) (x : T) : T * list T :=
  if eqb x z then (z, v) else add_loop v x.
End Reduce.

(** reduce.hpp:102-117; transpose(op) swaps the arguments *)
Fixpoint balanced_counter {T} (eqb : T -> T -> bool) (op : T -> T -> T) (z : T) (v l : list T) : list T :=
  match l with
  | [] => v
  | x :: l =>
    let (tmp, v) := add_to_counter eqb op z v x in
    balanced_counter eqb op z (if negb (eqb tmp z) then v ++ [tmp] else v) l
  end.
Definition reduce_balanced {T} (eqb : T -> T -> bool) (op : T -> T -> T) (z : T) (l : list T) : T :=
  reduce_nonzeros eqb (fun x y => op y x) z (balanced_counter eqb op z [] l).

(** std::stable_partition on [f, l): the elements satisfying q, then the others *)
Definition std_stable_partition {A} (r : list A) (f l : nat) (q : A -> bool) : list A * nat :=
  let s := firstn (l - f) (skipn f r) in
  (firstn f r ++ filter q s ++ filter (fun x => negb (q x)) s ++ skipn l r, f + length (filter q s)).
(** gather.hpp:78-86; the two calls work on disjoint subranges, so their order does not matter *)
Definition gather {A} (r : list A) (first last pivot : nat) (pred : A -> bool) : list A * (nat * nat) :=
  let (r, i) := std_stable_partition r first pivot (fun x => negb (pred x)) in
  let (r, j) := std_stable_partition r pivot last pred in
  (r, (i, j)).

(** find.hpp:211-217: find_range_if on a range, as the lengths of the parts before and in it *)
Fixpoint find_if {A} (q : A -> bool) (r : list A) : nat :=
  match r with [] => 0 | x :: r => if q x then 0 else S (find_if q r) end.
Definition find_range_if {A} (q : A -> bool) (r : list A) : nat * nat :=
  let f := find_if q r in
  if f =? length r then (f, f) else (f, f + 1 + find_if (fun x => negb (q x)) (skipn (f + 1) r)).
(** erase_if.hpp:98-100, block containers: remove_if and erase of the tail of [f, l) *)
Definition erase_if_block {A} (x : list A) (f l : nat) (q : A -> bool) : list A :=
  firstn f x ++ filter (fun v => negb (q v)) (firstn (l - f) (skipn f x)) ++ skipn l x.
(** erase_if.hpp:105-109, node containers. The iterators are the boundaries of the three lists:
    everything before f, [f, l), everything from l on. *)
Fixpoint erase_if_nodes {A} (fuel : nat) (done range tail : list A) (q : A -> bool) : option (list A) :=
  match range with
  | [] => Some (done ++ tail)
  | _ =>
    match fuel with
    | 0 => None
    | S fuel =>
      let (i, j) := find_range_if q range in
      erase_if_nodes fuel (done ++ firstn i range) (skipn j range) tail q
    end
  end.
Definition erase_if_node {A} (x : list A) (f l : nat) (q : A -> bool) : option (list A) :=
  erase_if_nodes (l - f) (firstn f x) (firstn (l - f) (skipn f x)) (skipn l x) q.

(** copy.hpp:77-84 and 147-157: copy_n and the forward copy_bounded write into [dst] from [d];
    copy.hpp:133-137 the random access one. Both return the advanced positions. *)
Fixpoint copy_n {A} (src : list A) (s : nat) (count : nat) (dst : list A) (d : nat) : option (list A * nat * nat) :=
  match count with
  | 0 => Some (dst, s, d)
  | S count =>
    match nth_error src s with
    | None => None
    | Some x => if d <? length dst then copy_n src (s + 1) count (upd dst d x) (d + 1) else None
    end
  end.
Fixpoint copy_bounded_forward {A} (fuel : nat) (src : list A) (s sl : nat) (dst : list A) (d dl : nat) : option (list A * nat * nat) :=
  if negb (s =? sl) && negb (d =? dl) then
    match fuel with
    | 0 => None
    | S fuel =>
      match nth_error src s with
      | None => None
      | Some x => if d <? length dst then copy_bounded_forward fuel src (s + 1) sl (upd dst d x) (d + 1) dl else None
      end
    end
  else Some (dst, s, d).
Definition copy_bounded_random {A} (src : list A) (s sl : nat) (dst : list A) (d dl : nat) :=
  copy_n src s (Nat.min (sl - s) (dl - d)) dst d.
