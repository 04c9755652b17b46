(** Model of /repo/adobe/selection.hpp (class selection_t) and
    /repo/adobe/algorithm/selection_algorithms.hpp.

    Boundaries are natural numbers ([std::size_t] in the code: the model has no upper limit, so the
    wrap of [++n] at the largest index in index_set_to_selection is not modelled).  A boundary or
    range iterator is the suffix it heads or its position.  Output iterators that append
    ([std::back_inserter]) are modelled by the list of the values written. *)
From Verif Require Import Prelude Rearrange_Model.

(** selection.hpp:139,143: start_selected_m and store_m *)
Record selection := Sel { start_selected : bool; bounds : list nat }.

(** selection.hpp:124 *)
Definition invert (x : selection) : selection := Sel (negb (start_selected x)) (bounds x).

(** selection.hpp:99 and 102 *)
Definition bsize (x : selection) : nat := length (bounds x).
Definition sel_empty (x : selection) : bool :=
  match bounds x with [] => negb (start_selected x) | _ => false end.

(** std::equal(first1, last1, first2), which does not know where its second sequence ends:
    [None] when it would read past it. *)
Fixpoint std_equal3 (l1 l2 : list nat) : option bool :=
  match l1, l2 with
  | [], _ => Some true
  | _ :: _, [] => None
  | a :: l1, b :: l2 => if Nat.eqb a b then std_equal3 l1 l2 else Some false
  end.

(** selection.hpp:131-133 *)
Definition sel_eqb (x y : selection) : option bool :=
  if Nat.eqb (bsize x) (bsize y) then std_equal3 (bounds x) (bounds y) else Some false.

(** selection_algorithms.hpp:58-76: the values written to [output] *)
Fixpoint op_remainder_loop (pred : bool -> bool -> bool) (prev this_inside other_inside : bool)
    (s : list nat) : list nat :=
  match s with
  | [] => []
  | b :: s =>
    let this_inside := negb this_inside in
    let cur := pred this_inside other_inside in
    let rest := op_remainder_loop pred cur this_inside other_inside s in
    if negb (Bool.eqb prev cur) then b :: rest else rest
  end.
Definition op_remainder pred (s : list nat) (this_inside other_inside : bool) : list nat :=
  op_remainder_loop pred (pred this_inside other_inside) this_inside other_inside s.

(** selection_algorithms.hpp:114-143: one iteration of the main loop, entered with both sequences
    non-empty; [None] is a read through an end iterator or the fuel running out. *)
Fixpoint op_loop (fuel : nat) (pred : bool -> bool -> bool) (prev in1 in2 : bool)
    (s1 s2 : list nat) : option (list nat) :=
  match fuel with
  | O => None
  | S fuel =>
    match s1, s2 with
    | a :: t1, b :: t2 =>
      let next := if Nat.ltb a b then a else b in
      let '(in1, s1) := if Nat.eqb a next then (negb in1, t1) else (in1, s1) in
      let '(in2, s2) := if Nat.eqb b next then (negb in2, t2) else (in2, s2) in
      let cur := pred in1 in2 in
      match (match s1, s2 with
             | [], _ => Some (op_remainder pred s2 in2 in1)
             | _, [] => Some (op_remainder pred s1 in1 in2)
             | _, _ => op_loop fuel pred cur in1 in2 s1 s2
             end) with
      | None => None
      | Some rest => Some (if negb (Bool.eqb prev cur) then next :: rest else rest)
      end
    | _, _ => None
    end
  end.

(** selection_algorithms.hpp:105-146 *)
Definition selection_operation (pred : bool -> bool -> bool) (s1 s2 : list nat) (in1 in2 : bool)
  : option (list nat) :=
  match s1, s2 with
  | [], _ => Some (op_remainder pred s2 in2 in1)
  | _, [] => Some (op_remainder pred s1 in1 in2)
  | _, _ => op_loop (length s1 + length s2) pred (pred in1 in2) in1 in2 s1 s2
  end.

(** selection_algorithms.hpp:159-163, 176-180, 193-197, 210-214: the iterator versions *)
Definition it_union s1 s2 in1 in2 := selection_operation orb s1 s2 in1 in2.
Definition it_intersection s1 s2 in1 in2 := selection_operation andb s1 s2 in1 in2.
Definition it_difference s1 s2 in1 in2 := it_intersection s1 s2 in1 (negb in2).
(** selection_algorithms.hpp:86-91: logical_xor *)
Definition logical_xor (x y : bool) : bool := negb (Bool.eqb x y).
Definition it_symmetric_difference s1 s2 in1 in2 := selection_operation logical_xor s1 s2 in1 in2.

Definition omap_sel (b : bool) (o : option (list nat)) : option selection :=
  match o with None => None | Some l => Some (Sel b l) end.

(** selection_algorithms.hpp:253-266, 274-286, 294-306, 314-327.  [same] is the test [&x == &y]. *)
Definition sel_intersection (same : bool) (x y : selection) : option selection :=
  if same then Some x else
  omap_sel (start_selected x && start_selected y)
    (it_intersection (bounds x) (bounds y) (start_selected x) (start_selected y)).
Definition sel_union (same : bool) (x y : selection) : option selection :=
  if same then Some x else
  omap_sel (start_selected x || start_selected y)
    (it_union (bounds x) (bounds y) (start_selected x) (start_selected y)).
Definition sel_difference (same : bool) (x y : selection) : option selection :=
  if same then Some (Sel false []) else
  omap_sel (negb (Bool.eqb (start_selected x) (start_selected y)))
    (it_difference (bounds x) (bounds y) (start_selected x) (start_selected y)).
Definition sel_symmetric_difference (same : bool) (x y : selection) : option selection :=
  if same then Some (Sel false []) else
  omap_sel (negb (Bool.eqb (start_selected x) (start_selected y)))
    (it_symmetric_difference (bounds x) (bounds y) (start_selected x) (start_selected y)).

(** selection_algorithms.hpp:226-245.  The recursion is one level deep: after flipping one flag
    the two agree.  [boost::next] of an empty sequence's iterator is [None]. *)
Definition includes_same (s1 s2 : list nat) (inside : bool) : option bool :=
  match it_intersection s1 s2 inside inside with
  | None => None
  | Some result => std_equal3 s2 result
  end.
Definition it_includes (s1 s2 : list nat) (in1 in2 : bool) : option bool :=
  if Bool.eqb in1 in2 then includes_same s1 s2 in1
  else if in1 then
    match s1 with [] => None | _ :: t1 => includes_same t1 s2 (negb in1) end
  else
    match s2 with [] => None | _ :: t2 => includes_same s1 t2 in1 end.
(** selection_algorithms.hpp:335-343 *)
Definition sel_includes (same : bool) (x y : selection) : option bool :=
  if same then Some true
  else it_includes (bounds x) (bounds y) (start_selected x) (start_selected y).

(** std::upper_bound / std::lower_bound over a sorted sequence: the first position holding a value
    greater than / not less than [i]. *)
Fixpoint std_upper_bound (s : list nat) (i : nat) : nat :=
  match s with
  | [] => 0
  | b :: s => if Nat.ltb i b then 0 else S (std_upper_bound s i)
  end.
Fixpoint std_lower_bound (s : list nat) (i : nat) : nat :=
  match s with
  | [] => 0
  | b :: s => if Nat.ltb b i then S (std_lower_bound s i) else 0
  end.

(** selection_algorithms.hpp:431-438 *)
Definition is_selected (x : selection) (index : nat) : bool :=
  let count := std_upper_bound (bounds x) index in
  negb (Bool.eqb (Nat.eqb (count mod 2) 1) (start_selected x)).

(** [boost::next(boost::begin(range), k)]: undefined past the end of a range of [n] elements *)
Definition next_begin (n k : nat) : option nat := if Nat.leb k n then Some k else None.

(** selection_algorithms.hpp:408-420 *)
Fixpoint size_loop (n : nat) (s : list nat) (prev iter : nat) (inside : bool) (result : nat)
  : option nat :=
  let result := if inside then result + (iter - prev) else result in
  if Nat.eqb iter n then Some result
  else match s with
       | [] => (* ++s_iter past the end: [s] holds the positions after s_iter; not reached *)
         None
       | _ :: s' =>
         let prev := iter in
         match s' with
         | [] => size_loop n s' prev n (negb inside) result
         | b :: _ =>
           match next_begin n b with
           | None => None
           | Some iter => size_loop n s' prev iter (negb inside) result
           end
         end
       end.
(** selection_algorithms.hpp:385-423; [s] in the loop is [s_iter, s_last) *)
Definition size_in (x : selection) (n : nat) : option nat :=
  if sel_empty x then Some 0
  else match bounds x with
       | [] => Some n
       | b :: _ =>
         match next_begin n b with
         | None => None
         | Some iter => size_loop n (bounds x) 0 iter (start_selected x) 0
         end
       end.

Section Range.
Context {A : Type}.

(** selection_algorithms.hpp:464-475 and, identically, 549-560: the elements written to the output
    (selection_copy) or passed to the function object (selection_foreach).  [rest] is
    [iter, last), [pos] the position of [iter]. *)
Fixpoint copy_loop (n : nat) (pos : nat) (rest : list A) (s : list nat) (inside : bool)
  : option (list A) :=
  match rest with
  | [] => Some []
  | v :: rest =>
    match (match s with
           | [] => Some (s, inside)
           | b :: s' =>
             match next_begin n b with
             | None => None
             | Some q => Some (if Nat.eqb pos q then (s', negb inside) else (s, inside))
             end
           end) with
    | None => None
    | Some (s, inside) =>
      match copy_loop n (S pos) rest s inside with
      | None => None
      | Some out => Some (if inside then v :: out else out)
      end
    end
  end.
(** selection_algorithms.hpp:447-478 *)
Definition selection_copy (x : selection) (range : list A) : option (list A) :=
  match range with
  | [] => Some []
  | _ => copy_loop (length range) 0 range (bounds x) (start_selected x)
  end.
(** selection_algorithms.hpp:536-563: the sequence of calls of [proc] *)
Definition selection_foreach (x : selection) (range : list A) : option (list A) :=
  copy_loop (length range) 0 range (bounds x) (start_selected x).

(** A destination for selection_partition_copy: a back_inserter (which appends, whatever copy of
    the iterator is used) or a pointer into an array of fixed size. *)
Inductive sink := Append (l : list A) | Array (l : list A) (pos : nat).
(** std::copy(first, last, out): the iterator passed is not advanced, the one returned is.
    Writing past the array is [None]. *)
Fixpoint write_at (l : list A) (pos : nat) (vs : list A) : option (list A) :=
  match vs with
  | [] => Some l
  | v :: vs => if Nat.ltb pos (length l) then write_at (upd l pos v) (S pos) vs else None
  end.
(** the effect of std::copy seen through the iterator that was passed (selection_algorithms.hpp:515
    and 517 drop the returned one) *)
Definition copy_dropping (vs : list A) (o : sink) : option sink :=
  match o with
  | Append l => Some (Append (l ++ vs))
  | Array l pos => match write_at l pos vs with None => None | Some l => Some (Array l pos) end
  end.

(** selection_algorithms.hpp:505-525.  [s] is [selection_first, selection_last). *)
Fixpoint partition_copy_loop (range : list A) (first : nat) (s : list nat) (inside : bool)
    (fo to : sink) : option (sink * sink) :=
  let n := length range in
  match (match s with [] => Some n | b :: _ => next_begin n b end) with
  | None => None
  | Some copy_last =>
    let chunk := firstn (copy_last - first) (skipn first range) in
    match (if inside then
             match copy_dropping chunk to with None => None | Some to => Some (fo, to) end
           else
             match copy_dropping chunk fo with None => None | Some fo => Some (fo, to) end) with
    | None => None
    | Some (fo, to) =>
      if Nat.eqb copy_last n then Some (fo, to)
      else match s with
           | [] => None
           | _ :: s => partition_copy_loop range copy_last s (negb inside) fo to
           end
    end
  end.
(** selection_algorithms.hpp:486-528 *)
Definition selection_partition_copy (x : selection) (range : list A) (fo to : sink)
  : option (sink * sink) :=
  match range with
  | [] => Some (fo, to)
  | _ => partition_copy_loop range 0 (bounds x) (start_selected x) fo to
  end.

(** other_of.hpp:37-51 *)
Definition other_of (p : nat * nat) (x : nat) : nat :=
  if Nat.eqb (fst p) x then snd p else fst p.

(** selection_algorithms.hpp:679-701.  [first] is the beginning of the whole range (position 0). *)
Fixpoint stable_partition_ (fuel : nat) (r : list A) (sel : list nat)
    (range_first range_last boundary_count : nat) : option (list A * nat) :=
  match fuel with
  | O => None
  | S fuel =>
    let n := length sel in
    if Nat.eqb n 0 then
      Some (r, if Nat.eqb (boundary_count mod 2) 0 then range_last else range_first)
    else
      let half := n / 2 in
      match nth_error sel half with
      | None => None
      | Some b =>
        match next_begin (length r) b with
        | None => None
        | Some range_middle =>
          match stable_partition_ fuel r (firstn half sel) range_first range_middle
                  boundary_count with
          | None => None
          | Some (r, i) =>
            match stable_partition_ fuel r (skipn (half + 1) sel) range_middle range_last
                    (boundary_count + half + 1) with
            | None => None
            | Some (r, j) =>
              match rotate r i range_middle j with
              | None => None
              | Some (r, p1, p2) => Some (r, other_of (p1, p2) range_middle)
              end
            end
          end
        end
      end
  end.
Definition stable_partition_it r sel rf rl bc := stable_partition_ (S (length sel)) r sel rf rl bc.
(** selection_algorithms.hpp:709-715 *)
Definition selection_stable_partition (x : selection) (range : list A) : option (list A * nat) :=
  stable_partition_it range (bounds x) 0 (length range) (if start_selected x then 1 else 0).

(** selection_algorithms.hpp:571-645: selection_find_boundary.  Both versions (lower_bound at
    580 and the linear loop at 605-608) return the same pair; the iterator is its position. *)
Definition find_boundary_ra (x : selection) (p : nat) : nat * nat :=
  let b := std_lower_bound (bounds x) p in (b, b).
Fixpoint find_boundary_fwd_ (s : list nat) (p : nat) (pos count : nat) : nat * nat :=
  match s with
  | b :: s' => if Nat.ltb b p then find_boundary_fwd_ s' p (S pos) (S count) else (pos, count)
  | [] => (pos, count)
  end.
Definition find_boundary_fwd (x : selection) (p : nat) : nat * nat :=
  find_boundary_fwd_ (bounds x) p 0 0.
(** selection_algorithms.hpp:632-645, for selection_t (whose iterators are random access) *)
Definition find_boundary (x : selection) (p : nat) : nat * nat :=
  if Nat.eqb (bsize x) 0 then (bsize x, 0) else find_boundary_ra x p.

(** selection_algorithms.hpp:753-777 *)
Definition selection_stable_partition_about (x : selection) (range : list A) (p prior : nat)
  : option (list A * nat * nat) :=
  let split := find_boundary x p in
  match next_begin (length range) p with
  | None => None
  | Some range_p =>
    match stable_partition_it range (firstn (fst split) (bounds x)) 0 range_p prior with
    | None => None
    | Some (r, i) =>
      match stable_partition_it r (skipn (fst split) (bounds x)) range_p (length range)
              (snd split + 1) with
      | None => None
      | Some (r, j) => Some (r, i, j)
      end
    end
  end.
End Range.
Arguments sink : clear implicits.

(** selection_algorithms.hpp:797-804 *)
Fixpoint find_sequence_end (s : list nat) (n : nat) : list nat * nat :=
  match s with
  | b :: s' => if Nat.eqb n b then find_sequence_end s' (S n) else (s, n)
  | [] => (s, n)
  end.
(** selection_algorithms.hpp:818-829: the values written to [output] *)
Fixpoint index_set_to_bounds (fuel : nat) (s : list nat) : option (list nat) :=
  match s with
  | [] => Some []
  | n :: s =>
    match fuel with
    | O => None
    | S fuel =>
      let '(s, m) := find_sequence_end s (S n) in
      match index_set_to_bounds fuel s with
      | None => None
      | Some out => Some (n :: m :: out)
      end
    end
  end.
(** selection_algorithms.hpp:864-872 *)
Definition index_set_to_selection (s : list nat) : option selection :=
  omap_sel false (index_set_to_bounds (length s) s).

(** selection_algorithms.hpp:902-907; [fuel] bounds the number of increments of [index] *)
Fixpoint index_run (fuel index stop max_index : nat) (selected : bool) : option (list nat * nat) :=
  if Nat.eqb index stop || Nat.eqb index max_index then Some ([], index)
  else match fuel with
       | O => None
       | S fuel =>
         match index_run fuel (S index) stop max_index selected with
         | None => None
         | Some (out, k) => Some (if selected then index :: out else out, k)
         end
       end.
(** selection_algorithms.hpp:901-911 *)
Fixpoint index_outer (s : list nat) (index max_index : nat) (selected : bool)
  : option (list nat * nat * bool) :=
  match s with
  | [] => Some ([], index, selected)
  | b :: s =>
    match index_run (S max_index) index b max_index selected with
    | None => None
    | Some (out, index) =>
      match index_outer s index max_index (negb selected) with
      | None => None
      | Some (out', index, selected) => Some (out ++ out', index, selected)
      end
    end
  end.
(** selection_algorithms.hpp:889-918 *)
Definition selection_to_index_set (x : selection) (max_index : nat) : option (list nat) :=
  match index_outer (bounds x) 0 max_index (start_selected x) with
  | None => None
  | Some (out, index, selected) =>
    if selected then
      (* 913-915: while (index != max_index) *output++ = index++; *)
      match index_run (S max_index) index max_index max_index true with
      | None => None
      | Some (out', _) => Some (out ++ out')
      end
    else Some out
  end.
