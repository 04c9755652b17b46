(** The single-pass algorithms of adobe/numeric.hpp and adobe/algorithm.  A range is a pair of
    positions in a list of values; reading past the end of the list is undefined ([None]), and so is a
    loop that never meets [last] (its fuel runs out). *)
From Coq Require Import List Arith.
Import ListNotations.

Section Scan.
Variable V : Type.
Definition bind {A B} (x : option A) (k : A -> option B) : option B := match x with Some a => k a | None => None end.
(** *first *)
Definition deref (m : list V) (i : nat) : option V := nth_error m i.
(** *first = x *)
Fixpoint put (m : list V) (i : nat) (x : V) : option (list V) :=
  match m, i with
  | [], _ => None
  | _ :: m', O => Some (x :: m')
  | y :: m', S i' => bind (put m' i' x) (fun r => Some (y :: r))
  end.

(** numeric.hpp:39-77 max_adjacent_difference; [sub] and [lt] are the value type's operators *)
Section Mad.
Variable sub : V -> V -> V.
Variable lt : V -> V -> bool.
Fixpoint mad_loop (fuel : nat) (m : list V) (last : nat) (diff : V) (result previous first : nat) : option nat :=
  match fuel with
  | O => None
  | S f =>
    if first =? last then Some result
    else bind (deref m first) (fun a => bind (deref m previous) (fun b =>
      let d := sub a b in
      if lt diff d then mad_loop f m last d previous first (S first)
      else mad_loop f m last diff result first (S first)))
  end.
Definition max_adjacent_difference (m : list V) (first last : nat) : option nat :=
  let result := first in
  if first =? last then Some result
  else
    let previous := first in
    let first := S first in
    if first =? last then Some result
    else bind (deref m first) (fun a => bind (deref m previous) (fun b =>
      mad_loop (S (length m)) m last (sub a b) result first (S first))).
End Mad.

(** algorithm/iota.hpp:50-58; [next] is ++, [conv] the conversion to the element type *)
Section Iota.
Variable T : Type.
Variable next : T -> T.
Variable conv : T -> V.
Fixpoint iota_loop (fuel : nat) (m : list V) (first last : nat) (result : T) : option (T * list V) :=
  match fuel with
  | O => None
  | S f =>
    if first =? last then Some (result, m)
    else bind (put m first (conv result)) (fun m' => iota_loop f m' (S first) last (next result))
  end.
Definition iota (m : list V) (first last : nat) (value : T) := iota_loop (S (length m)) m first last value.
End Iota.

(** algorithm/filter.hpp:57-66; [O] is the output iterator with what has been written through it *)
Section Filter.
Variable O : Type.
Variable op : V -> O -> O.
Fixpoint filter_loop (fuel : nat) (m : list V) (first last : nat) (result : O) : option O :=
  match fuel with
  | Datatypes.O => None
  | S f =>
    if first =? last then Some result
    else bind (deref m first) (fun x => filter_loop f m (S first) last (op x result))
  end.
Definition filter (m : list V) (first last : nat) (result : O) := filter_loop (S (length m)) m first last result.
End Filter.

(** algorithm/find_match.hpp:43-47, through std::find_if *)
Section Find.
Variable T : Type.
Variable comp : T -> V -> bool.
Fixpoint find_loop (fuel : nat) (m : list V) (first last : nat) (value : T) : option nat :=
  match fuel with
  | O => None
  | S f =>
    if first =? last then Some first
    else bind (deref m first) (fun x => if comp value x then Some first else find_loop f m (S first) last value)
  end.
Definition find_match (m : list V) (first last : nat) (value : T) := find_loop (S (length m)) m first last value.
End Find.

(** algorithm/for_each_position.hpp:42-48; [W] is whatever [f] works on, the elements included *)
Section Each.
Variable W : Type.
Variable f : nat -> W -> W.
Fixpoint each_loop (fuel : nat) (first last : nat) (w : W) : option W :=
  match fuel with
  | O => None
  | S k => if first =? last then Some w else each_loop k (S first) last (f first w)
  end.
Definition for_each_position (m : list V) (first last : nat) (w : W) := each_loop (S (length m)) first last w.
End Each.

(** algorithm/other_of.hpp:40-42 *)
Definition other_of (pred : V -> V -> bool) (p : V * V) (x : V) : V := if pred (fst p) x then snd p else fst p.
End Scan.
Arguments deref {V}. Arguments put {V}. Arguments mad_loop {V}. Arguments max_adjacent_difference {V}.
Arguments iota_loop {V T}. Arguments iota {V T}. Arguments filter_loop {V O}. Arguments filter {V O}.
Arguments find_loop {V T}. Arguments find_match {V T}. Arguments each_loop {W}. Arguments for_each_position {V W}. Arguments other_of {V}.
