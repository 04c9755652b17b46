(** Model of table_index — /repo/adobe/table_index.hpp:686-1135.
    A row is an element of the table, [transform] gives its key (transform_m) and [compare] orders keys
    (compare_m).  The index is the vector of pointers to rows; a pointer is modelled by its row.
    std::sort is any function with its contract; std::unique is modelled.  [count] is not modelled: it
    names bound_predicate_t, which does not exist (line 1055), so it cannot be instantiated. *)
From Verif Require Import Prelude Search_Model.

Section Model.
Context {Row Key : Type}.
Variable transform : Row -> Key.
Variable compare : Key -> Key -> bool.
Variable key_eqb : Key -> Key -> bool.      (* operator== of Key *)
Notation index := (list Row).

(** 793-796 indirect_compare_t *)
Definition indirect_compare (x y : Row) : bool := compare (transform x) (transform y).

(** 917-919 push_back; 923-926 pop_back *)
Definition push_back (i : index) (x : Row) : index := i ++ [x].
Definition pop_back (i : index) : index := removelast i.
(** std::vector::insert at a position *)
Definition insert1 (i : index) (pos : nat) (x : Row) : index := firstn pos i ++ x :: skipn pos i.
(** 944-955 insert(position, first, last): one at a time, the position advancing *)
Fixpoint insert (i : index) (pos : nat) (xs : list Row) : index :=
  match xs with [] => i | x :: xs' => insert (insert1 i pos x) (S pos) xs' end.
(** 960-972 erase(position), erase(first, last) *)
Definition erase (i : index) (f l : nat) : index := firstn f i ++ skipn l i.

(** std::unique(first, last, pred): an element is dropped when pred(last kept, element) *)
Fixpoint unique_after (pred : Row -> Row -> bool) (kept : Row) (rest : list Row) : list Row :=
  match rest with
  | [] => []
  | y :: rest' => if pred kept y then unique_after pred kept rest' else y :: unique_after pred y rest'
  end.
Definition std_unique (pred : Row -> Row -> bool) (l : list Row) : list Row :=
  match l with [] => [] | x :: l' => x :: unique_after pred x l' end.
(** 990-994 unique(): adobe::unique(index_m, indirect_compare_t(...)), and the rest erased *)
Definition unique (i : index) : index := std_unique indirect_compare i.

(** 1060-1122 the searches *)
Definition lower_bound (i : index) (k : Key) : option nat :=
  match Search_Model.lower_bound compare transform i k with Some (j, _) => Some j | None => None end.
Definition upper_bound (i : index) (k : Key) : option nat :=
  match Search_Model.upper_bound compare transform i k with Some (j, _) => Some j | None => None end.
Definition equal_range (i : index) (k : Key) : option (nat * nat) :=
  match Search_Model.equal_range compare transform i k with Some (a, b, _) => Some (a, b) | None => None end.
(** 1029-1051 find: a position, the length if there is none; [None] is undefined behaviour *)
Definition find (i : index) (k : Key) : option nat :=
  match lower_bound i k with
  | None => None
  | Some j => if j =? length i then Some j
              else match nth_error i j with
                   | None => None
                   | Some r => Some (if negb (key_eqb (transform r) k) then length i else j)
                   end
  end.
(** 1005-1025 operator[]: [inr] the row, [inl] std::range_error *)
Definition subscript (i : index) (k : Key) : option (unit + Row) :=
  match find i k with
  | None => None
  | Some j => if j =? length i then Some (inl tt)
              else match nth_error i j with Some r => Some (inr r) | None => None end
  end.
End Model.
