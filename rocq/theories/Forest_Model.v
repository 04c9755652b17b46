(** Model of adobe::forest<T> (adobe/forest.hpp) with its node store.

    A node (forest.hpp:363-395) has four links (edge x {prior,next}) and a value;
    the tail node of a forest (node_base tail_m, forest.hpp:694) has links only.
    All nodes of all forests live in one store; a node number is never reused and
    a deleted node is [None], so any access to a deleted node is detected: every
    function returns [None] for undefined behaviour (or when the given fuel of a
    loop is exhausted; the theorems give sufficient fuel). *)
From Verif Require Import Prelude.
Set Implicit Arguments.

Notation "'let*' x ':=' e 'in' k" := (match e with Some x => k | None => None end)
  (at level 200, x pattern, e at level 100, k at level 200, right associativity).

(** forest.hpp:41 edges: [true] = forest_leading_edge (1), [false] = forest_trailing_edge (0).
    An iterator (forest.hpp:402-470) is a node and an edge. *)
Definition iter := (nat * bool)%type.
Definition lead (n : nat) : iter := (n, true).
Definition trail (n : nat) : iter := (n, false).

(** forest.hpp:46-75 pivot_of, leading_of, trailing_of, equal_node, operator== *)
Definition pivot_of (i : iter) : iter := (fst i, negb (snd i)).
Definition leading_of (i : iter) : iter := (fst i, true).
Definition trailing_of (i : iter) : iter := (fst i, false).
Definition equal_node (i j : iter) : bool := fst i =? fst j.
Definition iter_eqb (i j : iter) : bool := (fst i =? fst j) && Bool.eqb (snd i) (snd j).

Section Forest.
Context {T : Type}.

(** nodes_m[edge][prior_s|next_s] (forest.hpp:366-386) and data_m *)
Record node := Node { nextL : nat; nextT : nat; priorL : nat; priorT : nat; data : option T }.
Definition store := list (option node).

Definition get (h : store) (n : nat) : option node :=
  match nth_error h n with Some (Some x) => Some x | _ => None end.

Definition get_next (x : node) (e : bool) : nat := if e then nextL x else nextT x.
Definition get_prior (x : node) (e : bool) : nat := if e then priorL x else priorT x.
Definition put_next (x : node) (e : bool) (m : nat) : node :=
  if e then Node m (nextT x) (priorL x) (priorT x) (data x)
  else Node (nextL x) m (priorL x) (priorT x) (data x).
Definition put_prior (x : node) (e : bool) (m : nat) : node :=
  if e then Node (nextL x) (nextT x) m (priorT x) (data x)
  else Node (nextL x) (nextT x) (priorL x) m (data x).

(** forest.hpp:434-443 forest_iterator::increment *)
Definition increment (h : store) (i : iter) : option iter :=
  let '(n, e) := i in
  let* x := get h n in
  let next := get_next x e in
  if e then Some (next, negb (next =? n))
  else
    let* y := get h next in
    Some (next, get_prior y true =? n).

(** forest.hpp:445-454 forest_iterator::decrement *)
Definition decrement (h : store) (i : iter) : option iter :=
  let '(n, e) := i in
  let* x := get h n in
  let next := get_prior x e in
  if e then
    let* y := get h next in
    Some (next, negb (get_next y false =? n))
  else Some (next, next =? n).

(** forest.hpp:449 dereference *)
Definition deref (h : store) (i : iter) : option T :=
  let* x := get h (fst i) in data x.

(** forest.hpp:539-550 unsafe::set_next for forest iterators *)
Definition set_next (h : store) (x y : iter) : option store :=
  let* a := get h (fst x) in
  let h1 := upd h (fst x) (Some (put_next a (snd x) (fst y))) in
  let* b := get h1 (fst y) in
  Some (upd h1 (fst y) (Some (put_prior b (snd y) (fst x)))).

(** new node_t(x) (forest.hpp:383-385, 390): all links point to the node itself *)
Definition new_node (h : store) (v : option T) : store * nat :=
  let n := length h in (h ++ [Some (Node n n n n v)], n).

(** delete *)
Definition delete (h : store) (n : nat) : option store :=
  let* _ := get h n in Some (upd h n None).

(** forest.hpp:693-694 size_m and tail_m *)
Record forest := F { tail : nat; size_m : nat }.

(** forest() (forest.hpp:586) *)
Definition new_forest (h : store) : store * forest :=
  let '(h', t) := new_node h None in (h', F t 0).

(** forest.hpp:607-613 *)
Definition root (f : forest) : iter := lead (tail f).
Definition end_ (f : forest) : iter := trail (tail f).
Definition begin (h : store) (f : forest) : option iter := increment h (root f).

(** forest.hpp:604 *)
Definition empty (h : store) (f : forest) : option bool :=
  let* b := begin h f in Some (iter_eqb b (end_ f)).

(** forest.hpp:603 *)
Definition size_valid (h : store) (f : forest) : option bool :=
  let* e := empty h f in Some (negb (size_m f =? 0) || e)%bool.

(** forest.hpp:88-91 *)
Definition has_children (h : store) (i : iter) : option bool :=
  let* j := increment h (leading_of i) in Some (negb (equal_node i j)).

(** forest.hpp:78-85 find_parent *)
Fixpoint find_parent (fuel : nat) (h : store) (i : iter) : option iter :=
  match fuel with
  | O => None
  | S fuel =>
      let* j := increment h (trailing_of i) in
      if snd j then find_parent fuel h j else Some j
  end.

(** forest.hpp:103-112 child_iterator *)
Definition child_increment (h : store) (i : iter) : option iter := increment h (pivot_of i).
Definition child_decrement (h : store) (i : iter) : option iter :=
  let* j := decrement h i in Some (pivot_of j).

(** forest.hpp:923-932 child_begin, child_end *)
Definition child_begin (h : store) (i : iter) : option iter := increment h (leading_of i).
Definition child_end (i : iter) : iter := trailing_of i.

(** forest.hpp:117-129 find_edge, find_edge_reverse *)
Fixpoint find_edge (fuel : nat) (h : store) (x : iter) (edge : bool) : option iter :=
  match fuel with
  | O => None
  | S fuel => if Bool.eqb (snd x) edge then Some x
              else let* y := increment h x in find_edge fuel h y edge
  end.
Fixpoint find_edge_reverse (fuel : nat) (h : store) (x : iter) (edge : bool) : option iter :=
  match fuel with
  | O => None
  | S fuel => if Bool.eqb (snd x) edge then Some x
              else let* y := decrement h x in find_edge_reverse fuel h y edge
  end.

(** forest.hpp:133-147 edge_iterator (preorder: true, postorder: false) *)
Definition edge_increment (fuel : nat) (h : store) (edge : bool) (i : iter) : option iter :=
  let* j := increment h i in find_edge fuel h j edge.
Definition edge_decrement (fuel : nat) (h : store) (edge : bool) (i : iter) : option iter :=
  let* j := decrement h i in find_edge_reverse fuel h j edge.

(** forest.hpp:328-339 depth_fullorder_iterator; the depth is a signed integer *)
Definition depth_increment (h : store) (i : iter * Z) : option (iter * Z) :=
  let* j := increment h (fst i) in
  Some (j, if Bool.eqb (snd (fst i)) (snd j)
           then (snd i + (if snd (fst i) then 1 else -1))%Z else snd i).
Definition depth_decrement (h : store) (i : iter * Z) : option (iter * Z) :=
  let* j := decrement h (fst i) in
  Some (j, if Bool.eqb (snd (fst i)) (snd j)
           then (snd i - (if snd (fst i) then 1 else -1))%Z else snd i).

(** forest.hpp:256-295 reverse_fullorder_iterator: base_m and edge_m *)
Definition reverse_make (h : store) (x : iter) : option (iter * bool) :=
  let* b := decrement h x in Some (b, negb (snd b)).
Definition reverse_increment (h : store) (i : iter * bool) : option (iter * bool) :=
  let* b := decrement h (fst (fst i), negb (snd i)) in Some (b, negb (snd b)).
Definition reverse_decrement (h : store) (i : iter * bool) : option (iter * bool) :=
  let* b := increment h (fst (fst i), negb (snd i)) in Some (b, negb (snd b)).

(** forest.hpp:196-204 skip_forward of filter_fullorder_iterator *)
Fixpoint skip_forward (fuel : nat) (h : store) (p : T -> bool) (f l : iter) : option iter :=
  match fuel with
  | O => None
  | S fuel =>
      if (snd f && negb (iter_eqb f l))%bool then
        let* v := deref h f in
        if p v then Some f
        else let* f' := increment h (trailing_of f) in skip_forward fuel h p f' l
      else Some f
  end.

(** forest.hpp:182-193 filter_fullorder_iterator::increment; state (base, inside_m) *)
Definition filter_increment (fuel : nat) (h : store) (p : T -> bool) (first last : iter)
    (s : iter * bool) : option (iter * bool) :=
  let '(i, inside) := s in
  let inside := if iter_eqb i last then false else inside in
  let* i' := increment h i in
  let inside := if iter_eqb i' first then true else inside in
  if inside then let* j := skip_forward fuel h p i' last in Some (j, inside)
  else Some (i', inside).

(** forest.hpp:206-214 skip_backward *)
Fixpoint skip_backward (fuel : nat) (h : store) (p : T -> bool) (f l : iter) : option iter :=
  match fuel with
  | O => None
  | S fuel =>
      if (negb (snd l) && negb (iter_eqb f l))%bool then
        let* v := deref h l in
        if p v then Some l
        else let* l' := decrement h (leading_of l) in skip_backward fuel h p f l'
      else Some l
  end.

(** forest.hpp:216-227 filter_fullorder_iterator::decrement *)
Definition filter_decrement (fuel : nat) (h : store) (p : T -> bool) (first last : iter)
    (s : iter * bool) : option (iter * bool) :=
  let '(i, inside) := s in
  let inside := if iter_eqb i first then false else inside in
  let* i' := decrement h i in
  let inside := if iter_eqb i' last then true else inside in
  if inside then let* j := skip_backward fuel h p first i' in Some (j, inside)
  else Some (i', inside).

(** forest.hpp:651-663 insert *)
Definition insert (h : store) (f : forest) (position : iter) (v : T) : option (store * forest * iter) :=
  let '(h, n) := new_node h (Some v) in
  let result := lead n in
  let* valid := size_valid h f in
  let f := if valid then F (tail f) (S (size_m f)) else f in
  let* p := decrement h position in
  let* h := set_next h p result in
  let* nx := increment h result in
  let* h := set_next h nx position in
  Some (h, f, result).

(** forest.hpp:804-831 erase(position) *)
Definition erase (h : store) (f : forest) (position : iter) : option (store * forest * iter) :=
  let* valid := size_valid h f in
  let f := if valid then F (tail f) (size_m f - 1) else f in
  let* leading_prior := decrement h (leading_of position) in
  let* leading_next := increment h (leading_of position) in
  let* trailing_prior := decrement h (trailing_of position) in
  let* trailing_next := increment h (trailing_of position) in
  let* hc := has_children h position in
  let* h :=
    (if hc then
       let* h := set_next h leading_prior leading_next in
       set_next h trailing_prior trailing_next
     else set_next h leading_prior trailing_next) in
  let* h := delete h (fst position) in
  if snd position then let* r := increment h leading_prior in Some (h, f, r)
  else Some (h, f, trailing_next).

(** forest.hpp:783-800 erase(first,last) *)
Fixpoint erase_loop (fuel : nat) (h : store) (f : forest) (position last : iter) (stack_depth : nat)
    : option (store * forest) :=
  match fuel with
  | O => None
  | S fuel =>
      if iter_eqb position last then Some (h, f)
      else if snd position then
        let* p := increment h position in erase_loop fuel h f p last (S stack_depth)
      else if 0 <? stack_depth then
        let* (h, f, p) := erase h f position in erase_loop fuel h f p last (stack_depth - 1)
      else
        let* p := increment h position in erase_loop fuel h f p last 0
  end.
Definition erase_range (fuel : nat) (h : store) (f : forest) (first last : iter) : option (store * forest * iter) :=
  let* (h, f) := erase_loop fuel h f first last 0 in Some (h, f, last).

(** forest.hpp:640-643 clear *)
Definition clear (fuel : nat) (h : store) (f : forest) : option (store * forest) :=
  let* b := begin h f in
  let* (h, f, _) := erase_range fuel h f b (end_ f) in Some (h, f).

(** forest.hpp:665-674 *)
Definition push_front (h : store) (f : forest) (v : T) := let* b := begin h f in insert h f b v.
Definition push_back (h : store) (f : forest) (v : T) := insert h f (end_ f) v.
Definition pop_front (h : store) (f : forest) := let* b := begin h f in erase h f b.
Definition pop_back (h : store) (f : forest) := let* b := decrement h (end_ f) in erase h f b.

(** forest.hpp:767-777 size(), preorder distance; it also updates the mutable size_m *)
Fixpoint preorder_distance (fuel : nat) (h : store) (first last : iter) : option nat :=
  match fuel with
  | O => None
  | S fuel =>
      if iter_eqb first last then Some 0
      else let* n := edge_increment fuel h true first in
           let* k := preorder_distance fuel h n last in Some (S k)
  end.
Definition size (fuel : nat) (h : store) (f : forest) : option (forest * nat) :=
  let* valid := size_valid h f in
  if valid then Some (f, size_m f)
  else
    let* b := begin h f in
    let* first := find_edge fuel h b true in
    let* last := find_edge fuel h (end_ f) true in
    let* k := preorder_distance fuel h first last in
    Some (F (tail f) k, k).

(** The relinking part of forest.hpp:865-891 splice(pos, x, first, last, count):
    child iterators are given by their base; set_next for child iterators
    (forest.hpp:730-735) pivots the left operand, and std::prev of a child
    iterator (forest.hpp:108-111) decrements and pivots. *)
Definition splice_links (h : store) (pos first last : iter) : option (store * iter) :=
  let* back := decrement h last in
  let* pf := child_decrement h first in
  let* h := set_next h (pivot_of pf) last in
  let* pp := decrement h pos in
  let* h := set_next h pp first in
  let* h := set_next h back pos in
  Some (h, first).

(** splice into [f] from a different forest [x] (&x != this) *)
Definition splice_other (h : store) (f x : forest) (pos first last : iter) (count : nat)
    : option (store * forest * forest * iter) :=
  if (iter_eqb first last || iter_eqb first pos)%bool then Some (h, f, x, pos) else
  let* (f, x) :=
    (if count =? 0 then Some (F (tail f) 0, F (tail x) 0) else
     let* vf := size_valid h f in
     let f := if vf then F (tail f) (size_m f + count) else f in
     let* vx := size_valid h x in
     let x := if vx then F (tail x) (size_m x - count) else x in
     Some (f, x)) in
  let* (h, r) := splice_links h pos first last in
  Some (h, f, x, r).

(** splice within one forest (&x == this) *)
Definition splice_same (h : store) (pos first last : iter) : option (store * iter) :=
  if (iter_eqb first last || iter_eqb first pos)%bool then Some (h, pos) else
  splice_links h pos first last.

(** forest.hpp:836-840 splice(position, x) of a whole other forest *)
Definition splice_all (fuel : nat) (h : store) (f x : forest) (pos : iter) : option (store * forest * forest * iter) :=
  let* b := begin h x in
  let* vx := size_valid h x in
  let* (x, count) := (if vx then size fuel h x else Some (x, 0)) in
  splice_other h f x pos b (end_ x) count.

(** forest.hpp:845-849 splice(position, x, i) of one subtree of another forest *)
Definition splice_node (h : store) (f x : forest) (pos i : iter) : option (store * forest * forest * iter) :=
  let i := leading_of i in
  let* l := child_increment h i in
  let* hc := has_children h i in
  splice_other h f x pos i l (if hc then 0 else 1).

(** forest.hpp:903-911 insert_parent *)
Definition insert_parent (h : store) (f : forest) (first last : iter) (v : T) : option (store * forest * iter) :=
  let* (h, f, result) := insert h f last v in
  if iter_eqb first last then Some (h, f, result) else
  let* (h, _) := splice_same h (trailing_of result) first result in
  Some (h, f, result).

(** adobe/algorithm/reverse.hpp:44-53, 69-71 reverse_nodes on child iterators *)
Fixpoint reverse_append (fuel : nat) (h : store) (first last result : iter) : option (store * iter) :=
  match fuel with
  | O => None
  | S fuel =>
      if iter_eqb first last then Some (h, result)
      else
        let prior := first in
        let* first := child_increment h first in
        let* h := set_next h (pivot_of prior) result in
        reverse_append fuel h first last prior
  end.

(** forest.hpp:913-919 reverse(first,last) *)
Definition reverse (fuel : nat) (h : store) (first last : iter) : option store :=
  let* prior := decrement h first in
  let* (h, first') := reverse_append fuel h first last last in
  set_next h prior first'.

(** forest.hpp:853-862 insert(pos, f, l) of a child range (of any forest) *)
Fixpoint insert_range (fuel : nat) (h : store) (f : forest) (pos first last : iter) : option (store * forest * iter) :=
  match fuel with
  | O => None
  | S fuel =>
      if iter_eqb first last then Some (h, f, pos)
      else
        let* (h, f, pos) :=
          (if snd first then let* v := deref h first in insert h f pos v else Some (h, f, pos)) in
        let* first := increment h first in
        let* pos := increment h pos in
        insert_range fuel h f pos first last
  end.

(** forest.hpp:743-745 copy constructor *)
Definition copy (fuel : nat) (h : store) (x : forest) : option (store * forest) :=
  let '(h, f) := new_forest h in
  let* b := begin h x in
  let* (h, f, _) := insert_range fuel h f (end_ f) b (end_ x) in
  Some (h, f).

(** forest.hpp:702-716 operator==, after the comparison of the sizes *)
Variable eqb : T -> T -> bool.
Fixpoint equal_loop (fuel : nat) (h : store) (first last pos : iter) : option bool :=
  match fuel with
  | O => None
  | S fuel =>
      if iter_eqb first last then Some true
      else if negb (Bool.eqb (snd first) (snd pos)) then Some false
      else
        let* differ :=
          (if snd first then
             let* v := deref h first in let* w := deref h pos in Some (negb (eqb v w))
           else Some false) in
        if differ then Some false
        else
          let* first := increment h first in
          let* pos := increment h pos in
          equal_loop fuel h first last pos
  end.
(** size() updates the mutable size_m of both operands. *)
Definition equal (fuel : nat) (h : store) (x y : forest) : option (forest * forest * bool) :=
  let* (x, sx) := size fuel h x in
  let* (y, sy) := size fuel h y in
  if negb (sx =? sy) then Some (x, y, false)
  else
    let* bx := begin h x in
    let* by_ := begin h y in
    let* r := equal_loop fuel h bx (end_ x) by_ in Some (x, y, r).

End Forest.

(** forest.hpp:1217-1237 transform_forest; the stack of insertion iterators *)
Fixpoint transform_forest {T : Type} (fuel : nat) (h : store (T := T)) (f : forest)
    (g : T -> T) (first last destIter : iter) (stack : list iter) : option (store (T := T) * forest) :=
  match fuel with
  | O => None
  | S fuel =>
      if iter_eqb first last then Some (h, f)
      else
        let* (h, f, stack) :=
          (if snd first then
             let* v := deref h first in
             let* (h, f, it) := insert h f (match stack with s :: _ => s | [] => destIter end) (g v) in
             Some (h, f, trailing_of it :: stack)
           else Some (h, f, match stack with _ :: s => s | [] => [] end)) in
        let* first := increment h first in
        transform_forest fuel h f g first last destIter stack
  end.
