(** Model of closed_hash_set / closed_hash_map: /repo/adobe/closed_hash.hpp:165-604 and
    /repo/adobe/iterator/set_next.hpp:52-83.
    The node array and the two list heads are a heap: a reference is one of the two tails or a slot
    of storage_m, and every reference has a next and a prior pointer and a state. In the code the
    state is kept in the low bits of next_m; here it is a separate field ([set_next] keeps it, as
    the code does; [set_next_raw] is only used on fresh nodes, whose state is free).
    [val r] is [None] while no value is constructed in the node; reading or destroying such a value
    and constructing over a live one are errors. Errors (undefined behaviour, leaks, an allocation
    larger than the prime table) are [None]. The hasher, key_equal, key_transform and the
    allocator are parameters, the allocator always the default one and never failing. *)
From Verif Require Import Prelude.
Local Open Scope nat_scope.

Inductive ref := FreeTail | UsedTail | Slot (i : nat).
Definition ref_eqb (x y : ref) : bool :=
  match x, y with
  | FreeTail, FreeTail | UsedTail, UsedTail => true
  | Slot i, Slot j => i =? j
  | _, _ => false
  end.
(** closed_hash.hpp:178 *)
Inductive state := state_free | state_home | state_misplaced.
Definition set_ref {B} (f : ref -> B) (r : ref) (b : B) : ref -> B := fun x => if ref_eqb r x then b else f x.

Notation "x <- e ;; k" := (match e with None => None | Some x => k end) (at level 60, e at next level, right associativity).

Section ClosedHash.
(** T, key_type, KeyTransform, Hash, Pred, operator== of T *)
Context {V K : Type} (key : V -> K) (hash : K -> nat) (key_eq : K -> K -> bool) (value_eq : V -> V -> bool).

(** header_t, closed_hash.hpp:229-262: capacity, size, and the nodes *)
Record table := Table { capacity : nat; size : nat; next : ref -> ref; prior : ref -> ref; st : ref -> state; val : ref -> option V }.
(** the set: header() may be 0 *)
Definition hset := option table.

(** closed_hash.hpp:197-200, 109-113 *)
Definition set_next (t : table) (x y : ref) : table :=
  Table (capacity t) (size t) (set_ref (next t) x y) (set_ref (prior t) y x) (st t) (val t).
(** closed_hash.hpp:212-215 *)
Definition set_state (t : table) (x : ref) (s : state) : table :=
  Table (capacity t) (size t) (next t) (prior t) (set_ref (st t) x s) (val t).
Definition set_val (t : table) (x : ref) (v : option V) : table :=
  Table (capacity t) (size t) (next t) (prior t) (st t) (set_ref (val t) x v).
Definition set_size (t : table) (n : nat) : table :=
  Table (capacity t) n (next t) (prior t) (st t) (val t).
(** construct_at and destroy *)
Definition construct (t : table) (x : ref) (v : V) : option table :=
  match val t x with None => Some (set_val t x (Some v)) | Some _ => None end.
Definition destroy (t : table) (x : ref) : option table :=
  match val t x with None => None | Some _ => Some (set_val t x None) end.

(** set_next.hpp:60-65 *)
Definition splice_node_range (t : table) (location first last : ref) : table :=
  let successor := next t location in
  set_next (set_next t location first) last successor.
(** set_next.hpp:72-75 *)
Definition skip_node (t : table) (location : ref) : table :=
  set_next t (prior t location) (next t location).

(** closed_hash.hpp:532-538; the last entry, ULONG_MAX, cannot be allocated *)
Definition prime_table : list N :=
  [3; 7; 17; 37; 79; 163; 331; 673; 1361; 2729; 5471; 10949; 21911; 43853; 87719; 175447; 350899;
   701819; 1403641; 2807303; 5614657; 11229331; 22458671; 44917381; 89834777; 179669557; 359339171;
   718678369; 1437356741; 2874713497]%N.
Definition prime_for (n : nat) : option nat :=
  option_map N.to_nat (find (fun p => (N.of_nat n <=? p)%N) prime_table).

(** closed_hash.hpp:557-564: chain the nodes into the free list *)
Fixpoint link_free (t : table) (p : ref) (first n : nat) : table :=
  match n with
  | 0 => set_next t p FreeTail
  | S n => link_free (set_next t p (Slot first)) (Slot first) (S first) n
  end.
Definition self (r : ref) := r.
(** closed_hash.hpp:528-565; list_node_base() makes a tail its own neighbour *)
Definition allocate (n : nat) : option hset :=
  if n =? 0 then Some None else
  n <- prime_for n ;;
  let t := Table n 0 self self (fun _ => state_free) (fun _ => None) in
  Some (Some (link_free t FreeTail 0 n)).

(** closed_hash.hpp:571-580 *)
Definition bucket (t : table) (k : K) : ref := Slot (hash k mod capacity t).
Definition is_home (t : table) (r : ref) : bool := match st t r with state_home => true | _ => false end.

(** closed_hash.hpp:583-591, the do-while; fuel *)
Fixpoint find_chain (fuel : nat) (t : table) (f l : ref) (k : K) : option ref :=
  match fuel with
  | 0 => None
  | S fuel =>
    v <- val t f ;;
    if key_eq k (key v) then Some f else
    let f := next t f in
    if ref_eqb f l || is_home t f then Some l else find_chain fuel t f l k
  end.
(** closed_hash.hpp:410-421; [None] inside: the null iterator, which is end() of an empty set *)
Definition find_node (t : table) (k : K) : option ref :=
  let node := bucket t k in
  if is_home t node then find_chain (S (capacity t)) t node UsedTail k else Some UsedTail.
Definition find (s : hset) (k : K) : option (option ref) :=
  match s with
  | None => Some None
  | Some t => r <- find_node t k ;; Some (if ref_eqb r UsedTail then None else Some r)
  end.
(** closed_hash.hpp:437 *)
Definition count (s : hset) (k : K) : option nat :=
  r <- find s k ;; Some (match r with None => 0 | Some _ => 1 end).
(** *iterator *)
Definition deref (s : hset) (r : ref) : option V := match s with None => None | Some t => val t r end.
(** closed_hash.hpp:340-343 *)
Definition size_of (s : hset) : nat := match s with None => 0 | Some t => size t end.
Definition capacity_of (s : hset) : nat := match s with None => 0 | Some t => capacity t end.
Definition empty (s : hset) : bool := size_of s =? 0.

(** closed_hash.hpp:594-598 *)
Definition insert_raw (t : table) (location : ref) (x : V) (s : state) : option table :=
  t <- construct t location x ;;
  Some (skip_node (set_state t location s) location).
(** closed_hash.hpp:601-605 *)
Definition erase_raw (t : table) (location : ref) : option table :=
  t <- destroy t location ;;
  Some (splice_node_range (set_state t location state_free) FreeTail location location).

(** closed_hash.hpp:465-497, after the capacity check. The code's fall through from the
    misplaced case into the default case is [insert_home]. *)
Definition insert_home (t : table) (node : ref) (x : V) : option (table * (ref * bool)) :=
  t <- insert_raw t node x state_home ;;
  let t := splice_node_range t UsedTail node node in
  Some (set_size t (size t + 1), (node, true)).
Definition insert_core (t : table) (x : V) : option (table * (ref * bool)) :=
  let node := bucket t (key x) in
  match st t node with
  | state_home =>
    found <- find_chain (S (capacity t)) t node UsedTail (key x) ;;
    if negb (ref_eqb found UsedTail) then
      match val t found with
      | None => None
      | Some _ => Some (set_val t found (Some x), (found, false))
      end
    else
      let free := next t FreeTail in
      t <- insert_raw t free x state_misplaced ;;
      let t := splice_node_range t node free free in
      Some (set_size t (size t + 1), (free, true))
  | state_misplaced =>
    let free := next t FreeTail in
    v <- val t node ;;
    t <- insert_raw t free v state_misplaced ;;
    let t := set_next t (prior t node) free in
    let t := set_next t free (next t node) in
    t <- erase_raw t node ;;
    insert_home t node x
  | state_free => insert_home t node x
  end.

(** iteration from begin() to end() *)
Fixpoint walk (fuel : nat) (t : table) (f : ref) : option (list V) :=
  if ref_eqb f UsedTail then Some [] else
  match fuel with
  | 0 => None
  | S fuel => v <- val t f ;; r <- walk fuel t (next t f) ;; Some (v :: r)
  end.
Definition elements (s : hset) : option (list V) :=
  match s with None => Some [] | Some t => walk (capacity t) t (next t UsedTail) end.
(** reverse iteration: --last, then *last *)
Fixpoint walk_back (fuel : nat) (t : table) (l : ref) : option (list V) :=
  if ref_eqb l (next t UsedTail) then Some [] else
  match fuel with
  | 0 => None
  | S fuel => let l := prior t l in v <- val t l ;; r <- walk_back fuel t l ;; Some (v :: r)
  end.
Definition elements_back (s : hset) : option (list V) :=
  match s with None => Some [] | Some t => walk_back (capacity t) t UsedTail end.

(** closed_hash.hpp:461-498. [grow] is reserve. An insert made by reserve itself (move_insert)
    must not need to grow again: [no_grow]. *)
Definition insert_with (grow : hset -> nat -> option hset) (s : hset) (x : V) : option (hset * (ref * bool)) :=
  s <- (if capacity_of s =? size_of s then grow s (if negb (size_of s =? 0) then 2 * size_of s else 3) else Some s) ;;
  match s with
  | None => None
  | Some t => r <- insert_core t x ;; Some (Some (fst r), snd r)
  end.
Definition no_grow (s : hset) (n : nat) : option hset := None.
Fixpoint insert_list (grow : hset -> nat -> option hset) (s : hset) (l : list V) : option hset :=
  match l with
  | [] => Some s
  | x :: l => r <- insert_with grow s x ;; insert_list grow (fst r) l
  end.

(** closed_hash.hpp:345-357; the old table goes away with tmp *)
Definition reserve (s : hset) (n : nat) : option hset :=
  if n <=? capacity_of s then Some s else
  match s with
  | None => allocate n
  | Some t => l <- elements s ;; tmp <- allocate n ;; insert_list no_grow tmp l
  end.
Definition insert (s : hset) (x : V) : option (hset * (ref * bool)) := insert_with reserve s x.
(** closed_hash.hpp:440-445 *)
Definition insert_range (s : hset) (l : list V) : option hset := insert_list reserve s l.
(** closed_hash.hpp:322-326 *)
Definition copy (s : hset) : option hset :=
  l <- elements s ;; c <- allocate (size_of s) ;; insert_range c l.

(** closed_hash.hpp:376-393 *)
Definition erase_at (t : table) (location : ref) : option (table * ref) :=
  let nxt := next t location in
  r <- (match st t location, st t nxt with
        | state_home, state_misplaced =>
          if negb (ref_eqb nxt UsedTail) then
            a <- val t nxt ;; b <- val t location ;;
            Some (set_val (set_val t nxt (Some b)) location (Some a), location, nxt)
          else Some (t, nxt, location)
        | _, _ => Some (t, nxt, location)
        end) ;;
  let '(t, result, location) := r in
  let t := skip_node t location in
  t <- erase_raw t location ;;
  Some (set_size t (size t - 1), result).
(** closed_hash.hpp:395-401 *)
Definition erase (s : hset) (k : K) : option (hset * nat) :=
  match s with
  | None => Some (None, 0)
  | Some t =>
    node <- find_node t k ;;
    if ref_eqb node UsedTail then Some (Some t, 0)
    else r <- erase_at t node ;; Some (Some (fst r), 1)
  end.
(** closed_hash.hpp:403-406 *)
Fixpoint clear_loop (fuel : nat) (t : table) (first : ref) : option table :=
  if ref_eqb first UsedTail then Some t else
  match fuel with
  | 0 => None
  | S fuel => r <- erase_at t first ;; clear_loop fuel (fst r) (snd r)
  end.
Definition clear (s : hset) : option hset :=
  match s with
  | None => Some None
  | Some t => t <- clear_loop (size t) t (next t UsedTail) ;; Some (Some t)
  end.

(** closed_hash.hpp:502-509: destroy every value; returns the values still constructed in storage *)
Fixpoint destroy_used (fuel : nat) (t : table) (first : ref) : option table :=
  if ref_eqb first UsedTail then Some t else
  match fuel with
  | 0 => None
  | S fuel => t <- destroy t first ;; destroy_used fuel t (next t first)
  end.
Definition destructor (s : hset) : option hset :=
  match s with
  | None => Some None
  | Some t => t <- destroy_used (capacity t) t (next t UsedTail) ;; Some (Some t)
  end.

(** closed_hash.hpp:513-523 *)
Fixpoint all_in (l : list V) (y : hset) : option bool :=
  match l with
  | [] => Some true
  | v :: l =>
    it <- find y (key v) ;;
    match it with
    | None => Some false
    | Some r => w <- deref y r ;; if value_eq v w then all_in l y else Some false
    end
  end.
Definition equal (x y : hset) : option bool :=
  if negb (size_of x =? size_of y) then Some false
  else l <- elements x ;; all_in l y.

(** closed_hash.hpp:670-676 closed_hash_map::operator[]; [make k] is make_pair(k, mapped_type()) *)
Definition index (make : K -> V) (s : hset) (k : K) : option (hset * ref) :=
  r <- find s k ;;
  match r with
  | Some r => Some (s, r)
  | None => r <- insert s (make k) ;; Some (fst r, fst (snd r))
  end.
End ClosedHash.
