(** What dancing_links_t (/repo/adobe/dancing_links.hpp:88-228) is for: exact cover, with the secondary columns and colours of
    /repo/adobe/implementation/toroid.hpp:107-168. *)
From Verif Require Import Prelude Dlx_Model.
From Coq Require Import List Arith ZArith Lia Bool Permutation.
Import ListNotations.

(** the matrix the calls describe *)
Definition cell (ops : list op) (r c : nat) (k : Z) : Prop := In (OSet r c k) ops.
Definition secondary (ops : list op) (c : nat) : Prop := In (OSecondary c) ops.
(** the places that were set, in order *)
Fixpoint places (ops : list op) : list (nat * nat) :=
  match ops with [] => [] | OSet r c _ :: t => (r, c) :: places t | OSecondary _ :: t => places t end.
(** the calls are legal: indices in range, no place set twice, no negative colour, and colours only in secondary columns *)
Record valid (rows cols : nat) (ops : list op) : Prop := {
  v_rows : 1 <= rows; v_cols : 1 <= cols;
  v_cell : forall r c k, cell ops r c k -> r < rows /\ c < cols /\ (0 <= k)%Z;
  v_sec : forall c, secondary ops c -> c < cols;
  v_once : NoDup (places ops);
  v_col : forall r c k, cell ops r c k -> ~ secondary ops c -> k = 0%Z }.

(** A set of rows is a solution if every row has a cell in a primary column, every primary column has a cell in a row of the
    set, and two rows of the set meet only in cells of the same colour, not 0 (so never in a primary column). *)
Record solution (cols : nat) (ops : list op) (S : list nat) : Prop := {
  s_nodup : NoDup S;
  s_rows : forall r, In r S -> exists c k, cell ops r c k /\ ~ secondary ops c;
  s_cover : forall c, c < cols -> ~ secondary ops c -> exists r k, In r S /\ cell ops r c k;
  s_meet : forall r r', In r S -> In r' S -> r <> r' -> forall c k k', cell ops r c k -> cell ops r' c k' -> k = k' /\ (0 < k)%Z }.

(** a list has every solution once, in some order *)
Record all_solutions (cols : nat) (ops : list op) (sols : list (list nat)) : Prop := {
  a_sound : forall S, In S sols -> solution cols ops S;
  a_complete : forall S, solution cols ops S -> exists S', In S' sols /\ Permutation S S';
  a_once : ForallOrdPairs (fun a b => ~ Permutation a b) sols }.

(** how the callback is told of one solution: a call for each row, the last one marked *)
Fixpoint tag (l : list nat) : list (nat * bool) := match l with [] => [] | [x] => [(x, true)] | x :: r => (x, false) :: tag r end.

(** the headers met going right from the header, up to the header *)
Inductive linked (m : mem) : nat -> Prop :=
| linked_first : right_of m 0 <> 0 -> linked m (right_of m 0)
| linked_next c : linked m c -> right_of m c <> 0 -> linked m (right_of m c).
(** a heuristic must pick one of them while there is one *)
Definition picks_a_column (heuristic : mem -> nat) : Prop := forall m, right_of m 0 <> 0 -> linked m (heuristic m).
