(** What a user of a sheet assumes and gets, stated without the algorithms of Adam_Model. *)
From Coq Require Import String Permutation Sorted.
From Verif Require Import Prelude Vm_Value Adam_Model.
From Coq Require Import List.
Local Open Scope nat_scope.
Ltac Zify.zify_post_hook ::= idtac.

(** The choices left open are admissible: a hash index is iterated in some order; std::sort returns
    some permutation ordered by priority (flow() works from the back, so [sd_flow] is decreasing). *)
Definition sched_ok (D : sched) : Prop :=
  (forall l, Permutation (sd_iter D l) l) /\
  (forall p l, Permutation (sd_flow D p l) l /\ StronglySorted (fun a b => (p b <= p a)%Z) (sd_flow D p l)) /\
  (forall p l, Permutation (sd_touch D p l) l /\ StronglySorted (fun a b => (p a <= p b)%Z) (sd_touch D p l)).

(** the cell a relation means by a name *)
Definition rel_cell (Sh : sheet) (n : name) (c : nat) : Prop := lookup n (output_index Sh) = Some c.
Definition rel_names (x : relation) : list name := flat_map fst (r_terms x).
(** A well-formed relation: at least two terms, each naming at least one cell, no name twice, and
    every name is that of an interface cell, to which the relation is attached. *)
Definition relation_ok (Sh : sheet) (x : relation) : Prop :=
  2 <= length (r_terms x) /\
  (forall t, In t (r_terms x) -> fst t <> []) /\
  NoDup (rel_names x) /\
  (forall n, In n (rel_names x) -> exists c i, rel_cell Sh n c /\ input_of Sh c = Some i) /\
  (forall c, In c (r_edges x) <-> exists n, In n (rel_names x) /\ rel_cell Sh n c).
(** different names are different cells *)
Definition names_ok (Sh : sheet) : Prop :=
  forall n c, rel_cell Sh n c -> exists k, nth_error (cells Sh) c = Some k /\ c_name k = n.
Definition relations_ok (Sh : sheet) : Prop :=
  names_ok Sh /\ forall x, In x (rels Sh) -> relation_ok Sh x.

(** relation [r] is in force *)
Definition active (Sh : sheet) (s : dyn) (r : nat) : Prop := r < length (rels Sh) /\ d_rres s r = false.
(** cell [c] is named in relation [r] *)
Definition attached (Sh : sheet) (c r : nat) : Prop :=
  exists x, nth_error (rels Sh) r = Some x /\ In c (r_edges x).
(** term [j] of relation [r] supplies the values of its cells: its [i]th name is given its [i]th value *)
Definition enforced_by (Sh : sheet) (s : dyn) (r j : nat) : Prop :=
  exists x ns e, nth_error (rels Sh) r = Some x /\ nth_error (r_terms x) j = Some (ns, e) /\
    forall i n c, nth_error ns i = Some n -> rel_cell Sh n c -> d_term s c = Some (r, j, i).
(** What the conditionals leave when they have been decided: no cell of a relation in force has been
    resolved, nothing has been derived, and every cell counts the relations in force it is named in. *)
Definition undecided (Sh : sheet) (s : dyn) : Prop :=
  (forall c, d_term s c = None) /\
  (forall c, d_count s c = N.of_nat (length (filter (fun r => negb (d_rres s r)) (rindex Sh c)))) /\
  (forall c r, active Sh s r -> attached Sh c r -> d_resolved s c = false) /\
  (forall c, d_resolved s c = true -> d_count s c = 0%N).
(** every term names exactly one cell *)
Definition single_terms (Sh : sheet) : Prop :=
  forall x t, In x (rels Sh) -> In t (r_terms x) -> exists n, fst t = [n].
(** [c] is computed from [d]: some relation in force derives [c] and names [d] on its other side *)
Definition computed_from (Sh : sheet) (s : dyn) (c d : nat) : Prop :=
  exists r j i, d_term s c = Some (r, j, i) /\ attached Sh d r /\ d <> c.

(** *** histories of a sheet *)
Inductive build_op :=
| OInput (n : name) (init : option expr) | OOutput (n : name) (e : expr) | OLogic (n : name) (e : expr)
| OInvariant (n : name) (e : expr) | OConstant (n : name) (e : expr) | OConstantValue (n : name) (v : value)
| OInterface (n : name) (lk : bool) (init e : option expr) | OInterfaceValue (n : name) (v : value)
| ORelation (cond : option expr) (terms : list (list name * expr)).
Definition build (o : build_op) (Sh : sheet) (s : dyn) : bres :=
  match o with
  | OInput n i => add_input n i Sh s | OOutput n e => add_output n e Sh s | OLogic n e => add_logic n e Sh s
  | OInvariant n e => add_invariant n e Sh s | OConstant n e => add_constant n e Sh s
  | OConstantValue n v => add_constant_value n v Sh s
  | OInterface n lk i e => add_interface n lk i e Sh s | OInterfaceValue n v => add_interface_value n v Sh s
  | ORelation c ts => add_relation c ts Sh s
  end.
(** What a client can do with a sheet.  The add_ calls must succeed (the source says they are not
    transactional); every other call may also throw.  [clean] says that no update() has thrown. *)
Inductive reachable : bool -> sheet -> dyn -> Prop :=
| R_empty : reachable true empty_sheet initial
| R_build b o Sh s Sh' s' : reachable b Sh s -> build o Sh s = BOk Sh' s' -> reachable b Sh' s'
| R_set b Sh s n v u s' : reachable b Sh s -> set_cell Sh n v s = ROk u s' -> reachable b Sh s'
| R_touch b Sh s D ns : reachable b Sh s -> sched_ok D -> reachable b Sh (touch Sh D ns s)
| R_update b Sh s D l u s' : reachable b Sh s -> sched_ok D -> update Sh D l s = Some (ROk u s') -> reachable b Sh s'
| R_update_throws b Sh s D l x s' : reachable b Sh s -> sched_ok D -> update Sh D l s = Some (RThrow x s') -> reachable false Sh s'
| R_reinitialize b Sh s D u s' : reachable b Sh s -> sched_ok D -> reinitialize Sh D s = ROk u s' -> reachable b Sh s'
| R_reinitialize_throws b Sh s D x s' : reachable b Sh s -> sched_ok D -> reinitialize Sh D s = RThrow x s' -> reachable b Sh s'
| R_inspect b Sh s e v s' : reachable b Sh s -> calc_expr Sh e s = ROk v s' -> reachable b Sh s'
| R_inspect_throws b Sh s e x s' : reachable b Sh s -> calc_expr Sh e s = RThrow x s' -> reachable b Sh s'.
(** The relations the author of a sheet writes: at least two terms, none empty, no cell twice. *)
Definition relation_terms_ok (ts : list (list name * expr)) : Prop :=
  2 <= length ts /\ (forall t, In t ts -> fst t <> []) /\ NoDup (flat_map fst ts).

(** *** what a sheet means *)
(** the value of an expression when [look] gives the values of the variables *)
Fixpoint run (look : name -> option value) (e : expr) : option value :=
  match e with
  | Ret v => Some v
  | Fail => None
  | Look n k => match look n with Some v => run look (k v) | None => None end
  end.
(** the expression may look up [n] *)
Inductive may_look : expr -> name -> Prop :=
| ML_here n k : may_look (Look n k) n
| ML_there m k v n : may_look (k v) n -> may_look (Look m k) n.
(** no evaluation looks up [n] twice *)
Fixpoint looks_once (n : name) (e : expr) : Prop :=
  match e with
  | Ret _ | Fail => True
  | Look m k => (m = n -> forall v, ~ may_look (k v) n) /\ (m <> n -> forall v, looks_once n (k v))
  end.
(** the value the [i]th cell of term [j] of relation [r] gets *)
Definition term_value (Sh : sheet) (look : name -> option value) (t : nat * nat * nat) : option value :=
  let '(r, j, i) := t in
  match nth_error (rels Sh) r with
  | None => None
  | Some x => match nth_error (r_terms x) j with
              | None => None
              | Some ([_], e) => run look e
              | Some (_, e) => match run look e with Some (VArr l) => nth_error l i | _ => None end
              end
  end.
(** In its own expression the name of an interface cell stands for what the relations (or, if no
    relation derives the cell, the client) give it; in the term of the relation that derives it, for
    what the client gave.  [T] says which term derives a cell, [inp] what the input cells hold. *)
Definition own_value (Sh : sheet) (T : nat -> option (nat * nat * nat)) (inp : nat -> value)
    (val : name -> option value) (n : name) (c i : nat) : option value :=
  match T c with
  | None => Some (inp i)
  | Some t => term_value Sh (fun x => if String.eqb x n then Some (inp i) else val x) t
  end.
(** the definition of a cell, given the values of the others *)
Definition def_value (Sh : sheet) (T : nat -> option (nat * nat * nat)) (inp : nat -> value)
    (val : name -> option value) (c : nat) : option value :=
  match nth_error (cells Sh) c with
  | None => None
  | Some k =>
    match c_spec k, c_in k, c_calc k with
    | (SInput | SConst | SIfIn), _, _ => Some (inp c)
    | SIfOut, Some i, CExpr e =>
      run (fun x => if String.eqb x (c_name k) then own_value Sh T inp val (c_name k) c i else val x) e
    | SIfOut, Some i, CGet _ => own_value Sh T inp val (c_name k) c i
    | (SOutput | SLogic | SInvariant), _, CExpr e => run val e
    | _, _, _ => None
    end
  end.
(** every value agrees with the definition of its cell *)
Definition solves (Sh : sheet) (T : nat -> option (nat * nat * nat)) (inp : nat -> value)
    (val : name -> option value) : Prop :=
  forall n v, val n = Some v ->
    exists c, lookup n (name_index Sh) = Some c /\ def_value Sh T inp val c = Some v.
(** the values a sheet holds *)
Definition value_of (Sh : sheet) (s : dyn) (n : name) : option value :=
  match lookup n (name_index Sh) with
  | Some c => if d_evaluated s c then Some (d_state s c) else None
  | None => None
  end.
(** the variables the definition of a cell mentions *)
Definition cell_reads (Sh : sheet) (T : nat -> option (nat * nat * nat)) (c : nat) (m : name) : Prop :=
  (exists k e, nth_error (cells Sh) c = Some k /\ c_calc k = CExpr e /\ may_look e m) \/
  (exists r j i x ns e, T c = Some (r, j, i) /\ nth_error (rels Sh) r = Some x /\
     nth_error (r_terms x) j = Some (ns, e) /\ may_look e m).
(** no cell depends on itself, except that an interface cell may mention its own name *)
Definition acyclic_by (Sh : sheet) (T : nat -> option (nat * nat * nat)) (rank : name -> nat) : Prop :=
  forall n c m, lookup n (name_index Sh) = Some c -> cell_reads Sh T c m ->
    (is_ifout Sh c = true /\ m = n) \/ rank m < rank n.
(** the expression of a derived interface cell mentions the cell's own name at most once *)
Definition self_once (Sh : sheet) (T : nat -> option (nat * nat * nat)) : Prop :=
  forall c k e, nth_error (cells Sh) c = Some k -> c_calc k = CExpr e -> T c <> None ->
    looks_once (c_name k) e.
