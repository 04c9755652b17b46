(** Model of the property model library — /repo/source/adam.cpp (line numbers below refer to it) and
    /repo/adobe/adam.hpp, class sheet_t.
    - Cells are numbered by their position in cell_set_m, relations by their position in
      relation_cell_set_m; a pointer to one is its number.
    - An expression is the tree of variable look-ups its evaluation makes: [Ret v] ends with a value,
      [Fail] throws (a bad cast, a user function), [Look n k] calls sheet_t::get(n) and goes on with
      the value.  So any expression the virtual machine can run is covered, provided the functions
      the client registers are deterministic and do not call the sheet back; undefined behaviour in
      the machine itself is the business of Vm_Model.
    - priority_t is an unbounded integer here (int in the code).
    - std::bitset<1024> is the number whose bits are the set; [set] beyond 1023 throws when a cell
      is added, see [add_input] and [add_interface].
    - std::size_t counters wrap.
    - The iteration order of the hash indices, and how std::sort orders cells of equal priority, are
      parameters ([sched]): the theorems hold for every choice.
    - Monitors are represented by the list of notifications update() sends; a monitor that calls the
      sheet back is not modelled, nor are the assertions (they are compiled out in a release build;
      where one is followed by a null dereference the model says [RUB]). *)
From Coq Require Import String.
From Verif Require Import Prelude Vm_Value.
From Coq Require Import List.
Local Open Scope nat_scope.
Ltac Zify.zify_post_hook ::= idtac.

Definition name := string.
Inductive expr := Ret (v : value) | Fail | Look (n : name) (k : value -> expr).

(** 83-91 *)
Inductive specifier := SInput | SIfIn | SIfOut | SOutput | SLogic | SConst | SInvariant.
(** 258: calculator_m is empty, evaluates an expression, or is get(name) (789) *)
Inductive calculator := CNone | CExpr (e : expr) | CGet (n : name).
(** 232-325 cell_t: the members that do not change after the cell is added.  [c_in] is
    interface_input_m. *)
Record cell := mk_cell {
  c_spec : specifier; c_name : name; c_calc : calculator; c_linked : bool; c_in : option nat }.
(** 215-230 relation_cell_t; adam.hpp relation_t is a list of names and an expression.  An empty
    conditional is [None]. *)
Record relation := mk_rel {
  r_cond : option expr; r_terms : list (list name * expr); r_edges : list nat }.
(** 385-419: the cells, the relations and the indices (relation_index_m of a cell is [rindex]) *)
Record sheet := mk_sheet {
  cells : list cell; rels : list relation;
  name_index : list (name * nat); input_index : list (name * nat); output_index : list (name * nat);
  invariant_index : list nat; has_output : bool }.

(** 260-284, 393-413: the members that change *)
Record dyn := mk_dyn {
  d_state : nat -> value; d_prio : nat -> Z; d_resolved : nat -> bool; d_evaluated : nat -> bool;
  d_count : nat -> N; d_dirty : nat -> bool; d_contrib : nat -> N; d_init : nat -> N;
  d_inv : nat -> bool; d_term : nat -> option (nat * nat * nat);
  d_rres : nat -> bool;
  d_acc : N; d_stack : list (name * bool); d_vacc : N; d_cond : N; d_high : Z; d_low : Z;
  d_initdirty : N; d_pacc : N; d_active : N }.

Definition fset {A} (f : nat -> A) (i : nat) (x : A) : nat -> A :=
  fun j => if j =? i then x else f j.

Definition w_state x s := mk_dyn x (d_prio s) (d_resolved s) (d_evaluated s) (d_count s) (d_dirty s) (d_contrib s) (d_init s) (d_inv s) (d_term s) (d_rres s) (d_acc s) (d_stack s) (d_vacc s) (d_cond s) (d_high s) (d_low s) (d_initdirty s) (d_pacc s) (d_active s).
Definition w_prio x s := mk_dyn (d_state s) x (d_resolved s) (d_evaluated s) (d_count s) (d_dirty s) (d_contrib s) (d_init s) (d_inv s) (d_term s) (d_rres s) (d_acc s) (d_stack s) (d_vacc s) (d_cond s) (d_high s) (d_low s) (d_initdirty s) (d_pacc s) (d_active s).
Definition w_resolved x s := mk_dyn (d_state s) (d_prio s) x (d_evaluated s) (d_count s) (d_dirty s) (d_contrib s) (d_init s) (d_inv s) (d_term s) (d_rres s) (d_acc s) (d_stack s) (d_vacc s) (d_cond s) (d_high s) (d_low s) (d_initdirty s) (d_pacc s) (d_active s).
Definition w_evaluated x s := mk_dyn (d_state s) (d_prio s) (d_resolved s) x (d_count s) (d_dirty s) (d_contrib s) (d_init s) (d_inv s) (d_term s) (d_rres s) (d_acc s) (d_stack s) (d_vacc s) (d_cond s) (d_high s) (d_low s) (d_initdirty s) (d_pacc s) (d_active s).
Definition w_count x s := mk_dyn (d_state s) (d_prio s) (d_resolved s) (d_evaluated s) x (d_dirty s) (d_contrib s) (d_init s) (d_inv s) (d_term s) (d_rres s) (d_acc s) (d_stack s) (d_vacc s) (d_cond s) (d_high s) (d_low s) (d_initdirty s) (d_pacc s) (d_active s).
Definition w_dirty x s := mk_dyn (d_state s) (d_prio s) (d_resolved s) (d_evaluated s) (d_count s) x (d_contrib s) (d_init s) (d_inv s) (d_term s) (d_rres s) (d_acc s) (d_stack s) (d_vacc s) (d_cond s) (d_high s) (d_low s) (d_initdirty s) (d_pacc s) (d_active s).
Definition w_contrib x s := mk_dyn (d_state s) (d_prio s) (d_resolved s) (d_evaluated s) (d_count s) (d_dirty s) x (d_init s) (d_inv s) (d_term s) (d_rres s) (d_acc s) (d_stack s) (d_vacc s) (d_cond s) (d_high s) (d_low s) (d_initdirty s) (d_pacc s) (d_active s).
Definition w_init x s := mk_dyn (d_state s) (d_prio s) (d_resolved s) (d_evaluated s) (d_count s) (d_dirty s) (d_contrib s) x (d_inv s) (d_term s) (d_rres s) (d_acc s) (d_stack s) (d_vacc s) (d_cond s) (d_high s) (d_low s) (d_initdirty s) (d_pacc s) (d_active s).
Definition w_inv x s := mk_dyn (d_state s) (d_prio s) (d_resolved s) (d_evaluated s) (d_count s) (d_dirty s) (d_contrib s) (d_init s) x (d_term s) (d_rres s) (d_acc s) (d_stack s) (d_vacc s) (d_cond s) (d_high s) (d_low s) (d_initdirty s) (d_pacc s) (d_active s).
Definition w_term x s := mk_dyn (d_state s) (d_prio s) (d_resolved s) (d_evaluated s) (d_count s) (d_dirty s) (d_contrib s) (d_init s) (d_inv s) x (d_rres s) (d_acc s) (d_stack s) (d_vacc s) (d_cond s) (d_high s) (d_low s) (d_initdirty s) (d_pacc s) (d_active s).
Definition w_rres x s := mk_dyn (d_state s) (d_prio s) (d_resolved s) (d_evaluated s) (d_count s) (d_dirty s) (d_contrib s) (d_init s) (d_inv s) (d_term s) x (d_acc s) (d_stack s) (d_vacc s) (d_cond s) (d_high s) (d_low s) (d_initdirty s) (d_pacc s) (d_active s).
Definition w_acc x s := mk_dyn (d_state s) (d_prio s) (d_resolved s) (d_evaluated s) (d_count s) (d_dirty s) (d_contrib s) (d_init s) (d_inv s) (d_term s) (d_rres s) x (d_stack s) (d_vacc s) (d_cond s) (d_high s) (d_low s) (d_initdirty s) (d_pacc s) (d_active s).
Definition w_stack x s := mk_dyn (d_state s) (d_prio s) (d_resolved s) (d_evaluated s) (d_count s) (d_dirty s) (d_contrib s) (d_init s) (d_inv s) (d_term s) (d_rres s) (d_acc s) x (d_vacc s) (d_cond s) (d_high s) (d_low s) (d_initdirty s) (d_pacc s) (d_active s).
Definition w_vacc x s := mk_dyn (d_state s) (d_prio s) (d_resolved s) (d_evaluated s) (d_count s) (d_dirty s) (d_contrib s) (d_init s) (d_inv s) (d_term s) (d_rres s) (d_acc s) (d_stack s) x (d_cond s) (d_high s) (d_low s) (d_initdirty s) (d_pacc s) (d_active s).
Definition w_cond x s := mk_dyn (d_state s) (d_prio s) (d_resolved s) (d_evaluated s) (d_count s) (d_dirty s) (d_contrib s) (d_init s) (d_inv s) (d_term s) (d_rres s) (d_acc s) (d_stack s) (d_vacc s) x (d_high s) (d_low s) (d_initdirty s) (d_pacc s) (d_active s).
Definition w_high x s := mk_dyn (d_state s) (d_prio s) (d_resolved s) (d_evaluated s) (d_count s) (d_dirty s) (d_contrib s) (d_init s) (d_inv s) (d_term s) (d_rres s) (d_acc s) (d_stack s) (d_vacc s) (d_cond s) x (d_low s) (d_initdirty s) (d_pacc s) (d_active s).
Definition w_low x s := mk_dyn (d_state s) (d_prio s) (d_resolved s) (d_evaluated s) (d_count s) (d_dirty s) (d_contrib s) (d_init s) (d_inv s) (d_term s) (d_rres s) (d_acc s) (d_stack s) (d_vacc s) (d_cond s) (d_high s) x (d_initdirty s) (d_pacc s) (d_active s).
Definition w_initdirty x s := mk_dyn (d_state s) (d_prio s) (d_resolved s) (d_evaluated s) (d_count s) (d_dirty s) (d_contrib s) (d_init s) (d_inv s) (d_term s) (d_rres s) (d_acc s) (d_stack s) (d_vacc s) (d_cond s) (d_high s) (d_low s) x (d_pacc s) (d_active s).
Definition w_pacc x s := mk_dyn (d_state s) (d_prio s) (d_resolved s) (d_evaluated s) (d_count s) (d_dirty s) (d_contrib s) (d_init s) (d_inv s) (d_term s) (d_rres s) (d_acc s) (d_stack s) (d_vacc s) (d_cond s) (d_high s) (d_low s) (d_initdirty s) x (d_active s).
Definition w_active x s := mk_dyn (d_state s) (d_prio s) (d_resolved s) (d_evaluated s) (d_count s) (d_dirty s) (d_contrib s) (d_init s) (d_inv s) (d_term s) (d_rres s) (d_acc s) (d_stack s) (d_vacc s) (d_cond s) (d_high s) (d_low s) (d_initdirty s) (d_pacc s) x.

Inductive exn :=
| XCycle               (* 1485 *)
| XNotFound            (* 658, 1441, 1469, 1491 *)
| XUnresolved          (* 472 *)
| XExpr                (* an expression threw *)
| XCast                (* cast<bool>, cast<array_t>, or an empty std::function *)
| XAllResolved         (* 1085 *)
| XOver                (* 1103 *)
| XExists              (* a cell of that name already exists *)
| XRange               (* bitset::set: std::out_of_range *)
| XNoInterface.        (* 904 *)
Inductive res (A : Type) := ROk (a : A) (s : dyn) | RThrow (x : exn) (s : dyn) | RUB.
Arguments ROk {A} a s.
Arguments RThrow {A} x s.
Arguments RUB {A}.

Fixpoint lookup (n : name) (l : list (name * nat)) : option nat :=
  match l with
  | [] => None
  | (m, c) :: l' => if String.eqb m n then Some c else lookup n l'
  end.
(** std::size_t arithmetic *)
Definition dec (n : N) : N := if (n =? 0)%N then (2 ^ 64 - 1)%N else (n - 1)%N.
Definition bit (i : nat) : N := N.of_nat i.
Definition setb (b : N) (i : nat) : N := N.setbit b (bit i).
Definition testb (b : N) (i : nat) : bool := N.testbit b (bit i).

Fixpoint mem (i : nat) (l : list nat) : bool :=
  match l with [] => false | j :: l' => (i =? j) || mem i l' end.

(** What the code leaves open: the order in which a hash index is iterated, and how the sorts break
    ties.  The stack of flow() is listed from its back. *)
Record sched := {
  sd_iter : list nat -> list nat;
  sd_flow : (nat -> Z) -> list nat -> list nat;
  sd_touch : (nat -> Z) -> list nat -> list nat }.

Section Sheet.
Variable S : sheet.

Definition cell_at (c : nat) : option cell := nth_error (cells S) c.
Definition spec_is (p : specifier -> bool) (c : nat) : bool :=
  match cell_at c with Some k => p (c_spec k) | None => false end.
Definition is_ifout (c : nat) : bool := spec_is (fun p => match p with SIfOut => true | _ => false end) c.
Definition is_leaf (c : nat) : bool :=
  spec_is (fun p => match p with SInput | SConst => true | _ => false end) c.
Definition input_of (c : nat) : option nat :=
  match cell_at c with Some k => c_in k | None => None end.
Definition linked (c : nat) : bool := match cell_at c with Some k => c_linked k | None => false end.
Definition edges_of (r : nat) : list nat :=
  match nth_error (rels S) r with Some x => r_edges x | None => [] end.
Definition terms_of (r : nat) : list (list name * expr) :=
  match nth_error (rels S) r with Some x => r_terms x | None => [] end.
(** 294, 911: relation_index_m, in the order the relations were added *)
Definition rindex (c : nat) : list nat :=
  filter (fun r => mem c (edges_of r)) (seq 0 (length (rels S))).

(** *** evaluation *)
Section Get.
Variable g : name -> dyn -> res value.          (* the nested calls of get() *)

(** 917-926 calculate_expression *)
Fixpoint ev (e : expr) (s : dyn) : res value :=
  match e with
  | Ret v => ROk v s
  | Fail => RThrow XExpr s
  | Look n k => match g n s with ROk v s' => ev (k v) s' | r => r end
  end.
(** 1106-1115, 328-331: term_m, bound in flow() to calculate_expression or calculate_indexed *)
Definition run_term (t : nat * nat * nat) (s : dyn) : res value :=
  let '(r, j, i) := t in
  match nth_error (terms_of r) j with
  | None => RUB
  | Some (ns, e) =>
    if length ns =? 1 then ev e s
    else match ev e s with
         | ROk (VArr l) s' => match nth_error l i with Some v => ROk v s' | None => RUB end
         | ROk _ s' => RThrow XCast s'
         | r => r
         end
  end.
(** calling calculator_m *)
Definition run_calc (k : calculator) (s : dyn) : res value :=
  match k with
  | CNone => RThrow XCast s
  | CExpr e => ev e s
  | CGet n => g n s
  end.
(** 463-480 cell_t::calculate *)
Definition calculate (c : nat) (s : dyn) : res unit :=
  match cell_at c with
  | None => RUB
  | Some k =>
    if d_evaluated s c then ROk tt s
    else if negb (d_count s c =? 0)%N then RThrow XUnresolved s
    else match run_calc (c_calc k) s with
         | ROk v s' =>
           ROk tt (w_evaluated (fset (d_evaluated s') c true)
                    (w_state (fset (d_state s') c v)
                      (w_dirty (fset (d_dirty s') c (negb (veqb v (d_state s' c)))) s')))
         | RThrow x s' => RThrow x s'
         | RUB => RUB
         end
  end.
Definition pop (c : nat) (s : dyn) : dyn := if is_ifout c then w_stack (tl (d_stack s)) s else s.
Definition add_cond (c : nat) (s : dyn) : dyn :=
  if is_leaf c then s else w_contrib (fset (d_contrib s) c (N.lor (d_contrib s c) (d_cond s))) s.
(** 1488-1545: get() after the depth check, outside initialize mode *)
Definition get_body (n : name) (s : dyn) : res value :=
  match lookup n (name_index S) with
  | None => RThrow XNotFound s
  | Some c =>
    let self := match d_stack s with (m, _) :: _ => String.eqb m n | [] => false end in
    if self then
      match input_of c with
      | None => RUB
      | Some i =>
        match d_stack s, d_term s c with
        | (m, false) :: st, Some t => run_term t (w_stack ((m, true) :: st) s)
        | _, _ => ROk (d_state s i)
                    (w_vacc (setb (d_vacc s) i) (w_acc (N.lor (d_acc s) (d_contrib s i)) s))
        end
      end
    else
      let s1 := if is_ifout c then w_stack ((n, false) :: d_stack s) s else s in
      if d_evaluated s1 c then
        let s2 := add_cond c (w_acc (N.lor (d_acc s1) (d_contrib s1 c)) s1) in
        ROk (d_state s2 c) (pop c s2)
      else
        match calculate c (w_acc 0%N s1) with
        | ROk _ s2 =>
          let s3 := w_contrib (fset (d_contrib s2) c (d_acc s2)) s2 in
          let s4 := add_cond c (w_acc (N.lor (d_acc s3) (d_acc s1)) s3) in
          ROk (d_state s4 c) (pop c s4)
        | RThrow x s2 => RThrow x (pop c s2)
        | RUB => RUB
        end
  end.
End Get.

(** 1477-1486: get_count_m; [fuel] is cell_set_m.size() - get_count_m before the call *)
Fixpoint get (fuel : nat) (n : name) (s : dyn) : res value :=
  match fuel with
  | O => RThrow XCycle s
  | Datatypes.S f => get_body (get f) n s
  end.
Definition depth : nat := length (cells S).
(** 1451 get, called by a client or by an expression evaluated at the top *)
Definition get_top : name -> dyn -> res value := get depth.
(** 917 calculate_expression at the top; 640 inspect *)
Definition calc_expr (e : expr) (s : dyn) : res value := ev get_top e s.

(** *** flow *)
(** 349-365 *)
Definition output_cell (n : name) : option nat := lookup n (output_index S).
Definition term_resolved (s : dyn) (ns : list name) : bool :=
  existsb (fun n => match output_cell n with Some c => d_resolved s c | None => false end) ns.
(** the unresolved terms, in order: find_if finds the first, the second search the next *)
Definition unresolved_terms (s : dyn) (ts : list (list name * expr)) : list nat :=
  filter (fun j => match nth_error ts j with
                   | Some (ns, _) => negb (term_resolved s ns)
                   | None => false
                   end) (seq 0 (length ts)).
Definition dec_count (c : nat) (s : dyn) : dyn := w_count (fset (d_count s) c (dec (d_count s c))) s.
(** 1096-1130: flow out to the cells of the chosen term [j] of relation [r] *)
Fixpoint flow_out (r j : nat) (ns : list name) (i : nat) (stk : list nat) (s : dyn)
  : res (list nat) :=
  match ns with
  | [] => ROk stk s
  | n :: ns' =>
    match output_cell n with
    | None => RUB
    | Some c =>
      match d_term s c with
      | Some _ => RThrow XOver s
      | None =>
        match input_of c with
        | None => RUB
        | Some ci =>
          let s1 := dec_count c (w_term (fset (d_term s) c (Some (r, j, i))) s) in
          let s2 := if linked ci
                    then w_prio (fset (d_prio s1) ci (d_low s1 - 1)%Z) (w_low (d_low s1 - 1)%Z s1)
                    else s1 in
          if (d_count s2 c =? 0)%N
          then flow_out r j ns' (Datatypes.S i) stk (w_resolved (fset (d_resolved s2) c true) s2)
          else flow_out r j ns' (Datatypes.S i) (c :: stk) s2
        end
      end
    end
  end.
(** 1132-1142: the names of the other terms, each once (the order does not matter) *)
Fixpoint others (j : nat) (i : nat) (ts : list (list name * expr)) : list name :=
  match ts with
  | [] => []
  | (ns, _) :: ts' => (if i =? j then [] else ns) ++ others j (Datatypes.S i) ts'
  end.
(** 1146-1151 *)
Fixpoint detach (ns : list name) (s : dyn) : res unit :=
  match ns with
  | [] => ROk tt s
  | n :: ns' =>
    match output_cell n with
    | None => RUB
    | Some c => detach ns' (if d_resolved s c then s else dec_count c s)
    end
  end.
(** 1073-1152: the relations of the cell [c] just popped *)
Fixpoint flow_rels (c : nat) (rs : list nat) (stk : list nat) (s : dyn) : res (list nat) :=
  match rs with
  | [] => ROk stk s
  | r :: rs' =>
    if d_rres s r then flow_rels c rs' stk s
    else
      let s := dec_count c s in
      match unresolved_terms s (terms_of r) with
      | [] => RThrow XAllResolved s
      | [j] =>
        let s := w_rres (fset (d_rres s) r true) s in
        match nth_error (terms_of r) j with
        | None => RUB
        | Some (ns, _) =>
          match flow_out r j ns 0 stk s with
          | ROk stk' s' =>
            match detach (nodup string_dec (others j 0 (terms_of r))) s' with
            | ROk _ s'' => flow_rels c rs' stk' s''
            | RThrow x s'' => RThrow x s''
            | RUB => RUB
            end
          | x => x
          end
        end
      | _ => flow_rels c rs' stk s
      end
  end.
(** 1064-1155: [None] is the model's running out of fuel *)
Fixpoint flow_loop (fuel : nat) (stk : list nat) (s : dyn) : option (res unit) :=
  match stk with
  | [] => Some (ROk tt s)
  | c :: stk' =>
    match fuel with
    | O => None
    | Datatypes.S f =>
      if (d_count s c =? 0)%N then flow_loop f stk' s
      else match flow_rels c (rindex c) stk' (w_resolved (fset (d_resolved s) c true) s) with
           | ROk stk'' s' => flow_loop f stk'' s'
           | RThrow x s' => Some (RThrow x s')
           | RUB => Some RUB
           end
    end
  end.
(** 1037-1043: the cells of the unresolved relations *)
Definition flow_cells (s : dyn) : list nat :=
  nodup Nat.eq_dec
    (flat_map (fun r => if d_rres s r then [] else edges_of r) (seq 0 (length (rels S)))).
(** 286-291 priority() of the output half of an interface cell *)
Definition out_prio (s : dyn) (c : nat) : Z :=
  match input_of c with Some i => d_prio s i | None => d_prio s c end.
(** 1052-1054 *)
Definition accessed (l : list nat) : N :=
  fold_left (fun b c => match input_of c with Some i => setb b i | None => b end) l 0%N.
(** every name of every relation *)
Definition all_names : list name := flat_map (fun r => flat_map fst (r_terms r)) (rels S).
Definition flow_fuel (l : list nat) : nat := length l + length all_names.
(** 1036-1157 flow; the result is priority_accessed *)
Definition flow (D : sched) (s : dyn) : option (res N) :=
  let l := flow_cells s in
  match flow_loop (flow_fuel l) (sd_flow D (out_prio s) l) s with
  | None => None
  | Some (ROk _ s') => Some (ROk (accessed l) s')
  | Some (RThrow x s') => Some (RThrow x s')
  | Some RUB => Some RUB
  end.

(** *** update *)
(** 302-315 clear_dirty, 229 clear_resolved; 1166-1175 *)
Definition clear (s : dyn) : dyn :=
  w_acc 0%N (w_rres (fun _ => false)
    (w_resolved is_leaf (w_evaluated is_leaf (w_term (fun _ => None)
      (w_count (fun c => N.of_nat (length (rindex c)))
        (w_dirty (fun _ => false) (w_vacc 0%N (w_cond 0%N s)))))))).
(** 1177-1194 the conditionals, from relation [r] *)
Fixpoint conditionals (rs : list relation) (r : nat) (s : dyn) : res unit :=
  match rs with
  | [] => ROk tt s
  | x :: rs' =>
    match r_cond x with
    | None => conditionals rs' (Datatypes.S r) s
    | Some e =>
      match calc_expr e s with
      | ROk (VBool true) s' => conditionals rs' (Datatypes.S r) s'
      | ROk (VBool false) s' =>
        let s1 := fold_left (fun s c => dec_count c s) (r_edges x) s' in
        conditionals rs' (Datatypes.S r) (w_rres (fset (d_rres s1) r true) s1)
      | ROk _ s' => RThrow XCast s'
      | RThrow x s' => RThrow x s'
      | RUB => RUB
      end
    end
  end.
(** 1217-1234: evaluate one cell of the output index and apply it to its input half (1242-1244).
    When calculate() throws, the entry pushed on get_stack_m stays there. *)
Definition evaluate_cell (c : nat) (s : dyn) : res unit :=
  match cell_at c with
  | None => RUB
  | Some k =>
    let r := if d_evaluated s c then ROk tt s
             else
               let s1 := w_acc 0%N s in
               let s2 := if is_ifout c then w_stack ((c_name k, false) :: d_stack s1) s1 else s1 in
               match calculate get_top c s2 with
               | ROk _ s3 =>
                 let s4 := pop c s3 in
                 ROk tt (w_contrib (fset (d_contrib s4) c (N.lor (d_acc s4) (d_cond s4))) s4)
               | x => x
               end in
    match r with
    | ROk _ s' => match c_in k with
                  | Some i => ROk tt (if linked i then w_state (fset (d_state s') i (d_state s' c)) s'
                                      else s')
                  | None => ROk tt s'
                  end
    | x => x
    end
  end.
Fixpoint evaluate_all (l : list nat) (s : dyn) : res unit :=
  match l with
  | [] => ROk tt s
  | c :: l' => match evaluate_cell c s with ROk _ s' => evaluate_all l' s' | x => x end
  end.
(** 1249-1258 *)
Fixpoint poisoned (l : list nat) (p : N) (s : dyn) : option N :=
  match l with
  | [] => Some p
  | c :: l' => match d_state s c with
               | VBool true => poisoned l' p s
               | VBool false => poisoned l' (N.lor p (d_contrib s c)) s
               | _ => None
               end
  end.
(** the notifications of update(), in order: the monitors of cell [c] are told *)
Inductive note := NInvariant (c : nat) (b : bool) | NValue (c : nat) (v : value)
                | NContributing (c : nat) (b : N).
(** 1284-1308 for one cell (a contributing notification only if someone listens) *)
Definition notes_of (listening : nat -> bool) (p : N) (s : dyn) (c : nat) : list note :=
  let b := (N.land p (d_contrib s c) =? 0)%N in
  (if Bool.eqb b (d_inv s c) then [] else [NInvariant c b]) ++
  (if d_dirty s c then [NValue c (d_state s c)] else []) ++
  (if listening c then [NContributing c (d_contrib s c)] else []).
Definition counts_as_output (c : nat) : bool :=
  spec_is (fun p => match p with SOutput => true | SIfOut => negb (has_output S) | _ => false end) c.
Definition set_invariants (p : N) (l : list nat) (s : dyn) : dyn :=
  w_inv (fold_left (fun f c => fset f c (N.land p (d_contrib s c) =? 0)%N) l (d_inv s)) s.
Definition active_bits (pa : N) (l : list nat) (s : dyn) : N :=
  fold_left (fun b c => if counts_as_output c then N.lor b (d_contrib s c) else b) l pa.
(** 1161-1319 update *)
Definition update (D : sched) (listening : nat -> bool) (s : dyn) : option (res (list note)) :=
  match conditionals (rels S) 0 (clear s) with
  | RUB => Some RUB
  | RThrow x s1 => Some (RThrow x s1)
  | ROk _ s1 =>
    match flow D (w_cond (d_acc s1) s1) with
    | None => None
    | Some RUB => Some RUB
    | Some (RThrow x s2) => Some (RThrow x s2)
    | Some (ROk pa s2) =>
      let order := sd_iter D (map snd (output_index S)) in
      match evaluate_all order s2 with
      | RUB => Some RUB
      | RThrow x s3 => Some (RThrow x s3)
      | ROk _ s3 =>
        match poisoned (invariant_index S) 0%N s3 with
        | None => Some (RThrow XCast s3)
        | Some p =>
          Some (ROk (flat_map (notes_of listening p s3) order)
                    (w_active (active_bits pa order s3)
                      (w_pacc pa (set_invariants p order s3))))
        end
      end
    end
  end.
(** 429-455 enabled_filter: what a monitor connected for cell [pos] with touch set [t] is told when
    update() replaces priority_accessed [pa] / active [ac] by [pa'] / [ac'] *)
Definition enabled_filter (t : N) (pos : nat) (vacc pa ac pa' ac' : N) : option bool :=
  if (N.lxor (N.land pa' t) (N.land pa t) =? 0)%N && Bool.eqb (testb ac pos) (testb ac' pos)
  then None
  else Some (testb ac' pos || (testb vacc pos && negb (N.land pa' t =? 0)%N)).

(** *** the client's operations *)
(** 651-671 set *)
Definition set_cell (n : name) (v : value) (s : dyn) : res unit :=
  match lookup n (input_index S) with
  | None => RThrow XNotFound s
  | Some c =>
    let h := (d_high s + 1)%Z in
    let s1 := w_prio (fset (d_prio s) c h) (w_state (fset (d_state s) c v) (w_high h s)) in
    ROk tt (if spec_is (fun p => match p with SInput => true | _ => false end) c
            then w_initdirty (setb (d_initdirty s1) c) s1 else s1)
  end.
(** 1426-1430: the pairs of a dictionary, in its order *)
Fixpoint set_all (d : list (name * value)) (s : dyn) : res unit :=
  match d with
  | [] => ROk tt s
  | (n, v) :: d' => match set_cell n v s with ROk _ s' => set_all d' s' | x => x end
  end.
(** 675-712 touch *)
Definition touch (D : sched) (ns : list name) (s : dyn) : dyn :=
  let l := flat_map (fun n => match lookup n (input_index S) with Some c => [c] | None => [] end) ns in
  fold_left (fun s c => let h := (d_high s + 1)%Z in w_prio (fset (d_prio s) c h) (w_high h s))
            (sd_touch D (d_prio s) l) s.
(** 1462-1476 get() in initialize mode *)
Definition get_init (n : name) (s : dyn) : res value :=
  let found c := ROk (d_state s c) (w_acc (N.lor (d_acc s) (d_init s c)) s) in
  match lookup n (input_index S) with
  | Some c => found c
  | None => match lookup n (name_index S) with
            | Some c => if spec_is (fun p => match p with SConst => true | _ => false end) c
                        then found c else RThrow XNotFound s
            | None => RThrow XNotFound s
            end
  end.
(** 1323-1333 initialize_one *)
Definition initialize_one (c : nat) (s : dyn) : res unit :=
  match cell_at c with
  | None => RUB
  | Some k =>
    match run_calc get_init (c_calc k) (w_acc 0%N s) with
    | ROk v s' =>
      let h := (d_high s' + 1)%Z in
      ROk tt (w_init (fset (d_init s') c (N.lor (d_init s' c) (d_acc s')))
               (w_prio (fset (d_prio s') c h) (w_high h (w_state (fset (d_state s') c v) s'))))
    | RThrow x s' => RThrow x s'
    | RUB => RUB
    end
  end.
(** 1337-1354 reinitialize *)
Fixpoint reinit_all (l : list nat) (s : dyn) : res unit :=
  match l with
  | [] => ROk tt (w_initdirty 0%N s)
  | c :: l' =>
    match input_of c with
    | None => reinit_all l' s
    | Some i =>
      if (N.land (d_initdirty s) (d_init s i) =? 0)%N then reinit_all l' s
      else match initialize_one i s with ROk _ s' => reinit_all l' s' | x => x end
    end
  end.
Definition reinitialize (D : sched) (s : dyn) : res unit :=
  reinit_all (sd_iter D (map snd (output_index S))) s.
(** 1435-1447 operator[] (the assertion that the cell was evaluated is compiled out) *)
Definition at_name (n : name) (s : dyn) : option value :=
  match lookup n (name_index S) with Some c => Some (d_state s c) | None => None end.
(** 1395-1422 contributing_set: (changed, touched, include_touched) *)
Fixpoint contrib_scan (mark : list (name * value)) (bits : N) (s : dyn) (l : list cell) (i : nat)
    (changed touched : list (name * value)) (incl : bool)
  : list (name * value) * list (name * value) * bool :=
  match l with
  | [] => (changed, touched, incl)
  | k :: l' =>
    let n := c_name k in let v := d_state s i in
    if testb bits i then
      match dfind n mark with
      | None => contrib_scan mark bits s l' (Datatypes.S i) (match dfind n changed with None => dinsert n v changed | Some _ => changed end) touched true
      | Some w =>
        if negb (veqb w v)
        then contrib_scan mark bits s l' (Datatypes.S i) (match dfind n changed with None => dinsert n v changed | Some _ => changed end) touched incl
        else if testb (d_pacc s) i
        then contrib_scan mark bits s l' (Datatypes.S i) changed (match dfind n touched with None => dinsert n v touched | Some _ => touched end) incl
        else contrib_scan mark bits s l' (Datatypes.S i) changed touched incl
      end
    else contrib_scan mark bits s l' (Datatypes.S i) changed touched incl
  end.
Definition contributing_set (mark : list (name * value)) (bits : N) (s : dyn) : list (name * value) :=
  let '(changed, touched, incl) := contrib_scan mark bits s (cells S) 0 [] [] false in
  if incl
  then fold_left (fun d kv => match dfind (fst kv) d with None => dinsert (fst kv) (snd kv) d | Some _ => d end)
                 touched changed
  else changed.
(** 1358-1382 *)
Definition contributing (D : sched) (mark : list (name * value)) (s : dyn) : list (name * value) :=
  contributing_set mark
    (fold_left (fun b c => if counts_as_output c then N.lor b (d_contrib s c) else b)
               (sd_iter D (map snd (output_index S))) 0%N) s.
Definition contributing_to_cell (n : name) (s : dyn) : option (list (name * value)) :=
  match lookup n (output_index S) with
  | None => None
  | Some c => Some (contributing_set [] (d_contrib s c) s)
  end.
End Sheet.

(** *** building a sheet *)
(** 625-636: an empty sheet; a member no constructor has set yet is shown as the value it gets when
    its cell is added *)
Definition empty_sheet : sheet := mk_sheet [] [] [] [] [] [] false.
Definition initial : dyn :=
  mk_dyn (fun _ => VEmpty) (fun _ => 0%Z) (fun _ => false) (fun _ => false) (fun _ => 0%N)
    (fun _ => false) (fun _ => 0%N) (fun _ => 0%N) (fun _ => false) (fun _ => None) (fun _ => false)
    0%N [] 0%N 0%N 0%Z 0%Z 0%N 0%N 0%N.
(** hash_index::insert, closed_hash.hpp: a cell whose name is already there replaces the pointer and
    the result is false *)
Fixpoint iinsert (n : name) (c : nat) (l : list (name * nat)) : list (name * nat) :=
  match l with
  | [] => [(n, c)]
  | (m, d) :: l' => if String.eqb m n then (n, c) :: l' else (m, d) :: iinsert n c l'
  end.
Definition push_cell (k : cell) (S : sheet) : sheet :=
  mk_sheet (cells S ++ [k]) (rels S) (name_index S) (input_index S) (output_index S)
           (invariant_index S) (has_output S).
Definition ix_name n c S := mk_sheet (cells S) (rels S) (iinsert n c (name_index S)) (input_index S) (output_index S) (invariant_index S) (has_output S).
Definition ix_input n c S := mk_sheet (cells S) (rels S) (name_index S) (iinsert n c (input_index S)) (output_index S) (invariant_index S) (has_output S).
Definition ix_output n c S := mk_sheet (cells S) (rels S) (name_index S) (input_index S) (iinsert n c (output_index S)) (invariant_index S) (has_output S).
Definition with_invariant c S := mk_sheet (cells S) (rels S) (name_index S) (input_index S) (output_index S) (invariant_index S ++ [c]) (has_output S).
Definition with_output S := mk_sheet (cells S) (rels S) (name_index S) (input_index S) (output_index S) (invariant_index S) true.
Definition push_rel r S := mk_sheet (cells S) (rels S ++ [r]) (name_index S) (input_index S) (output_index S) (invariant_index S) (has_output S).

(** the result of an add_ call: a sheet that throws half way is left as it is then *)
Inductive bres := BOk (S : sheet) (s : dyn) | BThrow (x : exn) (S : sheet) (s : dyn) | BUB.
(** the constructors 483-519 set these members of the new cell [c] *)
Definition fresh_cell (c : nat) (v : value) (ready : bool) (s : dyn) : dyn :=
  w_state (fset (d_state s) c v) (w_prio (fset (d_prio s) c 0%Z)
    (w_resolved (fset (d_resolved s) c ready) (w_evaluated (fset (d_evaluated s) c ready)
      (w_count (fset (d_count s) c 0%N) (w_contrib (fset (d_contrib s) c 0%N)
        (w_init (fset (d_init s) c 0%N) (w_inv (fset (d_inv s) c false) (w_term (fset (d_term s) c None) s)))))))).
Definition finish_name (n : name) (c : nat) (S : sheet) (s : dyn) (k : sheet -> sheet) : bres :=
  let S' := ix_name n c S in
  match lookup n (name_index S) with
  | Some _ => BThrow XExists S' s
  | None => BOk (k S') s
  end.
(** 716-733 add_input (an absent initializer is [None]) *)
Definition add_input (n : name) (init : option expr) (S : sheet) (s : dyn) : bres :=
  match match init with Some e => ev (get_init S) e s | None => ROk VEmpty s end with
  | RUB => BUB
  | RThrow x s' => BThrow x S s'
  | ROk v s' =>
    let c := length (cells S) in
    if 1024 <=? c then BThrow XRange S s'
    else
      let s1 := fresh_cell c v true s' in
      finish_name n c (ix_input n c (push_cell (mk_cell SInput n CNone false None) S))
        (w_init (fset (d_init s1) c (setb 0%N c)) s1) (fun S => S)
  end.
(** 737-755 add_output *)
Definition add_output (n : name) (e : expr) (S : sheet) (s : dyn) : bres :=
  let c := length (cells S) in
  finish_name n c (ix_output n c (push_cell (mk_cell SOutput n (CExpr e) false None) S))
    (fresh_cell c VEmpty false s) with_output.
(** 851-862 add_logic *)
Definition add_logic (n : name) (e : expr) (S : sheet) (s : dyn) : bres :=
  let c := length (cells S) in
  finish_name n c (push_cell (mk_cell SLogic n (CExpr e) false None) S)
    (fresh_cell c VEmpty false s) (fun S => S).
(** 866-882 add_invariant *)
Definition add_invariant (n : name) (e : expr) (S : sheet) (s : dyn) : bres :=
  let c := length (cells S) in
  finish_name n c (ix_output n c (push_cell (mk_cell SInvariant n (CExpr e) false None) S))
    (fresh_cell c VEmpty false s) (with_invariant c).
(** 825-837, 841-847 add_constant *)
Definition add_constant_value (n : name) (v : value) (S : sheet) (s : dyn) : bres :=
  let c := length (cells S) in
  finish_name n c (push_cell (mk_cell SConst n CNone false None) S) (fresh_cell c v true s) (fun S => S).
Definition add_constant (n : name) (e : expr) (S : sheet) (s : dyn) : bres :=
  match ev (get_init S) e s with
  | RUB => BUB
  | RThrow x s' => BThrow x S s'
  | ROk v s' => add_constant_value n v S s'
  end.
(** 759-798 add_interface: [init] and [e] are [None] when the array is empty *)
Definition add_interface (n : name) (lk : bool) (init e : option expr) (S : sheet) (s : dyn) : bres :=
  let c := length (cells S) in
  if 1024 <=? c then BThrow XRange S s
  else
    let k := mk_cell SIfIn n (match init with Some i => CExpr i | None => CNone end) lk None in
    let S1 := ix_input n c (push_cell k S) in
    let s1 := fresh_cell c VEmpty true s in
    let s2 := w_contrib (fset (d_contrib s1) c (setb 0%N c)) s1 in
    match match init with Some _ => initialize_one S1 c s2 | None => ROk tt s2 end with
    | RUB => BUB
    | RThrow x s3 => BThrow x S1 s3
    | ROk _ s3 =>
      let o := Datatypes.S c in
      let k2 := mk_cell SIfOut n (match e with Some x => CExpr x | None => CGet n end) false (Some c) in
      finish_name n o (ix_output n o (push_cell k2 S1)) (fresh_cell o VEmpty false s3) (fun S => S)
    end.
(** 802-821 add_interface with a value *)
Definition add_interface_value (n : name) (v : value) (S : sheet) (s : dyn) : bres :=
  let c := length (cells S) in
  if 1024 <=? c then BThrow XRange S s
  else
    let S1 := ix_input n c (push_cell (mk_cell SIfIn n CNone true None) S) in
    let s1 := fresh_cell c v true s in
    let s2 := w_contrib (fset (d_contrib s1) c (setb 0%N c)) s1 in
    let h := (d_high s2 + 1)%Z in
    let s3 := w_prio (fset (d_prio s2) c h) (w_high h s2) in
    let o := Datatypes.S c in
    finish_name n o (ix_output n o (push_cell (mk_cell SIfOut n (CGet n) false (Some c)) S1))
      (fresh_cell o VEmpty false s3) (fun S => S).
(** 886-913 add_relation.  The code visits the names in sorted order, which only decides the edges a
    relation has when the call throws. *)
Fixpoint find_edges (S : sheet) (ns : list name) : list nat * bool :=
  match ns with
  | [] => ([], true)
  | n :: ns' =>
    match lookup n (output_index S) with
    | Some c => match input_of S c with
                | Some _ => let '(l, ok) := find_edges S ns' in (c :: l, ok)
                | None => ([], false)
                end
    | None => ([], false)
    end
  end.
Definition add_relation (cond : option expr) (terms : list (list name * expr)) (S : sheet) (s : dyn)
  : bres :=
  let '(edges, ok) := find_edges S (nodup string_dec (flat_map fst terms)) in
  let S' := push_rel (mk_rel cond terms edges) S in
  if ok then BOk S' s else BThrow XNoInterface S' s.
