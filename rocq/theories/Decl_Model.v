(** Model of the declaration parsers: adobe::adam_parser — /repo/source/adam_parser.cpp ("A" below) —
    and the eve_parser of /repo/source/eve_parser.cpp ("E" below).  Both inherit the expression parser
    (Expr_Model.v) and turn the tokens of a sheet or a layout into calls of the client's callbacks
    (adam_callback_suite_t, /repo/adobe/adam_parser.hpp:131-170, eve_callback_suite_t,
    /repo/adobe/eve_parser.hpp).
    A parser is a function of the tokens that are left; it returns the callbacks it made, its result and
    the tokens left, or throws after having made some callbacks.  A function of the code that answers
    false may have taken tokens, and so may its model.  Positions: line_position_t is modelled by the
    number of the token it is the position of, counted from the start of the text; the value of a
    default-constructed line_position_t is None.  Simplified: the callbacks themselves return normally,
    and the text and place of an error message are not modelled. *)
From Coq Require Import String ZArith List.
From Verif Require Import Prelude Vm_Value Expr_Model.
Import ListNotations.
Local Open Scope nat_scope.

Definition pos := option nat.
(** adam_callback_suite_t::relation_t, eve_callback_suite_t::relation_t *)
Record relation := mk_relation {
  r_names : list string; r_position : pos; r_code : list value; r_brief : string; r_detailed : string }.
Inductive cell_type := input_c | output_c | constant_c | logic_c | invariant_c.
(** The calls of the callbacks, with their arguments.  add_view_proc_m returns the place of the new
    view: the place is the number of the call among the calls of add_view; None is the place parse()
    was given. *)
Inductive event :=
| AddCell (t : cell_type) (name : string) (p : pos) (code : list value) (brief detailed : string)
| AddExternal (name : string) (p : pos) (brief detailed : string)
| AddInterface (name : string) (linked : bool) (ip : pos) (init : list value) (ep : pos) (expr : list value)
    (brief detailed : string)
| AddRelation (p : pos) (conditional : list value) (rs : list relation) (brief detailed : string)
| AddView (parent : option nat) (p : pos) (class : string) (args : list value) (brief detailed : string)
| FinalizeSheet.

Inductive res (A : Type) := Ok (evs : list event) (a : A) (ts : list token) | Err (evs : list event) | Fuel.
Arguments Ok {A}. Arguments Err {A}. Arguments Fuel {A}.
Definition P (A : Type) := list token -> res A.
Definition ret {A} (a : A) : P A := fun ts => Ok [] a ts.
Definition after {A} (evs : list event) (r : res A) : res A :=
  match r with Ok e a ts => Ok (evs ++ e) a ts | Err e => Err (evs ++ e) | Fuel => Fuel end.
Definition bind {A B} (p : P A) (f : A -> P B) : P B := fun ts =>
  match p ts with Ok evs a ts' => after evs (f a ts') | Err evs => Err evs | Fuel => Fuel end.
Definition throw {A} : P A := fun _ => Err [].
Definition call (e : event) : P unit := fun ts => Ok [e] tt ts.
Notation "x <- p ;; q" := (bind p (fun x => q)) (at level 61, p at next level, right associativity).
Notation "p ;;; q" := (bind p (fun _ => q)) (at level 61, right associativity).

(** /repo/source/expression_parser.cpp:621-628, 632-638, 677-684, 661-673 *)
Definition token_ (k : tk) : P bool := fun ts =>
  match is_token k ts with Some ts' => Ok [] true ts' | None => Ok [] false ts end.
Definition keyword (n : string) : P bool := fun ts =>
  match is_keyword n ts with Some ts' => Ok [] true ts' | None => Ok [] false ts end.
Definition require (p : P bool) : P unit := b <- p ;; if b then ret tt else throw.
(** expression_parser.cpp:571-581 is_identifier: the value is cast to a name *)
Definition is_identifier : P (option string) := fun ts =>
  match is_token_value identifier_k ts with
  | Some (VName n, ts') => Ok [] (Some n) ts'
  | Some _ => Err []
  | None => Ok [] None ts
  end.
(** 583-605 is_lead_comment, is_trail_comment: the string is left as it was when there is no comment *)
Definition comment (k : tk) (old : string) : P string := fun ts =>
  match is_token_value k ts with
  | Some (VStr s, ts') => Ok [] s ts'
  | Some _ => Err []
  | None => Ok [] old ts
  end.
(** 211-215 require_expression(expression_stack): appends to the array *)
Definition expression (code : list value) : P (list value) := fun ts =>
  match is_expression code ts with
  | PRet true code' ts' => Ok [] code' ts'
  | PRet false _ _ => Err []
  | PThrow => Err []
  | PFuel => Fuel
  end.
(** 398-415 is_named_argument_list, called by E 488-489: an empty dictionary when there is none *)
Definition arguments : P (list value) := fun ts =>
  match is_named_argument_list (expression_fuel (S (length ts))) (S (S (length ts))) [] ts with
  | PRet true code ts' => Ok [] code ts'
  | PRet false code ts' => Ok [] (code ++ [VDict []]) ts'
  | PThrow => Err []
  | PFuel => Fuel
  end.

Fixpoint while_fuel (n : nat) (body : P bool) : P unit :=
  match n with
  | 0 => fun _ => Fuel
  | S n => b <- body ;; if b then while_fuel n body else ret tt
  end.
(** while (body) ; — as many turns as there are tokens *)
Definition while (body : P bool) : P unit := fun ts => while_fuel (S (length ts)) body ts.

Section Text.
Variable total : nat.     (* the number of tokens of the text *)
(** expression_parser.cpp:174 next_position: the position of the next token *)
Definition next_position : P pos := fun ts => Ok [] (Some (total - length ts)) ts.

(** A 500-503, E 428-431 require_end_statement(brief) *)
Definition require_end_statement (brief : string) : P string :=
  require (token_ semicolon_k) ;;; comment trail_comment_k brief.
(** A 457-465, 470-477; E 383-393, 398-405 is_initializer and is_define_expression: the position and the
    array are the caller's, None when they are left alone *)
Definition is_part (k : tk) (code : list value) : P (option (pos * list value)) :=
  b <- token_ k ;;
  if b then p <- next_position ;; c <- expression code ;; ret (Some (p, c)) else ret None.
Definition is_initializer := is_part colon_k.
Definition is_define_expression := is_part is_k.
Definition or_default (o : option (pos * list value)) : pos * list value :=
  match o with Some x => x | None => (None, []) end.
(** A 483-495, E 411-423 is_conditional *)
Definition is_conditional_decl : P (option (pos * list value)) :=
  b <- keyword "when" ;;
  if b then
    require (token_ open_parenthesis_k) ;;;
    p <- next_position ;; c <- expression [] ;; require (token_ close_parenthesis_k) ;;; ret (Some (p, c))
  else ret None.

(** A 429-433, E 355-359: { "," identifier } *)
Fixpoint names_loop (n : nat) (names : list string) : P (list string) :=
  match n with
  | 0 => fun _ => Fuel
  | S n =>
    b <- token_ comma_k ;;
    if b then
      i <- is_identifier ;;
      match i with Some name => names_loop n (names ++ [name]) | None => throw end
    else ret names
  end.
Definition more_names (names : list string) : P (list string) := fun ts => names_loop (S (length ts)) names ts.
(** A 421-439, E 347-365 is_relate_expression_decl: fills in the relation it is given *)
Definition is_relate_expression_decl (r : relation) : P (bool * relation) :=
  detailed <- comment lead_comment_k (r_detailed r) ;;
  i <- is_identifier ;;
  match i with
  | None => ret (false, mk_relation (r_names r) (r_position r) (r_code r) (r_brief r) detailed)
  | Some name =>
    names <- more_names (r_names r ++ [name]) ;;
    d <- is_define_expression (r_code r) ;;
    match d with
    | None => throw
    | Some (p, code) =>
      brief <- require_end_statement (r_brief r) ;;
      ret (true, mk_relation names p code brief detailed)
    end
  end.
Definition new_relation : relation := mk_relation [] None [] "" "".

Section Reset.
(** What the parser does to relation_1 before it reads the next relation into it *)
Variable reset : relation -> relation.
(** A 404-408, E 330-334 *)
Fixpoint relations_loop (n : nat) (r : relation) (rs : list relation) : P (list relation) :=
  match n with
  | 0 => fun _ => Fuel
  | S n =>
    x <- is_relate_expression_decl r ;;
    let (b, r') := x in
    if b then relations_loop n (reset r') (rs ++ [r']) else ret rs
  end.
Definition more_relations (r : relation) (rs : list relation) : P (list relation) := fun ts =>
  relations_loop (S (length ts)) r rs ts.
(** A 374-415, E 300-341 is_relate_decl *)
Definition is_relate_decl : P (option (pos * list value * list relation * string)) :=
  c <- is_conditional_decl ;;
  b <- keyword "relate" ;;
  if b then
    p <- (match c with None => next_position | Some (p, _) => ret p end) ;;
    require (token_ open_brace_k) ;;;
    x1 <- is_relate_expression_decl new_relation ;;
    let (b1, r1) := x1 in
    if b1 then
      x2 <- is_relate_expression_decl new_relation ;;
      let (b2, r2) := x2 in
      if b2 then
        rs <- more_relations (reset r1) [r1; r2] ;;
        require (token_ close_brace_k) ;;;
        brief <- comment trail_comment_k "" ;;
        ret (Some (p, snd (or_default c), rs, brief))
      else throw
    else throw
  else match c with Some _ => throw | None => ret None end.

(** A 444-452, E 370-378 is_named_decl *)
Definition is_named_decl : P (option (string * pos * list value * string)) :=
  i <- is_identifier ;;
  match i with
  | None => ret None
  | Some name =>
    d <- is_define_expression [] ;;
    match d with
    | None => throw
    | Some (p, code) => brief <- require_end_statement "" ;; ret (Some (name, p, code, brief))
    end
  end.

(** A 244-265, E 204-225 is_interface_cell_decl *)
Definition is_interface_cell_decl (detailed : string) : P bool :=
  u <- keyword "unlink" ;;
  let linked := negb u in
  i <- is_identifier ;;
  match i with
  | None => ret false
  | Some name =>
    oi <- is_initializer [] ;;
    od <- is_define_expression [] ;;
    brief <- require_end_statement "" ;;
    let (ip, ic) := or_default oi in
    let (dp, dc) := or_default od in
    call (AddInterface name linked ip ic dp dc brief detailed) ;;;
    ret true
  end.
(** A 270-287 is_input_cell_decl *)
Definition is_input_cell_decl (detailed : string) : P bool :=
  i <- is_identifier ;;
  match i with
  | None => ret false
  | Some name =>
    oi <- is_initializer [] ;;
    brief <- require_end_statement "" ;;
    let (ip, ic) := or_default oi in
    call (AddCell input_c name ip ic brief detailed) ;;;
    ret true
  end.
(** A 310-326, E 230-246 is_constant_cell_decl *)
Definition is_constant_cell_decl (detailed : string) : P bool :=
  i <- is_identifier ;;
  match i with
  | None => ret false
  | Some name =>
    oi <- is_initializer [] ;;
    match oi with
    | None => throw
    | Some (ip, ic) =>
      brief <- require_end_statement "" ;;
      call (AddCell constant_c name ip ic brief detailed) ;;;
      ret true
    end
  end.
(** A 292-305 is_output_cell_decl, 355-368 is_invariant_cell_decl *)
Definition is_named_cell_decl (t : cell_type) (detailed : string) : P bool :=
  d <- is_named_decl ;;
  match d with
  | None => ret false
  | Some (name, p, code, brief) => call (AddCell t name p code brief detailed) ;;; ret true
  end.
(** A 331-350, E 276-294 is_logic_cell_decl *)
Definition is_logic_cell_decl (detailed : string) : P bool :=
  d <- is_named_decl ;;
  match d with
  | Some (name, p, code, brief) => call (AddCell logic_c name p code brief detailed) ;;; ret true
  | None =>
    r <- is_relate_decl ;;
    match r with
    | Some (p, cond, rs, brief) => call (AddRelation p cond rs brief detailed) ;;; ret true
    | None => ret false
    end
  end.
(** A 222-236, a turn of the loop of is_external_set_decl after its lead comment *)
Definition is_external_cell_decl (detailed : string) : P bool :=
  p <- next_position ;;
  i <- is_identifier ;;
  match i with
  | None => ret false
  | Some name => brief <- require_end_statement "" ;; call (AddExternal name p brief detailed) ;;; ret true
  end.

(** A 507-521, E 164-178 is_set_decl; A 217-239 is_external_set_decl has the same shape *)
Definition is_set_decl (name : string) (decl : string -> P bool) : P bool :=
  b <- keyword name ;;
  if b then
    require (token_ colon_k) ;;;
    while (detailed <- comment lead_comment_k "" ;; decl detailed) ;;;
    ret true
  else ret false.
Definition or_p (p q : P bool) : P bool := b <- p ;; if b then ret true else q.
End Reset.

(** A 404, 407: relation_1 = relation_t() *)
Definition adam_reset (r : relation) : relation := new_relation.
(** A 162-170 is_qualified_cell_decl, 175-212 *)
Definition adam_qualified_cell_decl : P bool :=
  or_p (is_set_decl "interface" is_interface_cell_decl)
  (or_p (is_set_decl "input" is_input_cell_decl)
  (or_p (is_set_decl "output" (is_named_cell_decl output_c))
  (or_p (is_set_decl "constant" is_constant_cell_decl)
  (or_p (is_set_decl "logic" (is_logic_cell_decl adam_reset))
  (or_p (is_set_decl "invariant" (is_named_cell_decl invariant_c))
  (is_set_decl "external" is_external_cell_decl)))))).
(** A 141-155 is_sheet_specifier *)
Definition is_sheet_specifier : P bool :=
  token_ lead_comment_k ;;;
  b <- keyword "sheet" ;;
  if b then
    i <- is_identifier ;;
    match i with
    | None => throw
    | Some _ =>
      require (token_ open_brace_k) ;;;
      while adam_qualified_cell_decl ;;;
      require (token_ close_brace_k) ;;;
      token_ trail_comment_k ;;;
      ret true
    end
  else ret false.
(** A 130-135 parse *)
Definition adam_parse_text : P unit :=
  while is_sheet_specifier ;;;
  require (token_ eof_k).

(** E 330, 333: relation_1.expression_m.clear() *)
Definition eve_reset (r : relation) : relation :=
  mk_relation (r_names r) (r_position r) [] (r_brief r) (r_detailed r).
(** E 158-160 is_qualified_cell_decl *)
Definition eve_qualified_cell_decl : P bool :=
  or_p (is_set_decl "interface" is_interface_cell_decl)
  (or_p (is_set_decl "constant" is_constant_cell_decl)
  (is_set_decl "logic" (is_logic_cell_decl eve_reset))).
(** E 481-493 is_view_class_decl *)
Definition is_view_class_decl : P (option (string * list value)) :=
  i <- is_identifier ;;
  match i with
  | None => ret None
  | Some class =>
    require (token_ open_parenthesis_k) ;;;
    args <- arguments ;;
    require (token_ close_parenthesis_k) ;;;
    ret (Some (class, args))
  end.
(** E 473-477 is_view_statement_sequence: [k] counts the calls of add_view so far *)
Fixpoint views_loop (n : nat) (view : nat -> P (bool * nat)) (k : nat) : P nat :=
  match n with
  | 0 => fun _ => Fuel
  | S n =>
    x <- view k ;;
    let (b, k') := x in
    if b then views_loop n view k' else ret k'
  end.
(** E 435-469 is_view_definition, 497-503 require_view_statement_list *)
Fixpoint is_view_definition (fuel : nat) (parent : option nat) (k : nat) : P (bool * nat) :=
  match fuel with
  | 0 => fun _ => Fuel
  | S fuel =>
    detailed <- comment lead_comment_k "" ;;
    p <- next_position ;;
    d <- is_view_class_decl ;;
    match d with
    | None => ret (false, k)
    | Some (class, args) =>
      leaf <- token_ semicolon_k ;;
      brief <- comment trail_comment_k "" ;;
      call (AddView parent p class args brief detailed) ;;;
      if leaf then ret (true, S k)
      else
        require (token_ open_brace_k) ;;;
        k' <- views_loop (S fuel) (is_view_definition fuel (Some k)) (S k) ;;
        require (token_ close_brace_k) ;;;
        ret (true, k')
    end
  end.
Definition view_definition (parent : option nat) : P (bool * nat) := fun ts =>
  is_view_definition (S (length ts)) parent 0 ts.
(** E 129-154 is_layout_specifier; the finalize_sheet callback is optional and taken to be there *)
Definition is_layout_specifier : P bool :=
  token_ lead_comment_k ;;;
  b <- keyword "layout" ;;
  if b then
    require (token_ identifier_k) ;;;
    require (token_ open_brace_k) ;;;
    while eve_qualified_cell_decl ;;;
    call FinalizeSheet ;;;
    require (keyword "view") ;;;
    v <- view_definition None ;;
    (if fst v : bool then ret tt else throw) ;;;
    require (token_ close_brace_k) ;;;
    token_ trail_comment_k ;;;
    ret true
  else ret false.
(** E 122-125 parse *)
Definition eve_parse_text : P unit := b <- is_layout_specifier ;; if b then ret tt else throw.
End Text.

(** parse(stream, position, callbacks): A 104-107 *)
Definition adam_parse (ts : list token) : res unit := adam_parse_text (length ts) ts.
(** parse(in, line_position, position, assembler): E 511-521 *)
Definition eve_parse (ts : list token) : res unit := eve_parse_text (length ts) ts.
