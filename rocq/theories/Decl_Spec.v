(** Specification of the declaration languages: the grammars in the documentation of
    /repo/adobe/adam_parser.hpp:36-77 and /repo/adobe/eve_parser.hpp:41-80, as inductive relations
    between the tokens of a construct and the callbacks it stands for.  [n] is always the number, in the
    text, of the construct's first token.  Of the parsers' model only the types are used; expressions are
    those of Expr_Spec, and [compile] gives an expression's code.
    The grammars have two parameters.  [strict] = true is the documented grammar; with [strict] = false
    a few stray tokens are allowed where a sequence ends (see [leftover]).  [denotes ws rs] says which
    relations a callback gets for the relations as written. *)
From Coq Require Import String ZArith List.
From Verif Require Import Prelude Vm_Value Vm_Model Vm_Spec Expr_Model Expr_Spec Decl_Model.
Import ListNotations.
Local Open Scope nat_scope.

Definition ident (n : string) : token := mk_token identifier_k (VName n).
Definition kw (n : string) : token := mk_token keyword_k (VName n).

(** [ lead_comment ], [ trail_comment ] *)
Inductive opt_comment (k : tk) : list token -> option string -> Prop :=
| no_comment : opt_comment k [] None
| a_comment s : opt_comment k [mk_token k (VStr s)] (Some s).
Definition text (o : option string) : string := match o with Some s => s | None => "" end.

(** initializer = ":" expression, define_expression = "<==" expression; the position is the expression's *)
Inductive part (k : tk) (n : nat) : list token -> pos -> list value -> Prop :=
| a_part m u e : t_name m = k -> gexpr u e -> part k n (m :: u) (Some (n + 1)) (compile e).
Inductive opt_part (k : tk) (n : nat) : list token -> pos -> list value -> Prop :=
| no_part : opt_part k n [] None []
| some_part u p c : part k n u p c -> opt_part k n u p c.
Definition initializer := part colon_k.
Definition opt_initializer := opt_part colon_k.
Definition define_expression := part is_k.
Definition opt_define_expression := opt_part is_k.

(** end_statement = ";" [trail_comment] *)
Inductive end_statement : list token -> option string -> Prop :=
| an_end s u b : t_name s = semicolon_k -> opt_comment trail_comment_k u b -> end_statement (s :: u) b.

(** identifier { "," identifier } *)
Inductive names : list token -> list string -> Prop :=
| one_name a : names [ident a] [a]
| next_name a comma u ns : t_name comma = comma_k -> names u ns -> names (ident a :: comma :: u) (a :: ns).

(** A relation as written: the comments are optional *)
Record written := mk_written {
  w_names : list string; w_position : pos; w_code : list value; w_brief : option string; w_detailed : option string }.
(** ... and as a callback is to get it *)
Definition as_written (w : written) : relation :=
  mk_relation (w_names w) (w_position w) (w_code w) (text (w_brief w)) (text (w_detailed w)).

(** relate_expression = [lead_comment] identifier { "," identifier } define_expression end_statement *)
Inductive relate_expression (n : nat) : list token -> written -> Prop :=
| a_relation ul d un ns ud p c ue b :
    opt_comment lead_comment_k ul d -> names un ns ->
    define_expression (n + length ul + length un) ud p c -> end_statement ue b ->
    relate_expression n (ul ++ un ++ ud ++ ue) (mk_written ns p c b d).
Inductive relate_expressions : nat -> list token -> list written -> Prop :=
| no_relations n : relate_expressions n [] []
| more_relation n u w us ws : relate_expression n u w -> relate_expressions (n + length u) us ws ->
    relate_expressions n (u ++ us) (w :: ws).

Section Grammar.
Variable strict : bool.
Variable denotes : list written -> list relation -> Prop.

(** What may be left over at the end of a sequence: nothing; or, when not strict, a comment *)
Inductive leftover : list token -> Prop :=
| clean : leftover []
| stray_comment s : strict = false -> leftover [mk_token lead_comment_k (VStr s)].

(** relate_decl = [conditional] "relate" "{" relate_expression relate_expression { relate_expression }
    "}" [trail_comment], conditional = "when" "(" expression ")".  The position is the condition's, or
    else that of the brace *)
Inductive relate_decl (n : nat) : list token -> pos -> list value -> list relation -> option string -> Prop :=
| a_relate o us ws rs ul c ut b :
    t_name o = open_brace_k -> relate_expressions (n + 2) us ws -> 2 <= length ws -> denotes ws rs ->
    leftover ul -> t_name c = close_brace_k -> opt_comment trail_comment_k ut b ->
    relate_decl n (kw "relate" :: o :: us ++ ul ++ c :: ut) (Some (n + 1)) [] rs b
| a_conditional_relate op ux e cp o us ws rs ul c ut b :
    t_name op = open_parenthesis_k -> gexpr ux e -> t_name cp = close_parenthesis_k ->
    t_name o = open_brace_k -> relate_expressions (n + 2 + length ux + 3) us ws -> 2 <= length ws -> denotes ws rs ->
    leftover ul -> t_name c = close_brace_k -> opt_comment trail_comment_k ut b ->
    relate_decl n (kw "when" :: op :: ux ++ cp :: kw "relate" :: o :: us ++ ul ++ c :: ut)
      (Some (n + 2)) (compile e) rs b.

Inductive section := interface_s | input_s | output_s | constant_s | logic_s | invariant_s | external_s.
Definition section_name (s : section) : string :=
  match s with
  | interface_s => "interface" | input_s => "input" | output_s => "output" | constant_s => "constant"
  | logic_s => "logic" | invariant_s => "invariant" | external_s => "external"
  end%string.
(** named_decl = identifier define_expression end_statement, in three sections *)
Definition named_cell (s : section) : option cell_type :=
  match s with output_s => Some output_c | logic_s => Some logic_c | invariant_s => Some invariant_c | _ => None end.

(** [ "unlink" ] *)
Inductive opt_unlink : list token -> bool -> Prop :=
| linked : opt_unlink [] true
| unlinked : opt_unlink [kw "unlink"] false.

(** The declarations of each section, after the lead comment [d], and the call each stands for *)
Inductive declaration (n : nat) (d : option string) : section -> list token -> event -> Prop :=
| d_interface ul l name ui ip ic ud dp dc ue b :
    opt_unlink ul l -> opt_initializer (n + length ul + 1) ui ip ic ->
    opt_define_expression (n + length ul + 1 + length ui) ud dp dc -> end_statement ue b ->
    declaration n d interface_s (ul ++ ident name :: ui ++ ud ++ ue)
      (AddInterface name l ip ic dp dc (text b) (text d))
| d_input name ui ip ic ue b :
    opt_initializer (n + 1) ui ip ic -> end_statement ue b ->
    declaration n d input_s (ident name :: ui ++ ue) (AddCell input_c name ip ic (text b) (text d))
| d_constant name ui ip ic ue b :
    initializer (n + 1) ui ip ic -> end_statement ue b ->
    declaration n d constant_s (ident name :: ui ++ ue) (AddCell constant_c name ip ic (text b) (text d))
| d_named s t name ud dp dc ue b :
    named_cell s = Some t -> define_expression (n + 1) ud dp dc -> end_statement ue b ->
    declaration n d s (ident name :: ud ++ ue) (AddCell t name dp dc (text b) (text d))
| d_relate u p c rs b :
    relate_decl n u p c rs b -> declaration n d logic_s u (AddRelation p c rs (text b) (text d))
| d_external name ue b :
    end_statement ue b ->
    declaration n d external_s (ident name :: ue) (AddExternal name (Some n) (text b) (text d)).

(** { [lead_comment] declaration } *)
Inductive declarations : nat -> section -> list token -> list event -> Prop :=
| no_declarations n s : declarations n s [] []
| more_declarations n s ul d u ev us evs :
    opt_comment lead_comment_k ul d -> declaration (n + length ul) d s u ev ->
    declarations (n + length ul + length u) s us evs ->
    declarations n s (ul ++ u ++ us) (ev :: evs).
(** At the end of a section: when not strict, also an "unlink" that is followed by nothing *)
Inductive section_leftover : section -> list token -> Prop :=
| plain_leftover s u : leftover u -> section_leftover s u
| stray_unlink u : strict = false -> leftover u -> section_leftover interface_s (u ++ [kw "unlink"]).
(** section ":" { [lead_comment] declaration } *)
Inductive set_decl (ss : list section) (n : nat) : list token -> list event -> Prop :=
| a_set s c us evs ul : In s ss -> t_name c = colon_k -> declarations (n + 2) s us evs -> section_leftover s ul ->
    set_decl ss n (kw (section_name s) :: c :: us ++ ul) evs.
(** { qualified_cell_decl } *)
Inductive set_decls (ss : list section) : nat -> list token -> list event -> Prop :=
| no_sets n : set_decls ss n [] []
| more_sets n u evs us evss : set_decl ss n u evs -> set_decls ss (n + length u) us evss ->
    set_decls ss n (u ++ us) (evs ++ evss).

(** *** Property models *)
Definition adam_sections : list section :=
  [interface_s; input_s; output_s; constant_s; logic_s; invariant_s; external_s].
(** sheet_specifier = [lead_comment] "sheet" identifier "{" { qualified_cell_decl } "}" [trail_comment] *)
Inductive sheet_specifier (n : nat) : list token -> list event -> Prop :=
| a_sheet ul d name o us evs c ut b :
    opt_comment lead_comment_k ul d -> t_name o = open_brace_k ->
    set_decls adam_sections (n + length ul + 3) us evs -> t_name c = close_brace_k ->
    opt_comment trail_comment_k ut b ->
    sheet_specifier n (ul ++ kw "sheet" :: ident name :: o :: us ++ c :: ut) evs.
Inductive sheet_specifiers : nat -> list token -> list event -> Prop :=
| no_sheets n : sheet_specifiers n [] []
| more_sheets n u evs us evss : sheet_specifier n u evs -> sheet_specifiers (n + length u) us evss ->
    sheet_specifiers n (u ++ us) (evs ++ evss).
(** translation_unit = { sheet_specifier } *)
Inductive translation_unit : list token -> list event -> Prop :=
| a_unit us evs ul : sheet_specifiers 0 us evs -> leftover ul -> translation_unit (us ++ ul) evs.

(** *** Layouts *)
Definition eve_sections : list section := [interface_s; constant_s; logic_s].
(** A view with its parameters' code, its comments and the views in it *)
Inductive view := View (p : pos) (class : string) (args : list value) (brief detailed : string) (children : list view).
(** view_class_decl = ident "(" [ named_argument_list ] ")" *)
Inductive view_class : list token -> string -> list value -> Prop :=
| class_plain class o c : t_name o = open_parenthesis_k -> t_name c = close_parenthesis_k ->
    view_class [ident class; o; c] class [VDict []]
| class_args class o u kes c : t_name o = open_parenthesis_k -> gnamed u kes -> t_name c = close_parenthesis_k ->
    view_class (ident class :: o :: u ++ [c]) class (compile (EDict kes)).
(** view_definition = [lead_comment] view_class_decl ((";" [trail_comment]) | ([trail_comment] "{" {view_definition} "}")) *)
Inductive view_def : nat -> list token -> view -> Prop :=
| leaf_view n ul d uc class args ue b :
    opt_comment lead_comment_k ul d -> view_class uc class args -> end_statement ue b ->
    view_def n (ul ++ uc ++ ue) (View (Some (n + length ul)) class args (text b) (text d) [])
| inner_view n ul d uc class args ut b o us vs ur c :
    opt_comment lead_comment_k ul d -> view_class uc class args -> opt_comment trail_comment_k ut b ->
    t_name o = open_brace_k ->
    view_defs (n + length ul + length uc + length ut + 1) us vs -> leftover ur -> t_name c = close_brace_k ->
    view_def n (ul ++ uc ++ ut ++ o :: us ++ ur ++ [c]) (View (Some (n + length ul)) class args (text b) (text d) vs)
with view_defs : nat -> list token -> list view -> Prop :=
| no_views n : view_defs n [] []
| more_views n u v us vs : view_def n u v -> view_defs (n + length u) us vs -> view_defs n (u ++ us) (v :: vs).
(** layout_specifier = [lead_comment] "layout" identifier "{" { qualified_cell_decl } "view"
    view_definition "}" [trail_comment].  The callbacks are the cells', then finalize_sheet, then the views' *)
Inductive layout_specifier : list token -> list event -> view -> Prop :=
| a_layout ul d name o us evs uv v c ut b :
    opt_comment lead_comment_k ul d -> t_name name = identifier_k -> t_name o = open_brace_k ->
    set_decls eve_sections (length ul + 3) us evs ->
    view_def (length ul + 3 + length us + 1) uv v -> t_name c = close_brace_k ->
    opt_comment trail_comment_k ut b ->
    layout_specifier (ul ++ kw "layout" :: name :: o :: us ++ kw "view" :: uv ++ c :: ut) evs v.
End Grammar.

(** The calls of add_view for a tree of views: each view before the views in it, with the place its
    parent's call returned; [k] calls of add_view were made before *)
Fixpoint views_in (v : view) : nat :=
  match v with View _ _ _ _ _ vs => S (fold_right (fun v n => views_in v + n) 0 vs) end.
Fixpoint view_calls (parent : option nat) (k : nat) (v : view) {struct v} : list event :=
  match v with
  | View p class args brief detailed vs =>
    AddView parent p class args brief detailed ::
      (fix calls (j : nat) (vs : list view) : list event :=
         match vs with [] => [] | v :: vs => view_calls (Some k) j v ++ calls (j + views_in v) vs end) (S k) vs
  end.

(** The relations as a callback ought to get them *)
Definition faithful (ws : list written) (rs : list relation) : Prop := rs = map as_written ws.
(** How adobe::parse of a layout hands over the relations of one "relate": the first two as written; each
    later one with the names of the first and of all since put before its own, and, where it has no
    comment, the comment before it among those *)
Fixpoint accumulated (ns : list string) (b d : string) (ws : list written) : list relation :=
  match ws with
  | [] => []
  | w :: ws =>
    let ns' := ns ++ w_names w in
    let b' := match w_brief w with Some s => s | None => b end in
    let d' := match w_detailed w with Some s => s | None => d end in
    mk_relation ns' (w_position w) (w_code w) b' d' :: accumulated ns' b' d' ws
  end.
Definition accumulating (ws : list written) (rs : list relation) : Prop :=
  match ws with
  | w1 :: w2 :: ws =>
    rs = as_written w1 :: as_written w2 :: accumulated (w_names w1) (text (w_brief w1)) (text (w_detailed w1)) ws
  | _ => False
  end.
(** What the lexer guarantees: comments carry their text, and eof comes only after the last token *)
Definition lexed_decl (t : token) : Prop :=
  lexed t /\ match t_name t with lead_comment_k | trail_comment_k => exists s, t_value t = VStr s | eof_k => False | _ => True end.
