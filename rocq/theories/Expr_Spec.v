(** Specification of the expression language's concrete syntax: the grammar in the comments of
    /repo/adobe/implementation/expression_parser.hpp and expression_parser.cpp, as an inductive
    relation between a list of tokens and the abstract syntax (Vm_Spec.expr) it is written for.
    Nothing of the parser's model is used but the type of tokens. *)
From Coq Require Import String ZArith List.
From Verif Require Import Prelude Vm_Value Vm_Model Vm_Spec Expr_Model.
Import ListNotations.

(** Binary operators by precedence, loosest first *)
Inductive level :=
| LOr | LAnd | LBitOr | LBitXor | LBitAnd | LEquality | LRelational | LShift | LAdditive
| LMultiplicative | LUnary.
Definition tighter (l : level) : option level :=
  match l with
  | LOr => Some LAnd | LAnd => Some LBitOr | LBitOr => Some LBitXor | LBitXor => Some LBitAnd
  | LBitAnd => Some LEquality | LEquality => Some LRelational | LRelational => Some LShift
  | LShift => Some LAdditive | LAdditive => Some LMultiplicative | LMultiplicative => Some LUnary
  | LUnary => None
  end.
Definition operator (l : level) (k : tk) : option (expr -> expr -> expr) :=
  match l, k with
  | LOr, or_k => Some EOr
  | LAnd, and_k => Some EAnd
  | LBitOr, bitwise_or_k => Some (EBin BBitOr)
  | LBitXor, bitwise_xor_k => Some (EBin BBitXor)
  | LBitAnd, bitwise_and_k => Some (EBin BBitAnd)
  | LEquality, equal_k => Some (EBin BEq) | LEquality, not_equal_k => Some (EBin BNotEq)
  | LRelational, less_k => Some (EBin BLess) | LRelational, greater_k => Some (EBin BGreater)
  | LRelational, less_equal_k => Some (EBin BLessEq) | LRelational, greater_equal_k => Some (EBin BGreaterEq)
  | LShift, bitwise_lshift_k => Some (EBin BShiftL) | LShift, bitwise_rshift_k => Some (EBin BShiftR)
  | LAdditive, add_k => Some (EBin BAdd) | LAdditive, subtract_k => Some (EBin BSub)
  | LMultiplicative, multiply_k => Some (EBin BMul) | LMultiplicative, divide_k => Some (EBin BDiv)
  | LMultiplicative, modulus_k => Some (EBin BMod)
  | _, _ => None
  end.
Definition unary (k : tk) : option unop :=
  match k with
  | add_k => Some UPlus | subtract_k => Some UNegate | not_k => Some UNot | bitwise_negate_k => Some UComplement
  | _ => None
  end.

(** [gexpr ts e]: the tokens [ts], all of them, are a way to write the expression [e] *)
Inductive gexpr : list token -> expr -> Prop :=
| g_or ts e : glevel LOr ts e -> gexpr ts e
| g_cond tc c q ta a colon tb b :
    glevel LOr tc c -> t_name q = question_k -> gexpr ta a -> t_name colon = colon_k -> gexpr tb b ->
    gexpr (tc ++ q :: ta ++ colon :: tb) (ECond c a b)
(** binary operators associate to the left *)
with glevel : level -> list token -> expr -> Prop :=
| g_tighter l l' ts e : tighter l = Some l' -> glevel l' ts e -> glevel l ts e
| g_binary l l' ta a op mk tb b :
    tighter l = Some l' -> glevel l ta a -> operator l (t_name op) = Some mk -> glevel l' tb b ->
    glevel l (ta ++ op :: tb) (mk a b)
| g_postfix ts e : gpostfix ts e -> glevel LUnary ts e
| g_unary op u ts e : unary (t_name op) = Some u -> glevel LUnary ts e -> glevel LUnary (op :: ts) (EUn u e)
with gpostfix : list token -> expr -> Prop :=
| g_primary ts e : gprimary ts e -> gpostfix ts e
| g_index ta a o ti i c :
    gpostfix ta a -> t_name o = open_bracket_k -> gexpr ti i -> t_name c = close_bracket_k ->
    gpostfix (ta ++ o :: ti ++ [c]) (EIndex a i)
| g_dot ta a d n :
    gpostfix ta a -> t_name d = dot_k -> gpostfix (ta ++ [d; mk_token identifier_k (VName n)]) (EDot a n)
with gprimary : list token -> expr -> Prop :=
| g_number v : gprimary [mk_token number_k v] (ELit v)
| g_string v : gprimary [mk_token string_k v] (ELit v)
| g_true : gprimary [mk_token keyword_k (VName "true")] (ELit (VBool true))
| g_false : gprimary [mk_token keyword_k (VName "false")] (ELit (VBool false))
| g_empty : gprimary [mk_token keyword_k (VName "empty")] (ELit VEmpty)
| g_name a k n : t_name a = at_k -> k = identifier_k \/ k = keyword_k ->
    gprimary [a; mk_token k (VName n)] (ELit (VName n))
| g_variable n : gprimary [mk_token identifier_k (VName n)] (EVar n)
| g_call0 f o c : t_name o = open_parenthesis_k -> t_name c = close_parenthesis_k ->
    gprimary [mk_token identifier_k (VName f); o; c] (ECall f [])
| g_call f o ts es c : t_name o = open_parenthesis_k -> gargs ts es -> t_name c = close_parenthesis_k ->
    gprimary (mk_token identifier_k (VName f) :: o :: ts ++ [c]) (ECall f es)
| g_call_named f o ts kes c : t_name o = open_parenthesis_k -> gnamed ts kes -> t_name c = close_parenthesis_k ->
    gprimary (mk_token identifier_k (VName f) :: o :: ts ++ [c]) (ECallNamed f kes)
| g_array0 o c : t_name o = open_bracket_k -> t_name c = close_bracket_k -> gprimary [o; c] (EArray [])
| g_array o ts es c : t_name o = open_bracket_k -> gargs ts es -> t_name c = close_bracket_k ->
    gprimary (o :: ts ++ [c]) (EArray es)
| g_dict0 o c : t_name o = open_brace_k -> t_name c = close_brace_k -> gprimary [o; c] (EDict [])
| g_dict o ts kes c : t_name o = open_brace_k -> gnamed ts kes -> t_name c = close_brace_k ->
    gprimary (o :: ts ++ [c]) (EDict kes)
| g_paren o ts e c : t_name o = open_parenthesis_k -> gexpr ts e -> t_name c = close_parenthesis_k ->
    gprimary (o :: ts ++ [c]) e
with gargs : list token -> list expr -> Prop :=
| g_arg ts e : gexpr ts e -> gargs ts [e]
| g_args ts e comma ts' es : gexpr ts e -> t_name comma = comma_k -> gargs ts' es ->
    gargs (ts ++ comma :: ts') (e :: es)
with gnamed : list token -> list (string * expr) -> Prop :=
| g_named1 n colon ts e : t_name colon = colon_k -> gexpr ts e ->
    gnamed (mk_token identifier_k (VName n) :: colon :: ts) [(n, e)]
| g_named n colon ts e comma ts' kes : t_name colon = colon_k -> gexpr ts e -> t_name comma = comma_k ->
    gnamed ts' kes ->
    gnamed (mk_token identifier_k (VName n) :: colon :: ts ++ comma :: ts') ((n, e) :: kes).

(** What the lexer guarantees about the values of tokens: identifiers and keywords carry their name *)
Definition lexed (t : token) : Prop :=
  match t_name t with
  | identifier_k | keyword_k => exists n, t_value t = VName n
  | _ => True
  end.
(** ... which does not begin with a dot; numbers and strings carry a number and a string *)
Definition lexed_plain (t : token) : Prop :=
  match t_name t with
  | identifier_k | keyword_k => exists n, t_value t = VName n /\ plain_name n
  | number_k => exists f, t_value t = VNum f
  | string_k => exists s, t_value t = VStr s
  | _ => True
  end.

(** Tokens that can go on after a complete expression, and tokens that can begin one *)
Definition continues (k : tk) : bool :=
  match k with
  | or_k | and_k | bitwise_or_k | bitwise_xor_k | bitwise_and_k | equal_k | not_equal_k | less_k
  | greater_k | less_equal_k | greater_equal_k | bitwise_lshift_k | bitwise_rshift_k | add_k
  | subtract_k | multiply_k | divide_k | modulus_k | question_k | open_bracket_k | dot_k
  | open_parenthesis_k => true
  | _ => false
  end.
Definition ends (rest : list token) : Prop :=
  match rest with [] => True | t :: _ => continues (t_name t) = false end.
Definition begins (t : token) : bool :=
  match t_name t with
  | number_k | string_k | identifier_k | at_k | open_bracket_k | open_brace_k | open_parenthesis_k
  | add_k | subtract_k | not_k | bitwise_negate_k => true
  | keyword_k => match t_value t with
                 | VName n => (String.eqb n "true" || String.eqb n "false" || String.eqb n "empty")%bool
                 | _ => false
                 end
  | _ => false
  end.
