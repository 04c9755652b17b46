(** Model of token_to_string — /repo/source/token.cpp:21-88, with the constants of
    /repo/adobe/implementation/token.hpp:28-79.  Names are compared with strcmp (name.hpp:257-259). *)
From Coq Require Import String Ascii List.
From Verif Require Import Prelude Search_Model.
Import ListNotations.
Local Open Scope string_scope.

(** strcmp(x, y) < 0 on strings without NUL *)
Fixpoint name_less (x y : string) : bool :=
  match x, y with
  | _, EmptyString => false
  | EmptyString, String _ _ => true
  | String a x', String b y' =>
    (N_of_ascii a <? N_of_ascii b)%N || (Ascii.eqb a b && name_less x' y')
  end.

(** token.cpp:23-75 *)
Definition token_table : list (string * string) :=
  [(".add", "+"); (".and", "&&"); (".array", "array"); (".at", "@"); (".bitwise_and", "&");
   (".bitwise_lshift", "<<"); (".bitwise_negate", "~"); (".bitwise_or", "|"); (".bitwise_rshift", ">>");
   (".bitwise_xor", "^"); (".dictionary", "dictionary"); (".divide", "/"); (".equal", "==");
   (".function", "function"); (".greater", ">"); (".greater_equal", ">="); (".ifelse", "?:");
   (".index", "[]"); (".is", "<=="); (".less", "<"); (".less_equal", "<="); (".modulus", "%");
   (".multiply", "*"); (".not", "!"); (".not_equal", "!="); (".or", "||"); (".subtract", "-");
   (".to", "->"); (".unary_negate", "-"); (".variable", "variable");
   ("assign", "="); ("close_brace", "}"); ("close_bracket", "]"); ("close_parenthesis", ")");
   ("colon", ":"); ("comma", ","); ("dot", "."); ("empty", "empty"); ("false", "false");
   ("identifier", "identifier"); ("keyword", "keyword"); ("lead_comment", "lead_comment");
   ("number", "number"); ("open_brace", "{"); ("open_bracket", "["); ("open_parenthesis", "(");
   ("question", "?"); ("semicolon", ";"); ("string", "string"); ("trail_comment", "trail_comment");
   ("true", "true")].

(** token.cpp:85-87: [None] is the dereference of the end iterator (the assert is off in release builds) *)
Definition token_to_string (token : string) : option string :=
  match binary_search name_less fst token_table token String.eqb with
  | None => None
  | Some p => match nth_error token_table p with Some (_, s) => Some s | None => None end
  end.

(** expression_parser.cpp:662-675 require_keyword's message when the token is not a keyword *)
Definition require_keyword_message (expected found : string) : option string :=
  match token_to_string found with
  | Some s => Some ("expected `" ++ expected ++ "`, found `" ++ s ++ "`.")%string
  | None => None
  end.
