(** Model of adobe::expression_parser — /repo/source/expression_parser.cpp (line numbers below refer
    to it), the recursive descent parser that turns the tokens of an expression into the array the
    virtual machine evaluates.
    A token is the pair (name, value) of stream_lex_token_t; its name is one of the constants of
    /repo/adobe/implementation/token.hpp:27-80.  The token stream is a list with a cursor: get_token
    takes the head (eof when there is none, as the lexer delivers eof for ever), putback gives it back
    (the ring buffer behind it is modelled in Lookahead_Model.v and proved to behave so, C58).  The parser's functions return whether
    the construct was found, the expression_stack and the rest of the tokens, or throw.
    The loops and the recursion take fuel; [PFuel] is proved unreachable. *)
From Coq Require Import String Ascii ZArith Floats.SpecFloat List.
From Verif Require Import Prelude Vm_Value.
Import ListNotations.
Local Open Scope nat_scope.

(** token.hpp:27-80, lex_shared.cpp:16 (eof) *)
Inductive tk :=
| add_k | and_k | at_k | bitwise_and_k | bitwise_lshift_k | bitwise_negate_k | bitwise_or_k
| bitwise_rshift_k | bitwise_xor_k | divide_k | equal_k | greater_equal_k | greater_k | is_k
| less_equal_k | less_k | modulus_k | multiply_k | not_equal_k | not_k | or_k | subtract_k | to_k
| assign_k | close_brace_k | close_bracket_k | close_parenthesis_k | colon_k | comma_k | dot_k
| identifier_k | keyword_k | lead_comment_k | number_k | open_brace_k | open_bracket_k
| open_parenthesis_k | question_k | semicolon_k | string_k | trail_comment_k | eof_k.
Scheme Equality for tk.

(** the names of the operator tokens, which are also the operators of the virtual machine *)
Definition tk_name (t : tk) : string :=
  match t with
  | add_k => ".add" | and_k => ".and" | at_k => ".at" | bitwise_and_k => ".bitwise_and"
  | bitwise_lshift_k => ".bitwise_lshift" | bitwise_negate_k => ".bitwise_negate"
  | bitwise_or_k => ".bitwise_or" | bitwise_rshift_k => ".bitwise_rshift"
  | bitwise_xor_k => ".bitwise_xor" | divide_k => ".divide" | equal_k => ".equal"
  | greater_equal_k => ".greater_equal" | greater_k => ".greater" | is_k => ".is"
  | less_equal_k => ".less_equal" | less_k => ".less" | modulus_k => ".modulus"
  | multiply_k => ".multiply" | not_equal_k => ".not_equal" | not_k => ".not" | or_k => ".or"
  | subtract_k => ".subtract" | to_k => ".to" | assign_k => "assign" | close_brace_k => "close_brace"
  | close_bracket_k => "close_bracket" | close_parenthesis_k => "close_parenthesis"
  | colon_k => "colon" | comma_k => "comma" | dot_k => "dot" | identifier_k => "identifier"
  | keyword_k => "keyword" | lead_comment_k => "lead_comment" | number_k => "number"
  | open_brace_k => "open_brace" | open_bracket_k => "open_bracket"
  | open_parenthesis_k => "open_parenthesis" | question_k => "question" | semicolon_k => "semicolon"
  | string_k => "string" | trail_comment_k => "trail_comment" | eof_k => "eof"
  end%string.

Record token := mk_token { t_name : tk; t_value : value }.
Definition eof : token := mk_token eof_k VEmpty.

Definition stack := list value.       (* array_t, in order *)
Inductive pres := PRet (b : bool) (s : stack) (ts : list token) | PThrow | PFuel.

(** 642 get_token *)
Definition get (ts : list token) : token * list token :=
  match ts with [] => (eof, []) | t :: ts' => (t, ts') end.
(** 621-628 is_token(name): the tokens after it, or None with the token put back *)
Definition is_token (k : tk) (ts : list token) : option (list token) :=
  let (t, ts') := get ts in if tk_beq (t_name t) k then Some ts' else None.
(** 609-617 is_token(name, value): the value is copied (result is const, so the std::move copies) *)
Definition is_token_value (k : tk) (ts : list token) : option (value * list token) :=
  let (t, ts') := get ts in if tk_beq (t_name t) k then Some (t_value t, ts') else None.
(** 632-638 is_keyword: the value of a keyword token is a name *)
Definition is_keyword (n : string) (ts : list token) : option (list token) :=
  let (t, ts') := get ts in
  if tk_beq (t_name t) keyword_k && (match t_value t with VName m => String.eqb m n | _ => false end)
  then Some ts' else None.
(** 677-684 require_token *)
Definition require_token (k : tk) (ts : list token) (c : list token -> pres) : pres :=
  match is_token k ts with Some ts' => c ts' | None => PThrow end.
(** 650-658 require_token(name, value) *)
Definition require_token_value (k : tk) (ts : list token) (c : value -> list token -> pres) : pres :=
  match is_token_value k ts with Some (v, ts') => c v ts' | None => PThrow end.

Definition parser := stack -> list token -> pres.
(** if (!p(stack)) return false; *)
Definition try (r : pres) (yes : stack -> list token -> pres) : pres :=
  match r with PRet true s ts => yes s ts | _ => r end.
(** if (!p(stack)) throw_exception(...) *)
Definition must (r : pres) (yes : stack -> list token -> pres) : pres :=
  match r with PRet true s ts => yes s ts | PRet false _ _ => PThrow | _ => r end.
(** if (p(stack)) return true; *)
Definition or_else (r : pres) (no : stack -> list token -> pres) : pres :=
  match r with PRet false s ts => no s ts | _ => r end.

(** 113-120 match_token: the first of the tokens that is next *)
Fixpoint match_token (ks : list tk) (ts : list token) : option (tk * list token) :=
  match ks with
  | [] => None
  | k :: ks' => match is_token k ts with Some ts' => Some (k, ts') | None => match_token ks' ts end
  end.

(** 57-75 is_logical_expression: operand2 is a new array that is pushed as one value *)
Fixpoint logical_loop (fuel : nat) (operand : parser) (ops : list tk) (s : stack) (ts : list token) : pres :=
  match fuel with
  | 0 => PFuel
  | S fuel =>
    match match_token ops ts with
    | None => PRet true s ts
    | Some (k, ts') =>
      must (operand [] ts') (fun operand2 ts'' =>
        logical_loop fuel operand ops (s ++ [VArr operand2; VName (tk_name k)]) ts'')
    end
  end.
Definition is_logical (fuel : nat) (operand : parser) (ops : list tk) : parser := fun s ts =>
  try (operand s ts) (logical_loop fuel operand ops).
(** 81-96 is_binary_expression *)
Fixpoint binary_loop (fuel : nat) (operand : parser) (ops : list tk) (s : stack) (ts : list token) : pres :=
  match fuel with
  | 0 => PFuel
  | S fuel =>
    match match_token ops ts with
    | None => PRet true s ts
    | Some (k, ts') =>
      must (operand s ts') (fun s' ts'' =>
        binary_loop fuel operand ops (s' ++ [VName (tk_name k)]) ts'')
    end
  end.
Definition is_binary (fuel : nat) (operand : parser) (ops : list tk) : parser := fun s ts =>
  try (operand s ts) (binary_loop fuel operand ops).

(** 550-563 is_unary_operator: the name to push *)
Definition is_unary_operator (ts : list token) : option (tk * string * list token) :=
  let (t, ts') := get ts in
  match t_name t with
  | subtract_k => Some (subtract_k, ".unary_negate"%string, ts')
  | not_k | add_k | bitwise_negate_k => Some (t_name t, tk_name (t_name t), ts')
  | _ => None
  end.

Section Recursive.
Variable expression : parser.     (* is_expression *)
Variable fuel : nat.

(** 211-215 require_expression *)
Definition require_expression (s : stack) (ts : list token) (c : stack -> list token -> pres) : pres :=
  must (expression s ts) c.

(** 378-393 is_argument_list *)
Fixpoint argument_loop (n : nat) (count : nat) (s : stack) (ts : list token) : pres :=
  match n with
  | 0 => PFuel
  | S n =>
    match is_token comma_k ts with
    | Some ts' => require_expression s ts' (fun s' ts'' => argument_loop n (S count) s' ts'')
    | None => PRet true (s ++ [VNum (f_of_Z (Z.of_nat count)); VName ".array"]) ts
    end
  end.
Definition is_argument_list : parser := fun s ts => try (expression s ts) (argument_loop fuel 1).
(** 420-438 is_named_argument: the identifier is put back unless a colon follows *)
Definition is_named_argument : parser := fun s ts =>
  match is_token_value identifier_k ts with
  | None => PRet false s ts
  | Some (ident, ts') =>
    match is_token colon_k ts' with
    | None => PRet false s ts
    | Some ts'' => require_expression (s ++ [ident]) ts'' (fun s ts => PRet true s ts)
    end
  end.
(** 398-415 is_named_argument_list *)
Fixpoint named_loop (n : nat) (count : nat) (s : stack) (ts : list token) : pres :=
  match n with
  | 0 => PFuel
  | S n =>
    match is_token comma_k ts with
    | Some ts' => must (is_named_argument s ts') (fun s' ts'' => named_loop n (S count) s' ts'')
    | None => PRet true (s ++ [VNum (f_of_Z (Z.of_nat count)); VName ".dictionary"]) ts
    end
  end.
Definition is_named_argument_list : parser := fun s ts => try (is_named_argument s ts) (named_loop fuel 1).
(** 368-373 is_argument_expression_list *)
Definition is_argument_expression_list : parser := fun s ts =>
  or_else (is_named_argument_list s ts) is_argument_list.

(** 470-490 is_variable_or_function *)
Definition is_variable_or_function : parser := fun s ts =>
  match is_token_value identifier_k ts with
  | None => PRet false s ts
  | Some (result, ts') =>
    match is_token open_parenthesis_k ts' with
    | Some ts'' =>
      let finish := fun s ts => require_token close_parenthesis_k ts (fun ts' =>
        PRet true (s ++ [result; VName ".function"]) ts') in
      match is_argument_expression_list s ts'' with
      | PRet true s' ts3 => finish s' ts3
      | PRet false s' ts3 => finish (s' ++ [VArr []]) ts3
      | r => r
      end
    | None => PRet true (s ++ [result; VName ".variable"]) ts'
    end
  end.
(** 494-504 is_dictionary *)
Definition is_dictionary : parser := fun s ts =>
  match is_token open_brace_k ts with
  | None => PRet false s ts
  | Some ts' =>
    let finish := fun s ts => require_token close_brace_k ts (fun ts' => PRet true s ts') in
    match is_named_argument_list s ts' with
    | PRet true s' ts'' => finish s' ts''
    | PRet false s' ts'' => finish (s' ++ [VDict []]) ts''
    | r => r
    end
  end.
(** 508-518 is_array *)
Definition is_array : parser := fun s ts =>
  match is_token open_bracket_k ts with
  | None => PRet false s ts
  | Some ts' =>
    let finish := fun s ts => require_token close_bracket_k ts (fun ts' => PRet true s ts') in
    match is_argument_list s ts' with
    | PRet true s' ts'' => finish s' ts''
    | PRet false s' ts'' => finish (s' ++ [VArr []]) ts''
    | r => r
    end
  end.
(** 522-530 is_name *)
Definition is_name (s : stack) (ts : list token) : pres :=
  match is_token at_k ts with
  | None => PRet false s ts
  | Some ts' =>
    match is_token_value keyword_k ts' with
    | Some (v, ts'') => PRet true (s ++ [v]) ts''
    | None => match is_token_value identifier_k ts' with
              | Some (v, ts'') => PRet true (s ++ [v]) ts''
              | None => PThrow
              end
    end
  end.
(** 534-544 is_boolean *)
Definition is_boolean (s : stack) (ts : list token) : pres :=
  match is_keyword "true" ts with
  | Some ts' => PRet true (s ++ [VBool true]) ts'
  | None => match is_keyword "false" ts with
            | Some ts' => PRet true (s ++ [VBool false]) ts'
            | None => PRet false s ts
            end
  end.
Definition is_literal (k : tk) (s : stack) (ts : list token) : pres :=
  match is_token_value k ts with Some (v, ts') => PRet true (s ++ [v]) ts' | None => PRet false s ts end.
Definition is_empty (s : stack) (ts : list token) : pres :=
  match is_keyword "empty" ts with Some ts' => PRet true (s ++ [VEmpty]) ts' | None => PRet false s ts end.
(** 445-465 is_primary_expression *)
Definition is_primary : parser := fun s ts =>
  or_else (is_name s ts) (fun s ts =>
  or_else (is_literal number_k s ts) (fun s ts =>
  or_else (is_boolean s ts) (fun s ts =>
  or_else (is_literal string_k s ts) (fun s ts =>
  or_else (is_empty s ts) (fun s ts =>
  or_else (is_array s ts) (fun s ts =>
  or_else (is_dictionary s ts) (fun s ts =>
  or_else (is_variable_or_function s ts) (fun s ts =>
  match is_token open_parenthesis_k ts with
  | Some ts' => require_expression s ts' (fun s ts => require_token close_parenthesis_k ts (fun ts => PRet true s ts))
  | None => PRet false s ts
  end)))))))).
(** 344-363 is_postfix_expression *)
Fixpoint postfix_loop (n : nat) (s : stack) (ts : list token) : pres :=
  match n with
  | 0 => PFuel
  | S n =>
    match is_token open_bracket_k ts with
    | Some ts' =>
      require_expression s ts' (fun s ts => require_token close_bracket_k ts (fun ts =>
        postfix_loop n (s ++ [VName ".index"]) ts))
    | None =>
      match is_token dot_k ts with
      | Some ts' => require_token_value identifier_k ts' (fun v ts => postfix_loop n (s ++ [v; VName ".index"]) ts)
      | None => PRet true s ts
      end
    end
  end.
Definition is_postfix : parser := fun s ts => try (is_primary s ts) (postfix_loop fuel).
(** 321-338 is_unary_expression *)
Fixpoint is_unary (n : nat) (s : stack) (ts : list token) : pres :=
  match n with
  | 0 => PFuel
  | S n =>
    or_else (is_postfix s ts) (fun s ts =>
      match is_unary_operator ts with
      | None => PRet false s ts
      | Some (k, name, ts') =>
        must (is_unary n s ts') (fun s' ts'' =>
          PRet true (if tk_beq k add_k then s' else s' ++ [VName name]) ts'')
      end)
  end.
(** 220-313 the binary operators, from the tightest *)
Definition is_multiplicative : parser := is_binary fuel (is_unary fuel) [multiply_k; divide_k; modulus_k].
Definition is_additive : parser := is_binary fuel is_multiplicative [add_k; subtract_k].
Definition is_bitshift : parser := is_binary fuel is_additive [bitwise_lshift_k; bitwise_rshift_k].
Definition is_relational : parser :=
  is_binary fuel is_bitshift [less_k; greater_k; less_equal_k; greater_equal_k].
Definition is_equality : parser := is_binary fuel is_relational [equal_k; not_equal_k].
Definition is_bitwise_and : parser := is_binary fuel is_equality [bitwise_and_k].
Definition is_bitwise_xor : parser := is_binary fuel is_bitwise_and [bitwise_xor_k].
Definition is_bitwise_or : parser := is_binary fuel is_bitwise_xor [bitwise_or_k].
Definition is_and : parser := is_logical fuel is_bitwise_or [and_k].
Definition is_or : parser := is_logical fuel is_and [or_k].
(** 189-208 is_expression *)
Definition is_conditional : parser := fun s ts =>
  try (is_or s ts) (fun s ts =>
    match is_token question_k ts with
    | None => PRet true s ts
    | Some ts' =>
      require_expression [] ts' (fun operand2 ts => require_token colon_k ts (fun ts =>
        require_expression [] ts (fun operand3 ts =>
          PRet true (s ++ [VArr operand2; VArr operand3; VName ".ifelse"]) ts)))
    end).
End Recursive.

Fixpoint expression_fuel (fuel : nat) : parser :=
  match fuel with
  | 0 => fun _ _ => PFuel
  | S fuel => is_conditional (expression_fuel fuel) (S fuel)
  end.
(** 189-208 with as much recursion as the tokens can need *)
Definition is_expression : parser := fun s ts => expression_fuel (S (length ts)) s ts.
