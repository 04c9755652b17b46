(** Model of the lexer of the expression language: lex_stream_t — /repo/source/lex_stream.cpp:254-635 —
    and the character level of stream_lex_base_t — /repo/adobe/implementation/lex_shared.hpp:344-425,
    476-545.  A char is a byte and is signed: passing one to the <cctype> functions, or getting one from
    peek_char, turns it into an int that is negative for bytes of 128 or more; the <cctype> functions are
    undefined for negative values other than EOF (-1, which the byte 255 turns into).  They are those of
    the C locale.  Undefined behaviour is the result [LUndef].
    putback_m is an array of 8 whose element 0 is never used; it is modelled by the list of its elements,
    the top first, and putting back an eighth is undefined.
    Loops take fuel; running out of it ([LFuel]) is proved impossible.
    Parameters: [keyword_proc] is keyword_proc_m (a pure predicate), [bypass] is comment_bypass_m and
    [read_double] is what operator>>(istream&, double&) makes of a text of digits and dots.
    identifier_buffer_m is a local list here.  The copy operations of lex_stream_t are not modelled. *)
From Coq Require Import String Ascii ZArith List Bool Floats.SpecFloat.
From Verif Require Import Prelude Vm_Value Search_Model Token_Model Expr_Model.
Import ListNotations.
Local Open Scope Z_scope.
Local Open Scope char_scope.

Notation "c =? d" := (Ascii.eqb c d) : char_scope.
Definition nl : ascii := "010".
Definition cr : ascii := "013".
Definition EOF : Z := -1.
(** (int)c for a signed char *)
Definition to_int (c : ascii) : Z :=
  let n := Z.of_N (N_of_ascii c) in if (n <? 128)%Z then n else n - 256.

(** <cctype>, C locale; None when the argument is neither EOF nor an unsigned char *)
Definition ctype (f : Z -> bool) (z : Z) : option bool :=
  if ((-1 <=? z) && (z <=? 255))%Z then Some (f z) else None.
Definition between (a b z : Z) : bool := ((a <=? z) && (z <=? b))%Z.
Definition isdigit := ctype (between 48 57).
Definition isxdigit := ctype (fun z => between 48 57 z || between 65 70 z || between 97 102 z).
Definition isalpha := ctype (fun z => between 65 90 z || between 97 122 z).
Definition isalnum := ctype (fun z => between 48 57 z || between 65 90 z || between 97 122 z).
Definition isspace := ctype (fun z => between 9 13 z || (z =? 32)%Z).
Definition tolower (z : Z) : option Z :=
  if ((-1 <=? z) && (z <=? 255))%Z then Some (if between 65 90 z then z + 32 else z) else None.

(** *** the characters: lex_shared.hpp:325-335 *)
Record st := mk_st { pb : list ascii; inp : list ascii; position : Z; line : Z; line_start : Z }.
Inductive lres (A : Type) := LOk (a : A) (s : st) | LThrow | LUndef | LFuel.
Arguments LOk {A}. Arguments LThrow {A}. Arguments LUndef {A}. Arguments LFuel {A}.
Definition lbind {A B} (r : lres A) (k : A -> st -> lres B) : lres B :=
  match r with LOk a s => k a s | LThrow => LThrow | LUndef => LUndef | LFuel => LFuel end.
Definition check {A} (o : option bool) (yes no : lres A) : lres A :=
  match o with Some true => yes | Some false => no | None => LUndef end.

(** 357-380 get_char *)
Definition get_char (s : st) : option (ascii * st) :=
  match pb s with
  | c :: pb' => Some (c, mk_st pb' (inp s) (position s + 1) (line s) (line_start s))
  | [] => match inp s with
          | [] => None
          | c :: inp' => Some (c, mk_st [] inp' (position s + 1) (line s) (line_start s))
          end
  end.
(** 384-389 putback_char *)
Definition putback_char (c : ascii) (s : st) : lres unit :=
  if (List.length (pb s) <? 7)%nat
  then LOk tt (mk_st (c :: pb s) (inp s) (position s - 1) (line s) (line_start s)) else LUndef.
(** 393-401 peek_char *)
Definition peek_char (s : st) : Z :=
  match pb s with c :: _ => to_int c | [] => match inp s with c :: _ => to_int c | [] => EOF end end.
(** 405-415 ignore_char *)
Definition ignore_char (s : st) : st :=
  match pb s with
  | _ :: pb' => mk_st pb' (inp s) (position s + 1) (line s) (line_start s)
  | [] => match inp s with
          | [] => s
          | _ :: inp' => mk_st [] inp' (position s + 1) (line s) (line_start s)
          end
  end.
(** 491-508 is_line_end(c), with istream.hpp:245-263: it looks for the line feed after a carriage
    return in the stream, not in the characters put back *)
Definition is_line_end (c : ascii) (s : st) : bool * st :=
  if c =? nl then (true, mk_st (pb s) (inp s) (position s) (line s + 1) (position s))
  else if c =? cr then
    match inp s with
    | d :: inp' => if d =? nl then (true, mk_st (pb s) inp' (position s + 1) (line s + 1) (position s + 1))
                   else (true, mk_st (pb s) (inp s) (position s) (line s + 1) (position s))
    | [] => (true, mk_st (pb s) (inp s) (position s) (line s + 1) (position s))
    end
  else (false, s).
(** 541-552 skip_white_space *)
Fixpoint skip_white_space (fuel : nat) (s : st) : lres unit :=
  match fuel with
  | O => LFuel
  | S fuel =>
    match get_char s with
    | None => LOk tt s
    | Some (c, s1) =>
      let (e, s2) := is_line_end c s1 in
      if e then skip_white_space fuel s2
      else check (isspace (to_int c)) (skip_white_space fuel s2) (putback_char c s2)
    end
  end.

Section Lexer.
Variable keyword_proc : string -> bool.
Variable bypass : bool.
Variable read_double : list ascii -> spec_float.
Variable fuel : nat.

Definition text (l : list ascii) : string := string_of_list_ascii l.
(** std::string(const char* ): up to the first NUL *)
Fixpoint c_str (l : list ascii) : list ascii :=
  match l with [] => [] | c :: l' => if c =? "000" then [] else c :: c_str l' end.

(** *** numbers *)
(** 374-376 v <<= 4; v += digit, in unsigned long long *)
Definition hex_digit (c : ascii) : Z :=
  let z := to_int c in
  if between 48 57 z then z - 48 else 10 + (if between 65 90 z then z + 32 else z) - 97.
Definition hex_step (v : Z) (c : ascii) : Z := (((v * 16) mod 2 ^ 64) + hex_digit c) mod 2 ^ 64.
Fixpoint hex_loop (n : nat) (v : Z) (s : st) : lres Z :=
  match n with
  | O => LFuel
  | S n =>
    match get_char s with
    | None => LOk v s
    | Some (c, s') =>
      check (isxdigit (to_int c)) (hex_loop n (hex_step v c) s') (lbind (putback_char c s') (fun _ s => LOk v s))
    end
  end.
(** 350-385 is_hex_number *)
Definition is_hex_number (c : ascii) (s : st) : lres (option token) :=
  if negb (c =? "0") then LOk None s else
  match tolower (peek_char s) with
  | None => LUndef
  | Some z =>
    if negb (z =? 120)%Z then LOk None s else
    match get_char s with
    | None => LUndef
    | Some (x, s1) =>
      check (isxdigit (peek_char s1))
        (lbind (hex_loop fuel 0 s1) (fun v s2 => LOk (Some (mk_token number_k (VNum (f_of_Z v)))) s2))
        (lbind (putback_char x s1) (fun _ s2 => LOk None s2))
    end
  end.
(** 402-413 the loop of is_dec_number *)
Fixpoint dec_loop (n : nat) (acc : list ascii) (s : st) : lres (list ascii) :=
  match n with
  | O => LFuel
  | S n =>
    match get_char s with
    | None => LOk acc s
    | Some (c, s') =>
      match isdigit (to_int c) with
      | None => LUndef
      | Some d => if negb d && negb (c =? ".") then lbind (putback_char c s') (fun _ s => LOk acc s)
                  else dec_loop n (acc ++ [c]) s'
      end
    end
  end.
(** 392-421 is_dec_number *)
Definition is_dec_number (c : ascii) (s : st) : lres (option token) :=
  check (isdigit (to_int c))
    (lbind (putback_char c s) (fun _ s1 =>
     lbind (dec_loop fuel [] s1) (fun digits s2 => LOk (Some (mk_token number_k (VNum (read_double digits)))) s2)))
    (LOk None s).
(** 344-346 is_number *)
Definition is_number (c : ascii) (s : st) : lres (option token) :=
  lbind (is_hex_number c s) (fun r s' => match r with Some _ => LOk r s' | None => is_dec_number c s' end).

(** *** identifiers and keywords *)
(** 431-438 the do loop *)
Fixpoint ident_loop (n : nat) (acc : list ascii) (c : ascii) (s : st) : lres (list ascii) :=
  match n with
  | O => LFuel
  | S n =>
    match isalnum (to_int c) with
    | None => LUndef
    | Some b =>
      if b || (c =? "_") then
        match get_char s with
        | None => LOk (acc ++ [c]) s
        | Some (c', s') => ident_loop n (acc ++ [c]) c' s'
        end
      else lbind (putback_char c s) (fun _ s' => LOk acc s')
    end
  end.
(** 56, 230: the sorted keyword table, and its lower_bound search 443 *)
Definition keywords : list string := ["empty"; "false"; "true"]%string.
Definition in_keyword_table (ident : string) : bool :=
  match lower_bound name_less (fun k => k) keywords ident with
  | Some (i, _) => match nth_error keywords i with Some k => String.eqb k ident | None => false end
  | None => false
  end.
(** 425-453 is_identifier_or_keyword *)
Definition is_identifier_or_keyword (c : ascii) (s : st) : lres (option token) :=
  match isalpha (to_int c) with
  | None => LUndef
  | Some a =>
    if negb a && negb (c =? "_") then LOk None s else
    lbind (ident_loop fuel [] c s) (fun w s' =>
      let ident := text w in
      LOk (Some (mk_token (if in_keyword_table ident || keyword_proc ident then keyword_k else identifier_k) (VName ident))) s')
  end.

(** *** comments *)
(** 470-472 while (get_char(c) && !is_line_end(c)) *)
Fixpoint trail_loop (n : nat) (acc : list ascii) (s : st) : lres (list ascii) :=
  match n with
  | O => LFuel
  | S n =>
    match get_char s with
    | None => LOk acc s
    | Some (c, s1) => let (e, s2) := is_line_end c s1 in
                      if e then LOk acc s2 else trail_loop n (acc ++ [c]) s2
    end
  end.
(** 480-497 *)
Fixpoint lead_loop (n : nat) (acc : list ascii) (s : st) : lres (list ascii) :=
  match n with
  | O => LFuel
  | S n =>
    match get_char s with
    | None => LThrow
    | Some (c, s1) =>
      if c =? "*" then
        if (peek_char s1 =? 47)%Z then LOk acc (ignore_char s1) else lead_loop n (acc ++ [c]) s1
      else
        let (e, s2) := is_line_end c s1 in
        lead_loop n (acc ++ [if e then nl else c]) s2
    end
  end.
(** 457-508 is_comment *)
Definition is_comment (c : ascii) (s : st) : lres (option token) :=
  if negb (c =? "/") then LOk None s else
  let peek_c := peek_char s in
  if (peek_c =? EOF)%Z || (negb (peek_c =? 47)%Z && negb (peek_c =? 42)%Z) then LOk None s else
  match get_char s with
  | None => LUndef
  | Some (c', s1) =>
    if c' =? "/" then
      lbind (trail_loop fuel [] s1) (fun l s2 => LOk (Some (mk_token trail_comment_k (VStr (text (c_str l))))) s2)
    else
      lbind (lead_loop fuel [] s1) (fun l s2 => LOk (Some (mk_token lead_comment_k (VStr (text (c_str l))))) s2)
  end.

(** *** strings *)
(** 520-524: the characters up to end_char, and the last value of c *)
Fixpoint quoted_loop (n : nat) (acc : list ascii) (end_char c : ascii) (s : st) : lres (list ascii * ascii) :=
  match n with
  | O => LFuel
  | S n =>
    match get_char s with
    | None => LOk (acc, c) s
    | Some (c', s') => if c' =? end_char then LOk (acc, c') s' else quoted_loop n (acc ++ [c']) end_char c' s'
    end
  end.
(** 517-537 the outer loop: adjacent strings are joined *)
Fixpoint string_loop (n : nat) (acc : list ascii) (c : ascii) (s : st) : lres (list ascii) :=
  match n with
  | O => LFuel
  | S n =>
    lbind (quoted_loop fuel acc c c s) (fun r s1 =>
      let (acc', c1) := r in
      if negb (c1 =? c) then LThrow else
      lbind (skip_white_space fuel s1) (fun _ s2 =>         (* 598-602 skip_space *)
      match get_char s2 with
      | None => LOk acc' s2
      | Some (c2, s3) =>
        if negb (c2 =? "'") && negb (c2 =? """") then lbind (putback_char c2 s3) (fun _ s4 => LOk acc' s4)
        else string_loop n acc' c2 s3
      end))
  end.
(** 512-543 is_string *)
Definition is_string (c : ascii) (s : st) : lres (option token) :=
  if negb (c =? "'") && negb (c =? """") then LOk None s else
  lbind (string_loop fuel [] c s) (fun l s' => LOk (Some (mk_token string_k (VStr (text (c_str l))))) s').

(** *** operators *)
(** 64-97 compound_match_s: the second character required; entries not listed are '0' *)
Definition compound_match (c : ascii) : ascii :=
  if c =? "!" then "=" else if c =? "&" then "&" else if c =? "-" then ">" else if c =? "<" then "#"
  else if c =? "=" then "=" else if c =? ">" then "#" else if c =? "|" then "|" else "0".
(** 99-139 name_table_s *)
Definition name_table : list tk :=
  [eof_k (* empty_k, never looked up *); equal_k; and_k; or_k; less_equal_k; greater_equal_k; not_equal_k; add_k; subtract_k;
   multiply_k; divide_k; modulus_k; question_k; colon_k; semicolon_k; assign_k; not_k; open_brace_k;
   close_brace_k; less_k; greater_k; open_parenthesis_k; close_parenthesis_k; at_k; open_bracket_k;
   close_bracket_k; comma_k; dot_k; to_k; bitwise_and_k; bitwise_xor_k; bitwise_or_k; bitwise_rshift_k;
   bitwise_lshift_k; bitwise_negate_k].
Definition name_at (i : nat) : tk := nth i name_table eof_k.
(** 146-180 compound_index_s; entries not listed are 0 *)
Definition compound_index (c : ascii) : nat :=
  (if c =? "!" then 6%nat else if c =? "&" then 2%nat else if c =? "-" then 28%nat else if c =? "=" then 1%nat
   else if c =? "|" then 3%nat else 0%nat).
(** 192-226 simple_index_s; entries not listed are 0 *)
Definition simple_index (c : ascii) : nat :=
  (if c =? "!" then 16%nat else if c =? "%" then 11%nat else if c =? "&" then 29%nat else if c =? "(" then 21%nat
   else if c =? ")" then 22%nat else if c =? "*" then 9%nat else if c =? "+" then 7%nat else if c =? "," then 26%nat
   else if c =? "-" then 8%nat else if c =? "." then 27%nat else if c =? "/" then 10%nat else if c =? ":" then 13%nat
   else if c =? ";" then 14%nat else if c =? "<" then 19%nat else if c =? "=" then 15%nat else if c =? ">" then 20%nat
   else if c =? "?" then 12%nat else if c =? "@" then 23%nat else if c =? "[" then 24%nat else if c =? "]" then 25%nat
   else if c =? "^" then 30%nat else if c =? "{" then 17%nat else if c =? "|" then 31%nat else if c =? "}" then 18%nat
   else if c =? "~" then 34%nat else 0%nat).
Definition op (k : tk) : token := mk_token k VEmpty.
(** 552-596 is_compound; 61 is '=', 62 is '>', 60 is '<' *)
Definition is_compound (c : ascii) (s : st) : lres (option token) :=
  let next_char := compound_match c in
  if next_char =? "0" then LOk None s else
  let actual_char := peek_char s in
  if (actual_char =? EOF)%Z then LOk None s else
  if next_char =? "#" then
    if (c =? ">") && (actual_char =? 62)%Z then LOk (Some (op bitwise_rshift_k)) (ignore_char s)
    else if (c =? ">") && (actual_char =? 61)%Z then LOk (Some (op greater_equal_k)) (ignore_char s)
    else if (c =? "<") && (actual_char =? 60)%Z then LOk (Some (op bitwise_lshift_k)) (ignore_char s)
    else if (c =? "<") && (actual_char =? 61)%Z then
      let s1 := ignore_char s in
      if (peek_char s1 =? 61)%Z then LOk (Some (op is_k)) (ignore_char s1)
      else LOk (Some (op less_equal_k)) s1
    else LOk None s
  else
    if negb (actual_char =? to_int next_char)%Z then LOk None s
    else LOk (Some (op (name_at (compound_index c)))) (ignore_char s).
(** 602-610 is_simple *)
Definition is_simple (c : ascii) (s : st) : lres (option token) :=
  if (simple_index c =? 0)%nat then LOk None s else LOk (Some (op (name_at (simple_index c)))) s.

(** if (!first) then second, threading the state *)
Definition lor (r : lres (option token)) (k : st -> lres (option token)) : lres (option token) :=
  lbind r (fun t s => match t with Some _ => LOk t s | None => k s end).
(** 622-637 parse_token: what is put, if anything *)
Definition parse_token (c : ascii) (s : st) : lres (option token) :=
  lbind (is_comment c s) (fun comment s0 =>
  lbind (lor (is_number c s0) (fun s => lor (is_identifier_or_keyword c s) (fun s =>
         match comment with
         | Some _ => LOk comment s
         | None => lor (is_string c s) (fun s => lor (is_compound c s) (is_simple c))
         end))) (fun r s' =>
    match r with
    | None => LThrow
    | Some t => LOk (match comment with Some _ => if bypass then None else Some t | None => Some t end) s'
    end)).
End Lexer.

Section Rounds.
Variable keyword_proc : string -> bool.
Variable bypass : bool.
Variable read_double : list ascii -> spec_float.
(** line_position_t: position_m, line_number_m, line_start_m — /repo/adobe/istream.hpp:50-110; the file
    name and its getter are not modelled *)
Record line_position := mk_line_position { position_m : Z; line_number_m : Z; line_start_m : Z }.
(** a lex_fragment_t — lex_shared.hpp:272-292 *)
Definition fragment := (line_position * option token)%type.
(** lex_shared.hpp:430-452: one round of the loop of get_token, with start_token_position_m: the token
    is [None] when only a bypassed comment was read, [Some eof] at the end *)
Definition round (fuel : nat) (s : st) : lres fragment :=
  lbind (skip_white_space fuel s) (fun _ s1 =>
  let start_token_position := mk_line_position (position s1) (line s1) (line_start s1) in
  lbind (match get_char s1 with
         | None => LOk (Some eof) s1
         | Some (c, s2) => parse_token keyword_proc bypass read_double fuel c s2
         end) (fun t s3 => LOk (start_token_position, t) s3)).
(** All the rounds up to the end: what they put, and the position of the eof; an exception carries
    start_token_position_m, which is not recorded here *)
Inductive tokens_res := TOk (l : list fragment) (end_position : line_position) | TThrow (l : list fragment) | TUndef | TFuel.
Definition tcons (x : fragment) (r : tokens_res) : tokens_res :=
  match r with TOk l e => TOk (x :: l) e | TThrow l => TThrow (x :: l) | r => r end.
Fixpoint rounds (n fuel : nat) (s : st) : tokens_res :=
  match n with
  | O => TFuel
  | S n =>
    match round fuel s with
    | LThrow => TThrow []
    | LUndef => TUndef
    | LFuel => TFuel
    | LOk (p, Some t) s' => if tk_beq (t_name t) eof_k then TOk [] p else tcons (p, Some t) (rounds n fuel s')
    | LOk (p, None) s' => tcons (p, None) (rounds n fuel s')
    end
  end.
(** lex_stream_t(in, position) at the beginning of a text *)
Definition start (t : list ascii) : st := mk_st [] t 0 1 0.
Definition lex (t : list ascii) : tokens_res := rounds (S (List.length t)) (S (S (List.length t))) (start t).
End Rounds.
