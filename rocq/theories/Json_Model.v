(** Model of /repo/adobe/json.hpp (json_parser, json_generator) with the helper
    asl_json_helper_t of /repo/adobe/json_helper.hpp.

    Characters are numbers below 256.  The parser's [p_] is the list of the characters from [p_] to
    the terminating NUL ([At l]; [At []] points at the terminator), or [Past] once it has moved
    beyond the terminator; reading there is undefined behaviour ([UB]).  Exceptions are [Throw]
    (the message is dropped).  [Fuel] is returned only when the recursion bound of the model is
    exceeded, which is proved not to happen.

    Numbers are abstract: [num] is the type of the finite doubles, [print] the text written by
    adobe::to_string (to_string.hpp:86-116, snprintf "%.15g") and [strtod] the value of a number
    token (json.hpp:204; [None] = not finite). *)
From Verif Require Import Prelude.
Local Open Scope N_scope.

Inductive res (A : Type) := Ok (a : A) | Throw | UB | Fuel.
Arguments Ok {A} a. Arguments Throw {A}. Arguments UB {A}. Arguments Fuel {A}.
Definition bind {A B} (m : res A) (f : A -> res B) : res B :=
  match m with Ok a => f a | Throw => Throw | UB => UB | Fuel => Fuel end.
Notation "x <- m ;; f" := (bind m (fun x => f)) (at level 61, m at next level, right associativity).
Notation "' p <- m ;; f" := (bind m (fun q => let 'p := q in f))
  (at level 61, p pattern, m at next level, right associativity).

Inductive cursor := At (l : list N) | Past.
(** [*p_] *)
Definition rd (p : cursor) : res N :=
  match p with At (c :: _) => Ok c | At [] => Ok 0 | Past => UB end.
(** [++p_] *)
Definition adv (p : cursor) : cursor :=
  match p with At (_ :: l) => At l | _ => Past end.

(** json.hpp:276-281 *)
Definition require (b : bool) : res unit := if b then Ok tt else Throw.

(** json.hpp:290-295 *)
Definition is_char (x : N) (p : cursor) : res (bool * cursor) :=
  c <- rd p ;; Ok (if c =? x then (true, adv p) else (false, p)).

(** json.hpp:427-464: the table [ws] is non-zero at 9, 10, 13 and 32 *)
Definition ws (c : N) : bool := (c =? 9) || (c =? 10) || (c =? 13) || (c =? 32).
(** json.hpp:349-386: the table [hex_digit]; [None] is the mark 0xFF *)
Definition hex_digit (c : N) : option N :=
  if (0x30 <=? c) && (c <=? 0x39) then Some (c - 0x30)
  else if (0x41 <=? c) && (c <=? 0x46) then Some (c - 0x41 + 10)
  else if (0x61 <=? c) && (c <=? 0x66) then Some (c - 0x61 + 10)
  else None.
(** json.hpp:388-425: the table [escape]; 0 elsewhere *)
Definition escape (c : N) : N :=
  if c =? 0x22 then 0x22 else if c =? 0x2F then 0x2F else if c =? 0x5C then 0x5C
  else if c =? 0x62 then 0x08 else if c =? 0x66 then 0x0C else if c =? 0x6E then 0x0A
  else if c =? 0x72 then 0x0D else if c =? 0x74 then 0x09 else if c =? 0x75 then 0x75
  else 0.

(** json.hpp:284-288 *)
Fixpoint skip_ws_list (l : list N) : list N :=
  match l with c :: l' => if ws c then skip_ws_list l' else l | [] => [] end.
Definition skip_white_space (p : cursor) : res cursor :=
  match p with At l => Ok (At (skip_ws_list l)) | Past => UB end.

(** json.hpp:297-303 *)
Definition is_structural_char (x : N) (p : cursor) : res (bool * cursor) :=
  p <- skip_white_space p ;;
  '(b, p) <- is_char x p ;;
  if b : bool then p <- skip_white_space p ;; Ok (true, p) else Ok (false, p).

(** json.hpp:124-132.  [lit] is the literal without its terminator; reading it beyond its
    terminator is undefined too. *)
Fixpoint sequence_loop (lit : list N) (p : cursor) : res (bool * cursor) :=
  match lit with
  | x :: lit =>
    '(b, p) <- is_char x p ;;
    if b : bool then sequence_loop lit p
    else _ <- require (x =? 0) ;; Ok (true, p)
  | [] =>
    '(b, p) <- is_char 0 p ;;
    if b : bool then UB (* ++p; then *p reads past the literal *)
    else Ok (true, p)
  end.
Definition is_sequence (lit : list N) (p : cursor) : res (bool * cursor) :=
  match lit with
  | [] => Ok (false, p)
  | x :: lit =>
    '(b, p) <- is_char x p ;;
    if b : bool then sequence_loop lit p else Ok (false, p)
  end.
Definition lit_true : list N := [0x74; 0x72; 0x75; 0x65].
Definition lit_false : list N := [0x66; 0x61; 0x6C; 0x73; 0x65].
Definition lit_null : list N := [0x6E; 0x75; 0x6C; 0x6C].

(** json.hpp:306-343 *)
Definition first_mark (bytes : nat) : N := nth bytes [0x00; 0x00; 0xC0; 0xE0; 0xF0; 0xF8; 0xFC] 0.
Definition to_char (x : N) : N := x mod 256.
(** the fall-through switch: [bytes - 1] continuation bytes, last first, then the first byte *)
Fixpoint utf8_bytes (k : nat) (bytes : nat) (x : N) (acc : list N) : list N :=
  match k with
  | O => to_char (N.lor x (first_mark bytes)) :: acc
  | S k => utf8_bytes k bytes (N.shiftr x 6) (to_char (N.land (N.lor x 0x80) 0xBF) :: acc)
  end.
Definition json_utf8 (x : N) : res (list N) :=
  if x <? 0x80 then Ok (utf8_bytes 0 1 x [])
  else if x <? 0x800 then Ok (utf8_bytes 1 2 x [])
  else if x <? 0x10000 then Ok (utf8_bytes 2 3 x [])
  else if x <? 0x0010FFFF then Ok (utf8_bytes 3 4 x [])
  else Throw.

(** json.hpp:248-270 *)
Definition one_digit (p : cursor) : res (N * cursor) :=
  c <- rd p ;;
  match hex_digit c with None => Throw | Some d => Ok (d, adv p) end.
Definition get_four_digits (p : cursor) : res (N * cursor) :=
  '(a, p) <- one_digit p ;;
  '(b, p) <- one_digit p ;;
  '(c, p) <- one_digit p ;;
  '(d, p) <- one_digit p ;;
  Ok (a * 0x1000 + b * 0x100 + c * 0x10 + d, p).

(** json.hpp:159-160: the run of plain characters *)
Definition control (c : N) : bool := c <? 0x20.
Fixpoint plain_run (l : list N) : list N * list N :=
  match l with
  | c :: l' =>
    if negb (control c) && negb (c =? 0x22) && negb (c =? 0x5C) then
      let '(a, r) := plain_run l' in (c :: a, r)
    else ([], l)
  | [] => ([], [])
  end.
(** json.hpp:157-181 *)
Fixpoint string_loop (fuel : nat) (s : list N) (p : cursor) : res (list N * cursor) :=
  match fuel with
  | O => Fuel
  | S fuel =>
    '(b, p) <- is_char 0x22 p ;;
    if b : bool then Ok (s, p) else
    match p with
    | Past => UB
    | At l =>
      let '(run, l) := plain_run l in
      c <- rd (At l) ;;
      _ <- require (negb (control c)) ;;
      let s := s ++ run in
      '(b, p) <- is_char 0x5C (At l) ;;
      if negb b then string_loop fuel s p else
      c <- rd p ;;
      let p := adv p in
      let c := escape c in
      _ <- require (negb (c =? 0)) ;;
      if c =? 0x75 then
        '(utf, p) <- get_four_digits p ;;
        '(utf, p) <-
          (if (0xD800 <=? utf) && (utf <=? 0xDBFF) then
             '(b, p) <- is_char 0x75 p ;;
             _ <- require b ;;
             '(trailing, p) <- get_four_digits p ;;
             _ <- require ((0xDC00 <=? trailing) && (trailing <=? 0xDFFF)) ;;
             Ok (N.shiftl (utf - 0xD800) 10 + (trailing - 0xDC00), p)
           else Ok (utf, p)) ;;
        buffer <- json_utf8 utf ;;
        string_loop fuel (s ++ buffer) p
      else string_loop fuel (s ++ [c]) p
    end
  end.
Definition plen (p : cursor) : nat := match p with At l => length l | Past => O end.
(** json.hpp:154-183; [s] is the string appended to *)
Definition is_string_to (s : list N) (p : cursor) : res (bool * list N * cursor) :=
  '(b, p) <- is_char 0x22 p ;;
  if b : bool then
    '(s, p) <- string_loop (S (plen p)) s p ;; Ok (true, s, p)
  else Ok (false, s, p).

(** json.hpp:231-236 *)
Definition digit (c : N) : bool := (0x30 <=? c) && (c <=? 0x39).
Definition is_digit (p : cursor) : res (bool * cursor) :=
  c <- rd p ;; Ok (if digit c then (true, adv p) else (false, p)).
(** [while (is_digit()) ;] *)
Fixpoint skip_digits_list (l : list N) : list N :=
  match l with c :: l' => if digit c then skip_digits_list l' else l | [] => [] end.
Definition skip_digits (p : cursor) : res cursor :=
  match p with At l => Ok (At (skip_digits_list l)) | Past => UB end.
(** json.hpp:238-246 *)
Definition is_int (p : cursor) : res (bool * cursor) :=
  '(b, p) <- is_char 0x30 p ;;
  if b : bool then Ok (true, p) else
  '(b, p) <- is_digit p ;;
  if negb b then Ok (false, p) else
  p <- skip_digits p ;; Ok (true, p).
(** json.hpp:213-220 *)
Definition frac (p : cursor) : res cursor :=
  '(b, p) <- is_char 0x2E p ;;
  if negb b then Ok p else
  '(b, p) <- is_digit p ;; _ <- require b ;; skip_digits p.
(** json.hpp:222-229 *)
Definition exp (p : cursor) : res cursor :=
  '(b, p) <- is_char 0x65 p ;;
  '(b, p) <- (if b : bool then Ok (true, p) else is_char 0x45 p) ;;
  if negb b then Ok p else
  '(b, p) <- is_char 0x2D p ;;
  '(_, p) <- (if b : bool then Ok (true, p) else is_char 0x2B p) ;;
  '(b, p) <- is_digit p ;; _ <- require b ;; skip_digits p.

Section Values.
Context {num : Type} (print : num -> list N) (strtod : list N -> option num).

(** the JSON values held in an any_regular_t; a dictionary_t is the sequence of its entries *)
Inductive value :=
| VNull | VBool (b : bool) | VNum (x : num) | VStr (s : list N)
| VArr (l : list value) | VObj (l : list (list N * value)).

(** the characters between two cursors *)
Definition between (p q : cursor) : list N :=
  match p, q with At l, At l' => firstn (length l - length l') l | _, _ => [] end.

(** json.hpp:193-211.  strtod reads the same token as the scanner did (the assertion at 206). *)
Definition is_number (p0 : cursor) : res (option value * cursor) :=
  '(neg, p) <- is_char 0x2D p0 ;;
  '(b, p) <- is_int p ;;
  if negb b then _ <- require (negb neg) ;; Ok (None, p) else
  p <- frac p ;;
  p <- exp p ;;
  match strtod (between p0 p) with
  | None => Throw
  | Some x => Ok (Some (VNum x), p)
  end.

(** json.hpp:134-151 *)
Definition is_bool (p : cursor) : res (option value * cursor) :=
  '(b, p) <- is_sequence lit_true p ;;
  if b : bool then Ok (Some (VBool true), p) else
  '(b, p) <- is_sequence lit_false p ;;
  if b : bool then Ok (Some (VBool false), p) else Ok (None, p).
Definition is_null (p : cursor) : res (option value * cursor) :=
  '(b, p) <- is_sequence lit_null p ;;
  Ok (if b : bool then Some VNull else None, p).

(** [key.c_str()]: the key up to its first NUL (json_helper.hpp:70) *)
Fixpoint c_str (k : list N) : list N :=
  match k with c :: k => if c =? 0 then [] else c :: c_str k | [] => [] end.
Fixpoint str_eqb (a b : list N) : bool :=
  match a, b with
  | [], [] => true
  | x :: a, y :: b => (x =? y) && str_eqb a b
  | _, _ => false
  end.
(** [obj[name] = value] on a dictionary_t: the entry is replaced or added (see ClosedHash_Props for
    the map itself; here the entries are kept in insertion order) *)
Fixpoint dict_set (o : list (list N * value)) (k : list N) (v : value) : list (list N * value) :=
  match o with
  | [] => [(k, v)]
  | (k', v') :: o => if str_eqb k' k then (k', v) :: o else (k', v') :: dict_set o k v
  end.
(** json_helper.hpp:69-72 *)
Definition move_append_obj (o : list (list N * value)) (k : list N) (v : value) :=
  dict_set o (c_str k) v.

Section Rec.
(** [is_value] one level down *)
Context (val : cursor -> res (option value * cursor)).
Definition required (r : res (option value * cursor)) : res (value * cursor) :=
  '(o, p) <- r ;; match o with None => Throw | Some v => Ok (v, p) end.
(** json.hpp:82-84 and 88-90: ':' value *)
Definition member_value (p : cursor) : res (value * cursor) :=
  '(b, p) <- is_structural_char 0x3A p ;; _ <- require b ;; required (val p).
(** json.hpp:86-91; the key buffer is empty again after move_append (json_helper.hpp:71) *)
Fixpoint members_loop (fuel : nat) (o : list (list N * value)) (p : cursor)
  : res (list (list N * value) * cursor) :=
  match fuel with
  | O => Fuel
  | S fuel =>
    '(b, p) <- is_structural_char 0x2C p ;;
    if negb b then Ok (o, p) else
    '(b, k, p) <- is_string_to [] p ;;
    _ <- require b ;;
    '(v, p) <- member_value p ;;
    members_loop fuel (move_append_obj o k v) p
  end.
(** json.hpp:75-96 *)
Definition is_object (p : cursor) : res (option value * cursor) :=
  '(b, p) <- is_structural_char 0x7B p ;;
  if negb b then Ok (None, p) else
  '(b, k, p) <- is_string_to [] p ;;
  '(o, p) <-
    (if b : bool then
       '(v, p) <- member_value p ;;
       members_loop (S (plen p)) (move_append_obj [] k v) p
     else Ok ([], p)) ;;
  '(b, p) <- is_structural_char 0x7D p ;;
  _ <- require b ;;
  Ok (Some (VObj o), p).
(** json.hpp:105-108 *)
Fixpoint elements_loop (fuel : nat) (a : list value) (p : cursor) : res (list value * cursor) :=
  match fuel with
  | O => Fuel
  | S fuel =>
    '(b, p) <- is_structural_char 0x2C p ;;
    if negb b then Ok (a, p) else
    '(v, p) <- required (val p) ;;
    elements_loop fuel (a ++ [v]) p
  end.
(** json.hpp:98-113 *)
Definition is_array (p : cursor) : res (option value * cursor) :=
  '(b, p) <- is_structural_char 0x5B p ;;
  if negb b then Ok (None, p) else
  '(o, p) <- val p ;;
  '(a, p) <-
    match o with
    | Some v => elements_loop (S (plen p)) [v] p
    | None => Ok ([], p)
    end ;;
  '(b, p) <- is_structural_char 0x5D p ;;
  _ <- require b ;;
  Ok (Some (VArr a), p).
End Rec.

(** [a || b] of two recognisers *)
Definition or_else (a : cursor -> res (option value * cursor)) (b : cursor -> res (option value * cursor))
    (p : cursor) : res (option value * cursor) :=
  '(o, p) <- a p ;;
  match o with Some v => Ok (Some v, p) | None => b p end.
(** json.hpp:185-191 *)
Definition is_string (p : cursor) : res (option value * cursor) :=
  '(b, s, p) <- is_string_to [] p ;;
  Ok (if b : bool then Some (VStr s) else None, p).
(** json.hpp:117-120 *)
Fixpoint is_value (fuel : nat) (p : cursor) : res (option value * cursor) :=
  match fuel with
  | O => Fuel
  | S fuel =>
    or_else is_string (or_else is_number (or_else (is_object (is_value fuel))
      (or_else (is_array (is_value fuel)) (or_else is_bool is_null)))) p
  end.
(** json.hpp:68-72 and json_helper.hpp:92-94; [text] has no NUL *)
Definition json_parse (text : list N) : res value :=
  let val := is_value (S (length text)) in
  '(v, _) <- required (or_else (is_object val) (is_array val) (At text)) ;;
  Ok v.

(** ** json_generator: the characters written *)
Definition hex_char (d : N) : N := if d <? 10 then 0x30 + d else 0x41 + (d - 10).
(** json.hpp:575-610, one character *)
Definition generate_char (e : N) : list N :=
  if (e <=? 0x1F) || (e =? 0x22) || (e =? 0x5C) then
    0x5C :: (if e =? 0x22 then [0x22] else if e =? 0x5C then [0x5C]
             else if e =? 0x08 then [0x62] else if e =? 0x0C then [0x66]
             else if e =? 0x0A then [0x6E] else if e =? 0x0D then [0x72]
             else if e =? 0x09 then [0x74]
             else [0x75; 0x30; 0x30; hex_char (N.land (N.shiftr e 4) 0x0F); hex_char (N.land e 0x0F)])
  else [e].
(** json.hpp:568-612 *)
Definition generate_string (x : list N) : list N :=
  [0x22] ++ concat (map generate_char x) ++ [0x22].
(** json.hpp:561-566 *)
Definition tabs (n : nat) : list N := repeat 0x09 n.
(** json.hpp:622-654 followed by the [indent]/[space] of 658-661 and 667-670; each item is the
    text it generates at a given indentation *)
Definition generate_list (items : list (nat -> list N)) (n : nat) : list N :=
  match items with
  | [] => [0x20]
  | [x] => [0x20] ++ x n ++ [0x20]
  | x :: rest =>
    [0x0A] ++ tabs (S n) ++ x (S n) ++
    concat (map (fun y : nat -> list N => [0x2C; 0x0A] ++ tabs (S n) ++ y (S n)) rest) ++
    [0x0A] ++ tabs n
  end.
(** json.hpp:511-559, 614-619, 656-672 *)
Fixpoint generate_ (v : value) (n : nat) : list N :=
  match v with
  | VNull => lit_null
  | VBool true => lit_true
  | VBool false => lit_false
  | VNum x => print x
  | VStr s => generate_string s
  | VArr l => [0x5B] ++ generate_list (map (fun v => generate_ v) l) n ++ [0x5D]
  | VObj l =>
    [0x7B] ++ generate_list
      (map (fun kv n => generate_string (fst kv) ++ [0x3A; 0x20] ++ generate_ (snd kv) n) l) n
    ++ [0x7D]
  end.
(** json.hpp:493-503 and json_helper.hpp:117-119 *)
Definition json_generate (v : value) : res (list N) :=
  match v with
  | VObj _ | VArr _ => Ok (generate_ v 0)
  | _ => Throw
  end.
End Values.
Arguments value : clear implicits.
