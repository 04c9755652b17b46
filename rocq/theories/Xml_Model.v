(** Model of the XML lexer and parser: /repo/source/xml_lex.cpp, /repo/adobe/implementation/xml_lex.hpp,
    the base class lex_base_t of /repo/adobe/implementation/lex_shared.hpp:43-260, and
    /repo/adobe/xml_parser.hpp with /repo/source/xml_parser.cpp.
    A byte is an N. A buffer [first, last) is a list of bytes and a pointer into it an offset.
    Line positions are not modelled. The output iterator is one that appends (a back inserter). *)
From Verif Require Import Prelude Search_Model Unicode_Model Entity_Model.
Local Open Scope nat_scope.
Ltac Zify.zify_post_hook ::= idtac.

Definition bytes := list N.
(** the bytes [f, l) of a buffer *)
Definition sub (b : bytes) (f l : nat) : bytes := firstn (l - f) (skipn f b).

(** *** Token ranges and attribute sets *)

(** A token_range_t as a value: where it points and the bytes it spans *)
Record trange := TR { tr_at : nat; tr_text : bytes }.
Definition null_range := TR 0 [].
(** std::pair operator== on two pointers: the same memory *)
Definition same_memory (x y : trange) : bool :=
  (tr_at x =? tr_at y) && (length (tr_text x) =? length (tr_text y)).

(** lex_shared_fwd.hpp:181-183 token_range_equal, on the bytes: sizes, then the bytes *)
Definition range_equal (x y : bytes) : bool := (length x =? length y) && bytes_eqb x y.
(** adobe::mismatch over [x] followed by the comparison, lex_shared_fwd.hpp:220-226 *)
Fixpoint mismatch_less (x y : bytes) : bool :=
  match x, y with
  | a :: x', b :: y' => if (a =? b)%N then mismatch_less x' y' else (a <? b)%N
  | _, _ => false
  end.
(** lex_shared_fwd.hpp:210-227 token_range_less *)
Definition range_less (x y : bytes) : bool :=
  if length x <? length y then true
  else if length y <? length x then false
  else mismatch_less x y.

(** xml_parser.hpp:46: value_type; the vector inside attribute_set_t *)
Notation attribute := (bytes * trange)%type.
Definition aset := list attribute.
(** xml_parser.hpp:61-66 less_t *)
Definition attr_less (x y : attribute) : bool :=
  range_less (fst x) (fst y) ||
  (negb (range_less (fst y) (fst x)) && range_less (tr_text (snd x)) (tr_text (snd y))).
(** xml_parser.hpp:73-77 less_key_only_t *)
Definition attr_less_key (x y : attribute) : bool := range_less (fst x) (fst y).

(** xml_parser.hpp:90-125 lower_bound: the position and whether the key is there;
    [None] would be a read outside the vector *)
Definition aset_lower_bound (s : aset) (k : bytes) : option (nat * bool) :=
  match lower_bound attr_less_key (fun a => a) s (k, null_range) with
  | None => None
  | Some (i, _) => Some (i, match nth_error s i with Some a => range_equal (fst a) k | None => false end)
  end.
(** xml_parser.hpp:136-143 operator[] *)
Definition aset_get (s : aset) (k : bytes) : trange :=
  match aset_lower_bound s k with
  | Some (i, true) => match nth_error s i with Some a => snd a | None => null_range end
  | _ => null_range
  end.
(** xml_parser.hpp:180-187 insert *)
Definition aset_insert (s : aset) (k : bytes) (v : trange) : aset :=
  match aset_lower_bound s k with
  | Some (i, true) => match nth_error s i with Some a => upd s i (fst a, v) | None => s end
  | Some (i, false) => firstn i s ++ (k, v) :: skipn i s
  | None => s
  end.
(** xml_parser.hpp:199-203 insert(first, last) *)
Definition aset_insert_all (s : aset) (l : list attribute) : aset :=
  fold_left (fun s a => aset_insert s (fst a) (snd a)) l s.
(** std::set_union *)
Fixpoint set_union (less : attribute -> attribute -> bool) (x : aset) {struct x} : aset -> aset :=
  fix inner (y : aset) : aset :=
    match x, y with
    | [], _ => y
    | _, [] => x
    | a :: x', b :: y' =>
      if less a b then a :: set_union less x' y
      else if less b a then b :: inner y'
      else a :: set_union less x' y'
    end.
(** xml_parser.hpp:159-167 merge *)
Definition aset_merge (s o : aset) : aset := set_union attr_less_key s o.
(** std::set_intersection into a counting_output_iterator *)
Fixpoint count_intersection (less : attribute -> attribute -> bool) (x : aset) {struct x} : aset -> nat :=
  fix inner (y : aset) : nat :=
    match x, y with
    | [], _ => 0
    | _, [] => 0
    | a :: x', b :: y' =>
      if less a b then count_intersection less x' y
      else if less b a then inner y'
      else S (count_intersection less x' y')
    end.
(** xml_parser.hpp:349-370 count_same *)
Definition aset_count_same (s o : aset) (mapped_matters : bool) : nat :=
  count_intersection (if mapped_matters then attr_less else attr_less_key) s o.
(** xml_parser.hpp:307-309 operator== *)
Definition aset_eq (s o : aset) : bool :=
  (length s =? length o) && (aset_count_same s o true =? length s).
(** xml_parser.hpp:374-387 has_collisions *)
Fixpoint aset_has_collisions (s o : aset) : bool :=
  match s with
  | [] => false
  | a :: s' =>
    match aset_lower_bound o (fst a) with
    | Some (i, true) =>
      match nth_error o i with
      | Some b => if negb (range_equal (tr_text (snd b)) (tr_text (snd a))) then true
                  else aset_has_collisions s' o
      | None => aset_has_collisions s' o
      end
    | _ => aset_has_collisions s' o
    end
  end.
(** xml_parser.hpp:391-404 count_collisions: [result->second != first->second] compares pointers *)
Fixpoint aset_count_collisions (s o : aset) : nat :=
  match s with
  | [] => 0
  | a :: s' =>
    (match aset_lower_bound o (fst a) with
     | Some (i, true) =>
       match nth_error o i with
       | Some b => if negb (same_memory (snd b) (snd a)) then 1 else 0
       | None => 0
       end
     | _ => 0
     end) + aset_count_collisions s' o
  end.

(** *** The lexer *)

(** xml_token.hpp:23-36 *)
Inductive kind := KPI | KComment | KOpen | KOpenSlash | KClose | KSlashClose | KName | KEquals
                | KAttValue | KReference | KCharData | KEof.
Definition kind_eqb (a b : kind) : bool :=
  match a, b with
  | KPI, KPI | KComment, KComment | KOpen, KOpen | KOpenSlash, KOpenSlash | KClose, KClose
  | KSlashClose, KSlashClose | KName, KName | KEquals, KEquals | KAttValue, KAttValue
  | KReference, KReference | KCharData, KCharData | KEof, KEof => true
  | _, _ => false
  end.

(** What one of the is_... functions does at the rest [u] of the buffer: not its token, an exception, or
    a token of kind [k] whose range is [f, l) and that moves first_m by [n], counted from where it was *)
Inductive lexres := LNo | LExn | LTok (k : kind) (f l n : nat).

(** xml_lex.cpp:62-69 *)
Fixpoint pi_loop (u : bytes) (n : nat) : lexres :=
  match u with
  | [] => LExn
  | c :: u' =>
    if (c =? 63)%N && (match u' with d :: _ => (d =? 62)%N | [] => false end)
    then LTok KPI 0 (n + 2) (n + 2)
    else pi_loop u' (n + 1)
  end.
(** xml_lex.cpp:45-77 *)
Definition is_processing_instruction (u : bytes) : lexres :=
  match u with
  | c :: d :: u' => if (c =? 60)%N && (d =? 63)%N then pi_loop u' 2 else LNo
  | _ => LNo
  end.
(** xml_lex.cpp:100-110 *)
Fixpoint comment_loop (u : bytes) (n : nat) : lexres :=
  match u with
  | [] => LExn
  | c :: u' =>
    if (c =? 45)%N && (match u' with d :: _ => (d =? 45)%N | [] => false end)
    then match u' with
         | _ :: e :: _ => if (e =? 62)%N then LTok KComment 0 (n + 3) (n + 3) else LExn
         | _ => LExn
         end
    else comment_loop u' (n + 1)
  end.
(** xml_lex.cpp:81-119 *)
Definition is_comment (u : bytes) : lexres :=
  match u with
  | a :: b :: c :: d :: u' =>
    if (a =? 60)%N && (b =? 33)%N && (c =? 45)%N && (d =? 45)%N then comment_loop u' 4 else LNo
  | _ => LNo
  end.
(** xml_lex.cpp:122-145 *)
Definition is_tag_open (u : bytes) : lexres :=
  match u with
  | c :: u' =>
    if (c =? 60)%N
    then if (match u' with d :: _ => (d =? 47)%N | [] => false end)
         then LTok KOpenSlash 0 2 2 else LTok KOpen 0 1 1
    else LNo
  | [] => LNo
  end.
(** xml_lex.cpp:149-181 *)
Definition is_tag_close (u : bytes) : lexres :=
  match u with
  | c :: u' =>
    if (c =? 62)%N then LTok KClose 0 1 1
    else if (c =? 47)%N && (match u' with d :: _ => (d =? 62)%N | [] => false end)
         then LTok KSlashClose 0 2 2 else LNo
  | [] => LNo
  end.
(** xml_lex.cpp:300-309; the comparisons of signed chars order bytes above 127 as unsigned ones do *)
Definition name_start_char (c : N) : bool :=
  ((65 <=? c) && (c <=? 90) || (97 <=? c) && (c <=? 122) || (c =? 58) || (c =? 95) ||
   (192 <=? c) && (c <=? 214) || (216 <=? c) && (c <=? 246) || (248 <=? c) && (c <=? 255))%N.
(** xml_lex.cpp:317-327 *)
Definition name_char (c : N) : bool :=
  name_start_char c || ((c =? 45) || (c =? 46) || (48 <=? c) && (c <=? 57) || (c =? 183))%N.
Fixpoint name_length (u : bytes) : nat :=
  match u with c :: u' => if name_char c then S (name_length u') else 0 | [] => 0 end.
(** xml_lex.cpp:184-200 *)
Definition is_name (u : bytes) : lexres :=
  match u with
  | c :: _ => if name_start_char c then LTok KName 0 (name_length u) (name_length u) else LNo
  | [] => LNo
  end.
(** xml_lex.cpp:204-218 *)
Definition is_equals (u : bytes) : lexres :=
  match u with c :: _ => if (c =? 61)%N then LTok KEquals 0 1 1 else LNo | [] => LNo end.
(** xml_lex.cpp:234-245; at the end of the buffer the loop ends and first_m moves one further *)
Fixpoint att_loop (tick : N) (u : bytes) (n : nat) : lexres :=
  match u with
  | [] => LTok KAttValue 1 n (n + 1)
  | c :: u' =>
    if (c =? 60)%N || (c =? 38)%N then LExn
    else if (c =? tick)%N then LTok KAttValue 1 n (n + 1)
    else att_loop tick u' (n + 1)
  end.
(** xml_lex.cpp:222-248 *)
Definition is_att_value (u : bytes) : lexres :=
  match u with
  | c :: u' => if (c =? 34)%N || (c =? 39)%N then att_loop c u' 1 else LNo
  | [] => LNo
  end.
(** xml_lex.cpp:262-265 *)
Fixpoint ref_length (u : bytes) : nat :=
  match u with c :: u' => if (c =? 59)%N then 1 else S (ref_length u') | [] => 0 end.
(** xml_lex.cpp:252-270 *)
Definition is_reference (u : bytes) : lexres :=
  match u with
  | c :: u' => if (c =? 38)%N then let n := 1 + ref_length u' in LTok KReference 0 n n else LNo
  | [] => LNo
  end.
Fixpoint char_length (u : bytes) : nat :=
  match u with c :: u' => if (c =? 60)%N || (c =? 38)%N then 0 else S (char_length u') | [] => 0 end.
(** xml_lex.cpp:274-288 *)
Definition is_char_data (u : bytes) : lexres := LTok KCharData 0 (char_length u) (char_length u).

Definition or_else (a b : lexres) : lexres := match a with LNo => b | _ => a end.
(** xml_lex.cpp:30-41 parse_token, without the flags *)
Definition parse_token (name_possible : bool) (u : bytes) : lexres :=
  or_else (is_processing_instruction u) (or_else (is_comment u) (or_else (is_tag_open u)
  (or_else (is_tag_close u)
  (or_else (if name_possible then or_else (is_name u) (or_else (is_equals u) (is_att_value u)) else LNo)
  (or_else (is_reference u) (is_char_data u)))))).

Record tok := Tok { t_kind : kind; t_first : nat; t_last : nat }.
(** first_m, skip_white_m, name_possible_m, and the token put back, if any *)
Record lx := Lx { l_pos : nat; l_skip : bool; l_name : bool; l_back : option tok }.

(** isspace in the "C" locale; the line ends of is_line_end are among them *)
Definition is_space (c : N) : bool := ((9 <=? c) && (c <=? 13) || (c =? 32))%N.
(** lex_shared.hpp:246-256 skip_white_space *)
Fixpoint white_length (u : bytes) : nat :=
  match u with c :: u' => if is_space c then S (white_length u') else 0 | [] => 0 end.

(** the flags after a token of kind [k]: xml_lex.cpp:135-137, 175-177 *)
Definition skip_after (k : kind) (old : bool) : bool :=
  match k with KOpen | KOpenSlash => true | KClose | KSlashClose => false | _ => old end.
Definition name_after (k : kind) (old : bool) : bool :=
  match k with KOpen | KOpenSlash => true | KClose | KSlashClose => false | _ => old end.

Inductive gres := GTok (t : tok) (l : lx) | GExn | GUB.
(** lex_shared.hpp:138-157 get_token, with is_eof (211-218). When first_m is past last_m, the test
    [first_m != last_m] holds and the memory after the buffer is read: [GUB]. *)
Definition get_token (b : bytes) (l : lx) : gres :=
  match l_back l with
  | Some t => GTok t (Lx (l_pos l) (l_skip l) (l_name l) None)
  | None =>
    if length b <? l_pos l then GUB else
    let p := l_pos l + (if l_skip l then white_length (skipn (l_pos l) b) else 0) in
    if p =? length b then GTok (Tok KEof p p) (Lx p (l_skip l) (l_name l) None) else
    match parse_token (l_name l) (skipn p b) with
    | LTok k f e n => GTok (Tok k (p + f) (p + e)) (Lx (p + n) (skip_after k (l_skip l)) (name_after k (l_name l)) None)
    | _ => GExn
    end
  end.
(** lex_shared.hpp:168-170 putback_token, of the token just read *)
Definition putback (t : tok) (l : lx) : lx := Lx (l_pos l) (l_skip l) (l_name l) (Some t).
(** xml_lex.hpp:43 set_skip_white_space *)
Definition set_skip (s : bool) (l : lx) : lx := Lx (l_pos l) s (l_name l) (l_back l).

(** *** The parser *)

(** The range being assembled as the content of an element: null, [f, l), or a null first pointer
    with a second pointer into the buffer *)
Inductive vr := VNull | VRng (f l : nat) | VWild (l : nat).
Definition vr_bytes (b : bytes) (v : vr) : option bytes :=
  match v with VNull => Some [] | VRng f l => Some (sub b f l) | VWild _ => None end.

(** The arguments of a call of the client's callback; [c_value = None] is a range that is not one. Of the
    attribute set the names and the values' bytes are kept, not the addresses of the values. *)
Record call := Call { c_element : bytes; c_name : bytes; c_attributes : list (bytes * bytes); c_value : option bytes }.
Definition texts (s : aset) : list (bytes * bytes) := map (fun a => (fst a, tr_text (snd a))) s.
(** What the callback returns: the very range it got as the entire element, another range, or one that
    is not a range *)
Inductive answer := Echo | Text (b : bytes) | Wild.

Record ps := Ps { p_lex : lx; p_pre : bool; p_out : bytes; p_calls : list call }.
Inductive res (A : Type) := Ok (a : A) (s : ps) | Exn | UB | NoFuel.
Arguments Ok {A}. Arguments Exn {A}. Arguments UB {A}. Arguments NoFuel {A}.
Definition bind {A B} (r : res A) (k : A -> ps -> res B) : res B :=
  match r with Ok a s => k a s | Exn => Exn | UB => UB | NoFuel => NoFuel end.
Notation "'let*' ( a , s ) := r 'in' k" := (bind r (fun a s => k))
  (at level 200, a name, s name, r at level 100, k at level 200).

Definition with_lex (l : lx) (s : ps) : ps := Ps l (p_pre s) (p_out s) (p_calls s).
Definition with_pre (x : bool) (s : ps) : ps := Ps (p_lex s) x (p_out s) (p_calls s).
Definition emit (o : bytes) (s : ps) : ps := Ps (p_lex s) (p_pre s) (p_out s ++ o) (p_calls s).
Definition log (c : call) (s : ps) : ps := Ps (p_lex s) (p_pre s) (p_out s) (p_calls s ++ [c]).

Section Parser.
(** entity_map_find's indices; see Entity_Model *)
Variable code_index name_index : list entry.
(** the client's predicate and callback; they may depend on the calls so far *)
Variable pred : list call -> bytes -> bool.
Variable cb : list call -> call -> answer.

(** xml_parser.cpp:32-48 to_token_range and 65-74 transform_reference, on a range that starts with '&' *)
Definition transform_reference (r : bytes) : bytes :=
  match r with
  | c :: r' =>
    if (c =? 38)%N then
      match r' with
      | [] => []                 (* prior(second) < next(first): std::string throws *)
      | _ =>
        match entity_map_find name_index (removelast r') with
        | Some code => if (code =? 0)%N then [] else utf32_to_utf8 code
        | None => []
        end
      end
    else []
  | [] => []
  end.

Definition next_token (b : bytes) (s : ps) : res tok :=
  match get_token b (p_lex s) with
  | GTok t l => Ok t (with_lex l s)
  | GExn => Exn
  | GUB => UB
  end.
(** xml_parser.hpp:640-667 is_token *)
Definition is_token (b : bytes) (k : kind) (s : ps) : res (option tok) :=
  let* (t, s') := next_token b s in
  if kind_eqb (t_kind t) k then Ok (Some t) s' else Ok None (with_lex (putback t (p_lex s')) s').
(** xml_parser.hpp:553-558 throw_exception: next_position reads a token first *)
Definition throw {A} (b : bytes) (s : ps) : res A := let* (t, s') := next_token b s in Exn.
(** xml_parser.hpp:671-688 require_token *)
Definition require_token (b : bytes) (k : kind) (s : ps) : res tok :=
  let* (t, s') := next_token b s in
  if kind_eqb (t_kind t) k then Ok t s' else throw b s'.
(** lex_shared.hpp:175-185 next_position *)
Definition next_position (b : bytes) (s : ps) : res unit :=
  let* (t, s') := next_token b s in Ok tt (with_lex (putback t (p_lex s')) s').

(** the bytes the client's answer stands for *)
Definition answer_bytes (element : bytes) (a : answer) : option bytes :=
  match a with Echo => Some element | Text x => Some x | Wild => None end.

(** xml_parser.hpp:953-961 is_attribute_set, 1036-1046 is_attribute. Each round reads at least one byte
    or ends, so the length of the buffer is enough fuel. *)
Fixpoint attributes (fuel : nat) (b : bytes) (acc : aset) (s : ps) : res aset :=
  match fuel with
  | 0 => NoFuel
  | S fuel =>
    let* (n, s) := is_token b KName s in
    match n with
    | None => Ok acc s
    | Some n =>
      let* (e, s) := require_token b KEquals s in
      let* (v, s) := require_token b KAttValue s in
      attributes fuel b
        (aset_insert acc (sub b (t_first n) (t_last n)) (TR (t_first v) (sub b (t_first v) (t_last v)))) s
    end
  end.

(** xml_parser.hpp:939-948 is_e_tag *)
Definition is_e_tag (b : bytes) (s : ps) : res (option (tok * tok)) :=
  let* (o, s) := is_token b KOpenSlash s in
  match o with
  | None => Ok None s
  | Some _ =>
    let* (n, s) := require_token b KName s in
    let* (c, s) := require_token b KClose s in
    Ok (Some (n, c)) s
  end.

(** extending the content with a reference or an element: xml_parser.hpp:878-881, 897-900 *)
Definition extend (v : vr) (f l : nat) : vr :=
  match v with VRng f0 _ => VRng f0 l | _ => VRng f l end.
(** extending it with char data: xml_parser.hpp:926 *)
Definition extend_chars (v : vr) (l : nat) : vr :=
  match v with VRng f0 _ => VRng f0 l | _ => VWild l end.

(** xml_parser.hpp:739-836 is_element, 693-734 content_callback, 841-934 is_content, 1065-1083
    parse_content. [element] answers [None] for false, and the range it passes back otherwise. *)
Fixpoint element (fuel : nat) (b : bytes) (s : ps) {struct fuel} : res (option vr) :=
  match fuel with
  | 0 => NoFuel
  | S fuel =>
    let* (o, s) := is_token b KOpen s in
    match o with
    | None => Ok None s
    | Some o =>
      let* (n, s) := require_token b KName s in
      let start_tag := sub b (t_first n) (t_last n) in
      let parent := if p_pre s then false else pred (p_calls s) start_tag in
      let s := with_pre (p_pre s || parent) s in
      let* (ats, s) := attributes (S (length b)) b [] s in
      let* (sc, s) := is_token b KSlashClose s in
      match sc with
      | Some c =>
        if p_pre s then content_callback fuel b (t_first o) (t_last c) start_tag ats VNull parent s
        else
          let e := sub b (t_first o) (t_last c) in
          let k := Call e start_tag (texts ats) (Some []) in
          match answer_bytes e (cb (p_calls s) k) with
          | Some x => Ok (Some VNull) (emit x (log k s))
          | None => UB
          end
      | None =>
        let* (c, s) := require_token b KClose s in
        let s := if p_pre s then s else emit (sub b (t_first o) (t_last c)) s in
        let* (v, s) := content fuel b s in
        let* (e, s) := is_e_tag b s in
        match e with
        | None => Exn
        | Some (n', c') =>
          let end_tag := sub b (t_first n') (t_last n') in
          if negb (range_equal start_tag end_tag) then Exn else
          if p_pre s then content_callback fuel b (t_first o) (t_last c') start_tag ats v parent s
          else
            match vr_bytes b v with
            | None => UB
            | Some x => Ok (Some VNull) (emit (sub b (t_first n' - 2) (t_last n' + 1)) (emit x s))
            end
        end
      end
    end
  end
with content_callback (fuel : nat) (b : bytes) (f l : nat) (start_tag : bytes) (ats : aset) (v : vr)
                      (parent : bool) (s : ps) {struct fuel} : res (option vr) :=
  match fuel with
  | 0 => NoFuel
  | S fuel =>
    if parent then
      let e := sub b f l in
      let k := Call e start_tag (texts ats) (vr_bytes b v) in
      let a := cb (p_calls s) k in
      let s := log k s in
      match a with
      | Echo => Ok (Some VNull) (with_pre false (emit e s))
      | Text x =>
        let* (u, s) := next_position b s in
        let* (u', s') := parse_content fuel x (Ps (Lx 0 true false None) false (p_out s) (p_calls s)) in
        Ok (Some VNull) (Ps (p_lex s) false (p_out s') (p_calls s'))
      | Wild => UB
      end
    else Ok (Some (VRng f l)) s
  end
with content (fuel : nat) (b : bytes) (s : ps) {struct fuel} : res vr :=
  match fuel with
  | 0 => NoFuel
  | S fuel =>
    let* (c, s) := is_token b KCharData s in
    match c with
    | Some c =>
      if p_pre s then content_loop fuel b (VRng (t_first c) (t_last c)) s
      else content_loop fuel b VNull (emit (sub b (t_first c) (t_last c)) s)
    | None => content_loop fuel b VNull s
    end
  end
with content_loop (fuel : nat) (b : bytes) (v : vr) (s : ps) {struct fuel} : res vr :=
  match fuel with
  | 0 => NoFuel
  | S fuel =>
    let tail v s :=
      let* (c, s) := is_token b KCharData s in
      match c with
      | Some c =>
        if p_pre s then content_loop fuel b (extend_chars v (t_last c)) s
        else content_loop fuel b v (emit (sub b (t_first c) (t_last c)) s)
      | None => content_loop fuel b v s
      end in
    let* (r, s) := is_token b KReference s in
    match r with
    | Some r =>
      if t_last r - t_first r =? 0 then tail v s
      else if p_pre s then tail (extend v (t_first r) (t_last r)) s
      else tail v (emit (transform_reference (sub b (t_first r) (t_last r))) s)
    | None =>
      let* (e, s) := element fuel b s in
      match e with
      | Some (VRng f l) =>
        if l - f =? 0 then tail v s
        else if p_pre s then tail (extend v f l) s
        else tail v (emit (sub b f l) s)
      | Some VNull => tail v s
      | Some (VWild _) => UB
      | None =>
        let* (c, s) := is_token b KComment s in
        match c with
        | Some _ => tail v s
        | None => Ok v s
        end
      end
    end
  end
with parse_content (fuel : nat) (b : bytes) (s : ps) {struct fuel} : res unit :=
  match fuel with
  | 0 => NoFuel
  | S fuel =>
    let s := with_lex (set_skip false (p_lex s)) s in
    let* (v, s) := content fuel b s in
    match vr_bytes b v with
    | None => UB
    | Some [] => Ok tt s
    | Some e =>
      let k := Call e [] [] (Some e) in
      match answer_bytes e (cb (p_calls s) k) with
      | Some x =>
        let* (u, s) := parse_content fuel b (emit x (log k s)) in Ok tt s
      | None => UB
      end
    end
  end.

(** xml_parser.hpp:1051-1060 parse_element_sequence *)
Fixpoint sequence_loop (fuel : nat) (b : bytes) (s : ps) : res unit :=
  match fuel with
  | 0 => NoFuel
  | S fuel =>
    let* (e, s) := element fuel b s in
    match e with
    | None => Ok tt s
    | Some _ => let* (c, s) := is_token b KCharData s in sequence_loop fuel b s
    end
  end.
Definition parse_element_sequence (fuel : nat) (b : bytes) (s : ps) : res unit :=
  sequence_loop fuel b (with_lex (set_skip false (p_lex s)) s).

(** adobe::equal(bom, data.first) with the size test before it *)
Definition starts (p u : bytes) : bool := (length p <=? length u) && bytes_eqb p (firstn (length p) u).
(** xml_parser.hpp:987-1017 is_bom *)
Definition is_bom (b : bytes) (s : ps) : res bool :=
  let s := with_lex (set_skip false (p_lex s)) s in
  let* (c, s) := is_token b KCharData s in
  let finish r (s : ps) := Ok r (with_lex (set_skip true (p_lex s)) s) in
  match c with
  | None => finish false s
  | Some c =>
    let u := sub b (t_first c) (t_last c) in
    if starts [239; 187; 191]%N u then finish true s
    else if starts [254; 255]%N u then throw b s
    else if starts [255; 254]%N u then throw b s
    else finish false s
  end.
(** xml_parser.hpp:966-982 is_prolog, 1022-1031 is_xml_decl *)
Definition is_prolog (b : bytes) (s : ps) : res bool :=
  let* (m, s) := is_bom b s in
  let* (x, s) := is_token b KPI s in
  Ok (match x with Some _ => true | None => false end) s.
(** xml_parser.hpp:1088-1095 parse_document *)
Definition parse_document (fuel : nat) (b : bytes) (s : ps) : res unit :=
  let s := with_lex (set_skip true (p_lex s)) s in
  let* (p, s) := is_prolog b s in
  let* (e, s) := element fuel b s in
  Ok tt s.

(** a parser just made by make_xml_parser: xml_parser.hpp:427-430, xml_lex.cpp:17-20 *)
Definition fresh : ps := Ps (Lx 0 true false None) false [] [].
End Parser.
