(** Specification of the XML dialect: the tokens, the concrete syntax trees with the bytes they are
    written as, and what parsing a tree produces. Nothing here mentions the parser's functions; the
    client's predicate and callback, the attribute set and the entity table are shared with it. *)
From Verif Require Import Prelude Unicode_Model Entity_Model Xml_Model.
Local Open Scope nat_scope.
Ltac Zify.zify_post_hook ::= idtac.

(** *** Bytes *)
Definition lt := 60%N.  Definition gt := 62%N.  Definition slash := 47%N.  Definition amp := 38%N.
Definition semi := 59%N.  Definition dash := 45%N.  Definition bang := 33%N.  Definition quest := 63%N.
Definition equal_sign := 61%N.
Definition space (c : N) : Prop := (9 <= c <= 13 \/ c = 32)%N.
(** Letters, ':', '_' and the upper half of Latin-1 but the two arithmetic signs *)
Definition name_start (c : N) : Prop :=
  (65 <= c <= 90 \/ 97 <= c <= 122 \/ c = 58 \/ c = 95 \/ 192 <= c <= 255 /\ c <> 215 /\ c <> 247)%N.
Definition name_byte (c : N) : Prop := (name_start c \/ c = 45 \/ c = 46 \/ 48 <= c <= 57 \/ c = 183)%N.
Definition quote (c : N) : Prop := c = 34%N \/ c = 39%N.

Definition spaces (w : bytes) : Prop := Forall space w.
Definition xname (n : bytes) : Prop :=
  match n with [] => False | c :: _ => name_start c /\ Forall name_byte n end.
(** text: no '<' and no '&' in it *)
Definition plain (c : N) : Prop := c <> lt /\ c <> amp.
Definition begins (c : N -> Prop) (u : bytes) : Prop := match u with x :: _ => c x | [] => False end.
(** [p] does not occur in [u] *)
Definition absent (p u : bytes) : Prop := forall a b, u <> a ++ p ++ b.

(** *** Tokens. [Token np u k f l n]: at the bytes [u] (none of them skipped) the next token is of kind
    [k], its range is [f, l) and reading goes on [n] bytes further; [np] tells whether names are
    possible, that is, whether this is inside a tag. *)
Inductive Token (np : bool) : bytes -> kind -> nat -> nat -> nat -> Prop :=
| T_pi : forall b r, absent [quest; gt] b ->
    Token np (lt :: quest :: b ++ quest :: gt :: r) KPI 0 (length b + 4) (length b + 4)
| T_comment : forall b r, absent [dash; dash] (b ++ [dash]) ->
    Token np (lt :: bang :: dash :: dash :: b ++ dash :: dash :: gt :: r) KComment 0 (length b + 7) (length b + 7)
| T_open_slash : forall r, Token np (lt :: slash :: r) KOpenSlash 0 2 2
| T_open : forall r, ~ begins (eq quest) r -> ~ begins (eq slash) r ->
    (forall r', r <> bang :: dash :: dash :: r') -> Token np (lt :: r) KOpen 0 1 1
| T_close : forall r, Token np (gt :: r) KClose 0 1 1
| T_slash_close : forall r, Token np (slash :: gt :: r) KSlashClose 0 2 2
| T_name : forall n r, np = true -> xname n -> ~ begins name_byte r ->
    Token np (n ++ r) KName 0 (length n) (length n)
| T_equals : forall r, np = true -> Token np (equal_sign :: r) KEquals 0 1 1
| T_value : forall q v r, np = true -> quote q -> Forall plain v -> ~ In q v ->
    Token np (q :: v ++ q :: r) KAttValue 1 (length v + 1) (length v + 2)
| T_open_value : forall q v, np = true -> quote q -> Forall plain v -> ~ In q v ->
    Token np (q :: v) KAttValue 1 (length v + 1) (length v + 2)
| T_reference : forall b r, ~ In semi b -> Token np (amp :: b ++ semi :: r) KReference 0 (length b + 2) (length b + 2)
| T_open_reference : forall b, ~ In semi b -> Token np (amp :: b) KReference 0 (length b + 1) (length b + 1)
| T_chars : forall c r, c <> [] -> Forall plain c -> ~ begins plain r -> ~ begins (eq gt) c ->
    (forall r', c <> slash :: gt :: r') ->
    (np = true -> ~ begins name_start c /\ ~ begins (eq equal_sign) c /\ ~ begins quote c) ->
    Token np (c ++ r) KCharData 0 (length c) (length c).

(** where there is no token at all *)
Inductive NoToken (np : bool) : bytes -> Prop :=
| N_pi : forall b, absent [quest; gt] b -> NoToken np (lt :: quest :: b)
| N_comment : forall b, absent [dash; dash] b -> NoToken np (lt :: bang :: dash :: dash :: b)
| N_comment_dashes : forall b r, absent [dash; dash] (b ++ [dash]) -> ~ begins (eq gt) r ->
    NoToken np (lt :: bang :: dash :: dash :: b ++ dash :: dash :: r)
| N_value : forall q v r, np = true -> quote q -> Forall plain v -> ~ In q v -> ~ begins plain r -> r <> [] ->
    NoToken np (q :: v ++ r).

(** *** Trees, with every byte they are written as *)
Record attr := Attr { a_before : bytes; a_name : bytes; a_w1 : bytes; a_w2 : bytes; a_quote : N; a_text : bytes }.
Definition attr_bytes (a : attr) : bytes :=
  a_before a ++ a_name a ++ a_w1 a ++ equal_sign :: a_w2 a ++ a_quote a :: a_text a ++ [a_quote a].
Inductive item :=
| Chars (s : bytes)
| Ref (b : bytes)                                    (* &b; *)
| OpenRef (b : bytes)                                (* &b at the end of the buffer *)
| Comment (b : bytes)                                (* <!--b--> *)
| Empty (w0 nm : bytes) (ats : list attr) (w1 : bytes)
| Elem (w0 nm : bytes) (ats : list attr) (w1 : bytes) (kids : list item) (w2 w3 : bytes).

Definition tag_bytes (w0 nm : bytes) (ats : list attr) (w1 : bytes) : bytes :=
  lt :: w0 ++ nm ++ flat_map attr_bytes ats ++ w1.
Definition close_bytes (w2 nm w3 : bytes) : bytes := lt :: slash :: w2 ++ nm ++ w3 ++ [gt].
Fixpoint raw (i : item) : bytes :=
  match i with
  | Chars s => s
  | Ref b => amp :: b ++ [semi]
  | OpenRef b => amp :: b
  | Comment b => lt :: bang :: dash :: dash :: b ++ [dash; dash; gt]
  | Empty w0 nm ats w1 => tag_bytes w0 nm ats w1 ++ [slash; gt]
  | Elem w0 nm ats w1 kids w2 w3 => tag_bytes w0 nm ats w1 ++ gt :: flat_map raw kids ++ close_bytes w2 nm w3
  end.
Definition raws (is : list item) : bytes := flat_map raw is.

(** *** Well-formedness; [next] is what follows the item in the buffer *)
Definition attr_ok (a : attr) : Prop :=
  spaces (a_before a) /\ xname (a_name a) /\ spaces (a_w1 a) /\ spaces (a_w2 a) /\ quote (a_quote a) /\
  Forall plain (a_text a) /\ ~ In (a_quote a) (a_text a).
Definition tag_ok (w0 nm : bytes) (ats : list attr) (w1 : bytes) : Prop :=
  spaces w0 /\ xname nm /\ Forall attr_ok ats /\ match ats with a :: _ => a_before a <> [] | [] => True end /\ spaces w1.
Definition chars_ok (s next : bytes) : Prop :=
  s <> [] /\ Forall plain s /\ ~ begins plain next /\ ~ begins (eq gt) s /\ (forall r, s <> slash :: gt :: r).
Fixpoint item_ok (i : item) (next : bytes) : Prop :=
  match i with
  | Chars s => chars_ok s next
  | Ref b => ~ In semi b
  | OpenRef b => ~ In semi b /\ next = []
  | Comment b => absent [dash; dash] (b ++ [dash])
  | Empty w0 nm ats w1 => tag_ok w0 nm ats w1
  | Elem w0 nm ats w1 kids w2 w3 =>
    tag_ok w0 nm ats w1 /\ spaces w2 /\ spaces w3 /\
    (fix all (is : list item) : Prop :=
       match is with
       | [] => True
       | i :: is' => item_ok i (raws is' ++ close_bytes w2 nm w3 ++ next) /\ all is'
       end) kids
  end.
Fixpoint items_ok (is : list item) (next : bytes) : Prop :=
  match is with
  | [] => True
  | i :: is' => item_ok i (raws is' ++ next) /\ items_ok is' next
  end.
(** what ends a sequence of items: the end of the buffer, an end tag, the end of a tag, a processing
    instruction *)
Definition stops (u : bytes) : Prop :=
  u = [] \/ (exists r, u = lt :: slash :: r) \/ begins (eq gt) u \/ (exists r, u = slash :: gt :: r) \/
  (exists b r, u = lt :: quest :: b ++ quest :: gt :: r).

(** *** Attributes: what a list of attributes, as written, denotes. Of several with one name the last counts.
    The client sees them ordered by the length of the name and then by its bytes. *)
Fixpoint last_value (ats : list (bytes * bytes)) (n : bytes) : option bytes :=
  match ats with
  | [] => None
  | (m, v) :: ats' =>
    match last_value ats' n with
    | Some v' => Some v'
    | None => if list_eq_dec N.eq_dec m n then Some v else None
    end
  end.
Fixpoint lex_before (x y : bytes) : Prop :=
  match x, y with
  | a :: x', b :: y' => (a < b)%N \/ a = b /\ lex_before x' y'
  | [], _ :: _ => True
  | _, [] => False
  end.
Definition name_before (x y : bytes) : Prop := length x < length y \/ length x = length y /\ lex_before x y.
Fixpoint ascending (l : list bytes) : Prop :=
  match l with [] => True | x :: l' => Forall (name_before x) l' /\ ascending l' end.
Definition denotes (ats : list (bytes * bytes)) (l : list (bytes * bytes)) : Prop :=
  ascending (map fst l) /\ forall n v, In (n, v) l <-> last_value ats n = Some v.
Definition written (ats : list attr) : list (bytes * bytes) := map (fun a => (a_name a, a_text a)) ats.

(** *** What the client is given as the value of an element with these children *)
Definition is_comment_item (i : item) : bool := match i with Comment _ => true | _ => false end.
Definition is_chars_item (i : item) : bool := match i with Chars _ => true | _ => false end.
Fixpoint drop_while {A} (p : A -> bool) (l : list A) : list A :=
  match l with x :: l' => if p x then drop_while p l' else l | [] => [] end.
Definition without_last_comments (is : list item) : list item := rev (drop_while is_comment_item (rev is)).
(** what one expects: everything but comments at either end *)
Definition inner_value (is : list item) : bytes := raws (without_last_comments (drop_while is_comment_item is)).
(** what it gets: when the children begin with a comment, the text after it is lost up to the next
    reference or element, and when there is none the value is not a range *)
Definition value_of (is : list item) : option bytes :=
  match is with
  | Comment _ :: _ =>
    match drop_while (fun i => is_comment_item i || is_chars_item i) is with
    | [] => if existsb is_chars_item is then None else Some []
    | is' => Some (raws (without_last_comments is'))
    end
  | _ => Some (inner_value is)
  end.

(** what is written for an end tag outside of preorder mode: the two bytes before the name, the name, and
    the byte after it *)
Definition last2 (u : bytes) : bytes := skipn (length u - 2) u.
Definition echoed_close (w2 nm w3 : bytes) : bytes := last2 (lt :: slash :: w2) ++ nm ++ firstn 1 (w3 ++ [gt]).

Section Render.
Variable name_index : list entry.
Variable pred : list call -> bytes -> bool.
Variable cb : list call -> call -> answer.

(** the text a reference stands for; nothing when it is unknown *)
Definition reference_text (name : bytes) : bytes :=
  match entity_map_find name_index name with
  | Some code => if (code =? 0)%N then [] else utf32_to_utf8 code
  | None => []
  end.
Definition open_reference_text (b : bytes) : bytes :=
  match b with [] => [] | _ => reference_text (removelast b) end.

(** an element's name, attributes and children *)
Definition tag_of (i : item) : option (bytes * list attr * list item) :=
  match i with
  | Empty _ nm ats _ => Some (nm, ats, [])
  | Elem _ nm ats _ kids _ _ => Some (nm, ats, kids)
  | _ => None
  end.

(** [Render h is o h']: with the callback's history [h], the items produce the output [o] and extend the
    history to [h']. An element for which the predicate holds is handed to the callback as a whole; the
    answer is copied when it is the element itself, and parsed again when it is not. Any other element is
    copied, its content rendered. *)
Inductive Render : list call -> list item -> bytes -> list call -> Prop :=
| R_nil : forall h, Render h [] [] h
| R_chars : forall h s is o h', Render h is o h' -> Render h (Chars s :: is) (s ++ o) h'
| R_ref : forall h b is o h', Render h is o h' -> Render h (Ref b :: is) (reference_text b ++ o) h'
| R_open_ref : forall h b is o h', Render h is o h' -> Render h (OpenRef b :: is) (open_reference_text b ++ o) h'
| R_comment : forall h b is o h', Render h is o h' -> Render h (Comment b :: is) o h'
| R_element : forall h i is o1 h1 o h', RenderE h i o1 h1 -> Render h1 is o h' -> Render h (i :: is) (o1 ++ o) h'
with RenderE : list call -> item -> bytes -> list call -> Prop :=
| R_empty : forall h w0 nm ats w1 l k x,
    pred h nm = false -> denotes (written ats) l ->
    k = Call (raw (Empty w0 nm ats w1)) nm l (Some []) ->
    answer_bytes (raw (Empty w0 nm ats w1)) (cb h k) = Some x ->
    RenderE h (Empty w0 nm ats w1) x (h ++ [k])
| R_inside : forall h w0 nm ats w1 kids w2 w3 o h',
    pred h nm = false -> Render h kids o h' ->
    RenderE h (Elem w0 nm ats w1 kids w2 w3) (tag_bytes w0 nm ats w1 ++ gt :: o ++ echoed_close w2 nm w3) h'
| R_echo : forall h i nm ats kids l k,
    tag_of i = Some (nm, ats, kids) -> pred h nm = true -> denotes (written ats) l ->
    k = Call (raw i) nm l (value_of kids) -> cb h k = Echo ->
    RenderE h i (raw i) (h ++ [k])
| R_text : forall h i nm ats kids l k x o h',
    tag_of i = Some (nm, ats, kids) -> pred h nm = true -> denotes (written ats) l ->
    k = Call (raw i) nm l (value_of kids) -> cb h k = Text x -> Parsed (h ++ [k]) x o h' ->
    RenderE h i o h'
(** parsing a text as content *)
with Parsed : list call -> bytes -> bytes -> list call -> Prop :=
| P_content : forall h is rest o h',
    items_ok is rest -> stops rest -> Render h is o h' -> Parsed h (raws is ++ rest) o h'.
End Render.

(** *** Documents and sequences of elements *)
(** what may stand before the prolog: nothing, or any text but a UTF-16 byte order mark *)
Definition leading (t next : bytes) : Prop :=
  t = [] \/ chars_ok t next /\ (forall r, t <> 254%N :: 255%N :: r) /\ (forall r, t <> 255%N :: 254%N :: r).
Definition instruction (x : bytes) : bytes := lt :: quest :: x ++ [quest; gt].
Definition prolog (x : bytes) : Prop := x = [] \/ exists y, absent [quest; gt] y /\ x = instruction y.
(** elements with text, which is ignored, between them *)
Inductive Elements (name_index : list entry) (pred : list call -> bytes -> bool) (cb : list call -> call -> answer) :
  list call -> bytes -> bytes -> list call -> Prop :=
| Es_end : forall h r, (forall n, ~ Token false r KOpen 0 n n) -> Elements name_index pred cb h r [] h
| Es_element : forall h i t r o1 h1 o h', item_ok i (t ++ r) -> RenderE name_index pred cb h i o1 h1 -> 
    t = [] \/ chars_ok t r ->
    Elements name_index pred cb h1 r o h' -> Elements name_index pred cb h (raw i ++ t ++ r) (o1 ++ o) h'.
