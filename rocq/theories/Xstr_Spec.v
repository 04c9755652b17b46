(** What the xstring library promises, said of the trees of Xml_Spec: nothing here mentions the library's functions. *)
From Coq Require Import String Ascii.
From Verif Require Import Prelude Entity_Model Unicode_Model Xml_Model Xml_Spec.
From Coq Require Import List.
Import ListNotations.
Local Open Scope nat_scope.

Definition word (s : string) : bytes := map N_of_ascii (list_ascii_of_string s).
(** the text is these items, up to where content ends *)
Definition content_of (x : bytes) (is : list item) : Prop := exists rest, x = raws is ++ rest /\ items_ok is rest /\ stops rest.
Definition own_name (n : bytes) : bool :=
  if list_eq_dec N.eq_dec n (word "xstr") then true else if list_eq_dec N.eq_dec n (word "marker") then true else false.
Definition named (n : bytes) (i : item) : bool :=
  match tag_of i with Some (m, _, _) => if list_eq_dec N.eq_dec m n then true else false | None => false end.
(** the xstr and marker elements that are not inside another one of those *)
Fixpoint outermost (i : item) : list item :=
  match i with
  | Empty _ nm _ _ => if own_name nm then [i] else []
  | Elem _ nm _ _ kids _ _ => if own_name nm then [i] else flat_map outermost kids
  | _ => []
  end.
(** a marker: its attributes, and its value, [None] when that is not a range *)
Definition marker_t := (list attr * option bytes)%type.
Definition as_marker (i : item) : list marker_t :=
  match tag_of i with Some (_, ats, kids) => [(ats, value_of kids)] | None => [] end.
Definition markers_in (is : list item) : list marker_t := flat_map as_marker (filter (named (word "marker")) (flat_map outermost is)).
Definition same_attributes (x y : list attr) : Prop := forall n, last_value (written x) n = last_value (written y) n.

(** the id that is taken from a text: the one of the last xstr element; nothing when it has none, or there is none *)
Definition id_attribute (i : item) : bytes :=
  match tag_of i with
  | Some (_, ats, _) => match last_value (written ats) (word "id") with Some v => v | None => [] end
  | None => []
  end.
Definition last_id (is : list item) : bytes := id_attribute (last (filter (named (word "xstr")) (flat_map outermost is)) (Chars [])).
(** the one that is meant: of the first *)
Definition first_id (is : list item) : bytes := id_attribute (hd (Chars []) (filter (named (word "xstr")) (flat_map outermost is))).

Section Fill.
Variable name_index : list entry.
Variable ms : list marker_t.
(** the first of the markers with the same attributes *)
Definition first_given (ats : list attr) (v : option bytes) : Prop :=
  exists a ats' b, ms = a ++ (ats', v) :: b /\ same_attributes ats ats' /\ Forall (fun m => ~ same_attributes ats (fst m)) a.
Definition not_given (ats : list attr) : Prop := Forall (fun m => ~ same_attributes ats (fst m)) ms.
(** [Fill s is o s']: filling in the items gives the text [o]; [s] and [s'] are how many markers were replaced before and
    after it, [None] once one could not be.  The text a marker is replaced by is filled in itself.  Elements that are
    empty, and xstr elements, are left out. *)
Inductive Fill : option nat -> list item -> bytes -> option nat -> Prop :=
| F_nil s : Fill s [] [] s
| F_chars s t is o s' : Fill s is o s' -> Fill s (Chars t :: is) (t ++ o) s'
| F_ref s b is o s' : Fill s is o s' -> Fill s (Ref b :: is) (reference_text name_index b ++ o) s'
| F_open_ref s b is o s' : Fill s is o s' -> Fill s (OpenRef b :: is) (open_reference_text name_index b ++ o) s'
| F_comment s b is o s' : Fill s is o s' -> Fill s (Comment b :: is) o s'
| F_element s i is o1 s1 o s' : FillE s i o1 s1 -> Fill s1 is o s' -> Fill s (i :: is) (o1 ++ o) s'
with FillE : option nat -> item -> bytes -> option nat -> Prop :=
| F_marker n i ats kids v o s' : tag_of i = Some (word "marker", ats, kids) -> first_given ats (Some v) ->
    FillT (Some (S n)) v o s' -> FillE (Some n) i o s'
| F_missing n i ats kids : tag_of i = Some (word "marker", ats, kids) -> not_given ats -> FillE (Some n) i [] None
| F_already_missing i ats kids : tag_of i = Some (word "marker", ats, kids) -> FillE None i [] None
| F_xstr s i ats kids : tag_of i = Some (word "xstr", ats, kids) -> FillE s i [] s
| F_empty s w0 nm ats w1 : own_name nm = false -> FillE s (Empty w0 nm ats w1) [] s
| F_inside s w0 nm ats w1 kids w2 w3 o s' : own_name nm = false -> Fill s kids o s' ->
    FillE s (Elem w0 nm ats w1 kids w2 w3) (tag_bytes w0 nm ats w1 ++ gt :: o ++ echoed_close w2 nm w3) s'
with FillT : option nat -> bytes -> bytes -> option nat -> Prop :=
| F_text s is x o s' : content_of x is -> Fill s is o s' -> FillT s x o s'.

(** the candidate can be read; it can be filled in, with [n] markers replaced *)
Definition readable (c : bytes) : Prop := exists o s, FillT (Some 0) c o s.
Definition filled (c o : bytes) (n : nat) : Prop := FillT (Some 0) c o (Some n).
(** the first of those with the most markers replaced *)
Definition best (cs : list bytes) (o : bytes) : Prop :=
  exists before c after n, cs = before ++ c :: after /\ filled c o n /\
    (forall c' o' n', In c' before -> filled c' o' n' -> n' < n) /\ (forall c' o' n', In c' after -> filled c' o' n' -> n' <= n).
End Fill.
(** the texts stored under an id, in the order of their storing *)
Definition under {E : Type} (id_of : E -> bytes) (text_of : E -> bytes) (g : list E) (id : bytes) : list bytes :=
  map text_of (filter (fun e => if list_eq_dec N.eq_dec (id_of e) id then true else false) g).

(** *** looking up, and the glossary *)
(** no element's children begin with a comment (see C94: its value is not what one expects then) *)
Fixpoint neat (i : item) : Prop :=
  match i with
  | Elem _ _ _ _ kids _ _ =>
    match kids with Comment _ :: _ => False | _ => True end /\
    (fix all (is : list item) : Prop := match is with [] => True | i :: is' => neat i /\ all is' end) kids
  | _ => True
  end.
(** the text without its tags, markers kept as they are *)
Fixpoint stripped (name_index : list entry) (i : item) : bytes :=
  match i with
  | Chars s => s
  | Ref b => reference_text name_index b
  | OpenRef b => open_reference_text name_index b
  | Comment _ => []
  | Empty _ nm _ _ => if list_eq_dec N.eq_dec nm (word "marker") then raw i else []
  | Elem _ nm _ _ kids _ _ => if list_eq_dec N.eq_dec nm (word "marker") then raw i else flat_map (stripped name_index) kids
  end.
(** the xstr elements, those inside of others included, those inside markers left out: their ids, and their values but comments at the end *)
Fixpoint strings (i : item) : list (bytes * bytes) :=
  match i with
  | Empty _ nm _ _ => if list_eq_dec N.eq_dec nm (word "xstr") then [(id_attribute i, [])] else []
  | Elem _ nm _ _ kids _ _ =>
    if list_eq_dec N.eq_dec nm (word "xstr") then (id_attribute i, raws (without_last_comments kids)) :: flat_map strings kids
    else if list_eq_dec N.eq_dec nm (word "marker") then [] else flat_map strings kids
  | _ => []
  end.
(** a glossary: elements, each followed by text, or by nothing *)
Fixpoint glossary_text (l : list (item * bytes)) : bytes := match l with [] => [] | (i, t) :: l' => raw i ++ t ++ glossary_text l' end.
Fixpoint glossary_ok (l : list (item * bytes)) : Prop :=
  match l with
  | [] => True
  | (i, t) :: l' => tag_of i <> None /\ neat i /\ item_ok i (t ++ glossary_text l') /\ (t = [] \/ chars_ok t (glossary_text l')) /\ glossary_ok l'
  end.
(** [Kept before l l']: [l'] is [l] without some of those that repeat one that is kept *)
Inductive Kept {A : Type} : list A -> list A -> list A -> Prop :=
| K_end b : Kept b [] []
| K_keep b x l l' : Kept (b ++ [x]) l l' -> Kept b (x :: l) (x :: l')
| K_drop b x l l' : In x b -> Kept b l l' -> Kept b (x :: l) l'.
