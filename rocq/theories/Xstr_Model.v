(** Model of the xstring library: /repo/source/xstring.cpp and /repo/adobe/xstring.hpp, on top of the XML parser's
    model (Xml_Model).  The memory the stored ranges point to is taken to stay as it is.  The asserts and the thread-local
    storage are not modelled: one thread's glossary is a value. *)
From Coq Require Import String Ascii.
From Verif Require Import Prelude Entity_Model Unicode_Model Xml_Model.
From Coq Require Import List ZArith.
Import ListNotations.
Local Open Scope nat_scope.

Definition attrs := list (bytes * bytes).
Definition lit (s : string) : bytes := map N_of_ascii (list_ascii_of_string s).
(** xstring.cpp:70-80 *)
Definition XSTR := lit "xstr".
Definition MARKER := lit "marker".
Definition ID := lit "id".

(** xml_parser.hpp:136-143 attribute_set_t::operator[]: an empty range when there is no such attribute *)
Fixpoint attr_get (l : attrs) (n : bytes) : bytes :=
  match l with [] => [] | (m, v) :: l' => if range_equal m n then v else attr_get l' n end.
(** xml_parser.hpp:307-309 operator== of attribute sets: their sorted contents are the same *)
Fixpoint attrs_eqb (x y : attrs) : bool :=
  match x, y with
  | [], [] => true
  | (m, v) :: x', (n, w) :: y' => range_equal m n && range_equal v w && attrs_eqb x' y'
  | _, _ => false
  end.

(** xstring.hpp:42-48 xstring_preorder_predicate *)
Definition handled (h : list call) (n : bytes) : bool := range_equal n XSTR || range_equal n MARKER.

(** *** the glossary: xstring.hpp:91 store_t, a multimap keyed by the id; elements of one key are in the order of insertion *)
Record entry_t := Stored { e_id : bytes; e_attrs : attrs; e_value : bytes; e_where : nat }.
(** xstring.hpp:127-129 range_for_key *)
Definition range_for_key (g : list entry_t) (id : bytes) : list entry_t := filter (fun e => range_equal (e_id e) id) g.

Section Xstring.
Variable name_index : list entry.

(** which of the ranges parsed are at one place in memory: two values are the same for exact_match_exists
    (xstring.cpp:174-190) when the pointers are, std::pair's == being the one that std::equal_to finds *)
Variable same_place : nat -> nat -> bool.
(** xstring.cpp:174-190 exact_match_exists, with the key that store is given: the id among the attributes *)
Definition exact_match (g : list entry_t) (id : bytes) (a : attrs) (v : bytes) (place : nat) : bool :=
  existsb (fun e => attrs_eqb (e_attrs e) a && (range_equal (e_value e) v && same_place (e_where e) place)) (range_for_key g id).
(** xstring.cpp:203-261 store *)
Definition store (g : list entry_t) (a : attrs) (v : bytes) (place : nat) : list entry_t :=
  let id := attr_get a ID in
  if exact_match g id a v place then g else g ++ [Stored id a v place].
(** xstring.cpp:375-392 xml_xstr_store: what it answers; the stored value has the text of the value *)
Definition store_answer (h : list call) (k : call) : answer :=
  if range_equal (c_name k) XSTR
  then match c_value k with Some v => Text v | None => Wild end
  else Echo.
(** and what it does to the glossary, call by call *)
Fixpoint stored (g : list entry_t) (place : nat) (h : list call) : list entry_t :=
  match h with
  | [] => g
  | k :: h' =>
    stored (if range_equal (c_name k) XSTR
            then match c_value k with Some v => store g (c_attributes k) v place | None => g end else g) (S place) h'
  end.
(** xstring.hpp:311-325 glossary_parse; [None]: no glossary, for one of the parser's reasons *)
Definition glossary_parse (fuel : nat) (text : bytes) : option (list entry_t) :=
  match parse_element_sequence name_index handled store_answer fuel text fresh with
  | Ok _ s => Some (stored [] 0 (p_calls s))
  | _ => None
  end.

(** *** xstring_replace *)
Inductive outcome := Done (text : bytes) | No_candidate | Not_parsed | Undefined | No_fuel.
Definition failed {A} (r : res A) : outcome := match r with Exn => Not_parsed | UB => Undefined | _ => No_fuel end.

(** xstring.cpp:581-592 xstr_id_harvest: the test of the distance compares begin with begin *)
Definition harvest_answer (h : list call) (k : call) : answer := Text [].
Definition harvest (id : bytes) (k : call) : bytes := if range_equal (c_name k) XSTR then attr_get (c_attributes k) ID else id.
(** xstring.cpp:509-520 the constructor from a string *)
Definition harvested (fuel : nat) (xstr : bytes) : bytes + outcome :=
  match parse_content name_index handled harvest_answer fuel xstr fresh with
  | Ok _ s => inl (fold_left harvest (p_calls s) [])
  | r => inr (failed r)
  end.

(** xstring.cpp:594-610 marker_parse *)
Definition marker_answer (h : list call) (k : call) : answer := if range_equal (c_name k) MARKER then Text [] else Echo.
Definition marker_of (k : call) : list (attrs * option bytes) :=
  if range_equal (c_name k) MARKER then [(c_attributes k, c_value k)] else [].
(** xstring.cpp:522-531 add_marker *)
Definition add_marker (fuel : nat) (given : list (attrs * option bytes)) (text : bytes) : list (attrs * option bytes) + outcome :=
  match parse_content name_index handled marker_answer fuel text fresh with
  | Ok _ s => inl (given ++ flat_map marker_of (p_calls s))
  | r => inr (failed r)
  end.
Fixpoint add_markers (fuel : nat) (given : list (attrs * option bytes)) (texts : list bytes) : list (attrs * option bytes) + outcome :=
  match texts with
  | [] => inl given
  | t :: texts' => match add_marker fuel given t with inl g => add_markers fuel g texts' | inr o => inr o end
  end.

(** adobe::find in the markers, their values not looked at: xstring.cpp:483-487, 622-623 *)
Definition replacement (given : list (attrs * option bytes)) (a : attrs) : option (option bytes) :=
  match find (fun m => attrs_eqb (fst m) a) given with Some m => Some (snd m) | None => None end.
(** xstring.cpp:612-642 candidate_parse: the score, and the answer *)
Definition score (given : list (attrs * option bytes)) (s : Z) (k : call) : Z :=
  if range_equal (c_name k) MARKER
  then if (s =? -1)%Z then (-1)%Z else match replacement given (c_attributes k) with Some _ => (s + 1)%Z | None => (-1)%Z end
  else s.
Definition candidate_answer (given : list (attrs * option bytes)) (h : list call) (k : call) : answer :=
  if range_equal (c_name k) MARKER
  then if (fold_left (score given) h 0%Z =? -1)%Z then Text []
       else match replacement given (c_attributes k) with
            | Some (Some v) => Text v
            | Some None => Wild
            | None => Text []
            end
  else Text [].
(** xstring.cpp:533-578 run *)
Fixpoint run (fuel : nat) (given : list (attrs * option bytes)) (candidates : list bytes) (score_m : Z) (result_m : bytes) : outcome :=
  match candidates with
  | [] => if (score_m <? 0)%Z then No_candidate else Done result_m
  | c :: cs =>
    match parse_content name_index handled (candidate_answer given) fuel c fresh with
    | Ok _ s =>
      let n := fold_left (score given) (p_calls s) 0%Z in
      if (score_m <? n)%Z then run fuel given cs n (p_out s) else run fuel given cs score_m result_m
    | r => failed r
    end
  end.
(** xstring.cpp:674-692 xstring_replace(name_t, ...), 652-670 xstring_replace(string, ...) *)
Definition replace_id (fuel : nat) (g : list entry_t) (id : bytes) (markers : list bytes) : outcome :=
  match add_markers fuel [] markers with
  | inl given => run fuel given (map e_value (range_for_key g id)) (-1)%Z []
  | inr o => o
  end.
Definition replace (fuel : nat) (g : list entry_t) (xstr : bytes) (markers : list bytes) : outcome :=
  match harvested fuel xstr with
  | inl id => replace_id fuel g id markers
  | inr o => o
  end.

(** *** xstring *)
(** xstring.cpp:325-365 closest_match, as it is compiled *)
Definition closest_match (range : list entry_t) (searching : attrs) : option entry_t := None.
(** xstring.cpp:396-438 xml_xstr_lookup; [merged] stands for the attributes merged with the context's.  In a debug build
    a failed look-up stores the value, and answers with the stored copy of it. *)
Definition lookup_answer (g : list entry_t) (merged : attrs -> attrs) (k : call) : answer :=
  if range_equal (c_name k) XSTR
  then match closest_match (range_for_key g (attr_get (merged (c_attributes k)) ID)) (merged (c_attributes k)) with
       | Some e => Text (e_value e)
       | None => match c_value k with Some v => Text v | None => Wild end
       end
  else Echo.
(** xstring.hpp:139-148 element_handler, with no client predicate; xml_parser.hpp:593-598 xml_element_strip *)
Definition element_answer (g : list entry_t) (merged : attrs -> attrs) (h : list call) (k : call) : answer :=
  if handled h (c_name k) then lookup_answer g merged k
  else match c_value k with Some v => Text v | None => Wild end.
(** xstring.hpp:187-200 parse_xml_fragment, 232-240 xstring *)
Definition xstring (fuel : nat) (g : list entry_t) (merged : attrs -> attrs) (text : bytes) : outcome :=
  match parse_content name_index (fun _ _ => true) (element_answer g merged) fuel text fresh with
  | Ok _ s => Done (p_out s)
  | r => failed r
  end.
End Xstring.
