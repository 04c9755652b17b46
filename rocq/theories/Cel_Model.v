(** Model of the CEL serializer: /repo/source/iomanip_asl_cel.cpp, /repo/adobe/iomanip.hpp (format_base,
    the manipulators), /repo/source/any_regular.cpp:47-64 (dictionary_t), /repo/adobe/array.hpp:41-50 (array_t),
    /repo/adobe/any_regular.hpp:252,614 (any_regular_t: [os << format(object)]).
    What has been written to the stream is a list of characters.  The stream stays good.
    std::string of a double (adobe::to_string, string.cpp:25) is the parameter [show]; the name of a C++ type
    (std::type_info::name) is [type_text].  The indexes of the entity tables are those of Entity_Model. *)
From Coq Require Import String Ascii ZArith Floats.SpecFloat.
From Verif Require Import Prelude Vm_Value Vm_Model Entity_Model.
From Coq Require Import List.
Import ListNotations.
Local Open Scope nat_scope.

(** iomanip.hpp:48-51, and the tag of the formatter itself *)
Inductive tag := TFormat | TBag | TSeq | TAtom.
Definition tag_eqb (a b : tag) : bool :=
  match a, b with TFormat, TFormat | TBag, TBag | TSeq, TSeq | TAtom, TAtom => true | _, _ => false end.
(** iomanip.hpp:60-84 format_element_t (ident_m is not used by this format) *)
Record element := mk_element { el_tag : tag; el_value : option value; num_out : nat }.
(** iomanip.hpp:87-168 format_base: [depth_m], [stack_m] (front first), and the stream *)
Record fstate := mk_fstate { out : list ascii; fdepth : nat; fstack : list element }.

Definition cs (s : string) : list ascii := list_ascii_of_string s.
Definition emit (l : list ascii) (s : fstate) : fstate := mk_fstate (out s ++ l) (fdepth s) (fstack s).
Definition LF : ascii := "010".
Definition TAB : ascii := "009".
Definition DQ : ascii := "034".
(** iomanip.hpp:189-205 indents *)
Definition indents (n : nat) : list ascii := repeat TAB n.

Section Cel.
Variable show : spec_float -> list ascii.
Variable type_text : value -> list ascii.
Variable code_index : list entry.
Variable escape_m : bool.

Definition tag_at (n : nat) (s : fstate) : option tag :=
  match nth_error (fstack s) n with Some e => Some (el_tag e) | None => None end.
Definition is_tag (t : tag) (n : nat) (s : fstate) : bool :=
  match tag_at n s with Some u => tag_eqb u t | None => false end.
(** stack_n(n).num_out_m *)
Definition count_at (n : nat) (s : fstate) : option nat :=
  match nth_error (fstack s) n with Some e => Some (num_out e) | None => None end.
Fixpoint bump (n : nat) (l : list element) : list element :=
  match l, n with
  | [], _ => []
  | e :: l', O => mk_element (el_tag e) (el_value e) (S (num_out e)) :: l'
  | e :: l', S n' => e :: bump n' l'
  end.

(** what an atom that is not a container writes: iomanip_asl_cel.cpp:108-143 *)
Definition atom_text (named_argument : bool) (v : value) : list ascii :=
  match v with
  | VStr s =>
    if escape_m && needs_entity_escape code_index (bs s)
    then cs "xml_unescape(" ++ DQ :: cs (string_of (entity_escape code_index (bs s))) ++ DQ :: cs ")"
    else DQ :: cs s ++ [DQ]
  | VName n => (if named_argument then [] else cs "@") ++ cs n ++ (if named_argument then cs ": " else [])
  | VBool b => cs (if b then "true" else "false")
  | VNum f => show f
  | VEmpty => cs "empty"
  | _ => "'"%char :: type_text v ++ ["'"%char]
  end.

(** 77-104: the part of handle_atom before the value is written; [None]: stack_n throws *)
Definition outputting_bag (s : fstate) : bool := is_tag TSeq 1 s && is_tag TBag 2 s.
Definition count_place (s : fstate) : nat := if outputting_bag s then 2 else 1.
Definition atom_begin (s : fstate) : option (bool * fstate) :=
  match count_at (count_place s) s with
  | None => None
  | Some n =>
    let bag := outputting_bag s in
    let named := bag && Nat.even n in
    Some (named,
      if 0 <? n then
        (if negb bag then emit (cs ", ") s
         else if named then emit (cs "," ++ [LF] ++ indents (fdepth s)) s
         else s)
      else if bag then emit (LF :: indents (fdepth s)) s
      else s)
  end.
(** 144-147, then pop_front (iomanip.hpp:124-128) *)
Definition atom_end (s : fstate) : option fstate :=
  match count_at (count_place s) s with
  | None => None
  | Some _ => Some (mk_fstate (out s) (fdepth s) (tl (bump (count_place s) (fstack s))))
  end.
Definition push_elem (t : tag) (v : option value) (s : fstate) : fstate :=
  mk_fstate (out s) (fdepth s) (mk_element t v 0 :: fstack s).
(** 36, 56-59 *)
Definition begin_bag (s : fstate) : fstate :=
  let s := emit (cs "{") (push_elem TBag None s) in mk_fstate (out s) (S (fdepth s)) (fstack s).
(** 62-71 and the pop; down(): iomanip.hpp:156-159, unsigned *)
Definition end_bag (s : fstate) : option fstate :=
  match fstack s with
  | [] => None
  | e :: st =>
    let d := pred (fdepth s) in
    Some (mk_fstate (out s ++ (if 0 <? num_out e then LF :: indents d else cs " ") ++ cs "}") d st)
  end.
(** 42, 60-62 *)
Definition begin_sequence (s : fstate) : fstate :=
  let s := push_elem TSeq None s in if is_tag TBag 1 s then s else emit (cs "[ ") s.
(** 72-77 and the pop *)
Definition end_sequence (s : fstate) : option fstate :=
  match fstack s with
  | [] => None
  | e :: st =>
    Some (mk_fstate (out s ++ if is_tag TBag 1 s then [] else (if 0 <? num_out e then cs " " else []) ++ cs "]")
                    (fdepth s) st)
  end.

(** [os << format(v)], iomanip.hpp:334-339: begin_atom, end_atom.  [index] is the sorted index of a
    dictionary (any_regular.cpp:50-51): see [sorted_index]. *)
Definition put_leaf (v : value) (s : fstate) : option fstate :=
  match atom_begin (push_elem TAtom (Some v) s) with
  | None => None
  | Some (named, s1) => atom_end (emit (atom_text named v) s1)
  end.
Section Items.
Variable put : value -> fstate -> option fstate.
(** array.hpp:41-50 *)
Fixpoint put_items (l : list value) (s : fstate) : option fstate :=
  match l with
  | [] => Some s
  | v :: l' => match put v s with Some s' => put_items l' s' | None => None end
  end.
(** any_regular.cpp:55-61 *)
Definition put_pair (k : string) (putv : fstate -> option fstate) (s : fstate) : option fstate :=
  match put_leaf (VName k) (begin_sequence s) with
  | Some s1 => match putv s1 with Some s2 => end_sequence s2 | None => None end
  | None => None
  end.
End Items.

(** *** sorting the index of a dictionary: table_index::sort with name_t's operator< (name.hpp:257, strcmp).
    The keys of a dictionary are distinct, so there is one sorted order; insertion sort computes it.
    Each row carries what to do to write its value. *)
Fixpoint str_ltb (a b : string) : bool :=
  match a, b with
  | _, EmptyString => false
  | EmptyString, String _ _ => true
  | String x a', String y b' =>
    let (x, y) := (N_of_ascii x, N_of_ascii y) in
    if (x <? y)%N then true else if (y <? x)%N then false else str_ltb a' b'
  end.
Fixpoint insert_row {A} (k : string) (a : A) (l : list (string * A)) : list (string * A) :=
  match l with
  | [] => [(k, a)]
  | (k', a') :: l' => if str_ltb k' k then (k', a') :: insert_row k a l' else (k, a) :: (k', a') :: l'
  end.
Definition sort_rows {A} (l : list (string * A)) : list (string * A) :=
  fold_right (fun ka l => insert_row (fst ka) (snd ka) l) [] l.
Fixpoint put_rows (l : list (string * (fstate -> option fstate))) (s : fstate) : option fstate :=
  match l with
  | [] => Some s
  | (k, f) :: l' => match put_pair k f s with Some s' => put_rows l' s' | None => None end
  end.

(** [os << v] for an any_regular_t *)
Fixpoint put (v : value) (s : fstate) {struct v} : option fstate :=
  match v with
  | VArr l =>
    match atom_begin (push_elem TAtom (Some v) s) with
    | None => None
    | Some (_, s1) =>
      match put_items put l (begin_sequence s1) with
      | None => None
      | Some s2 => match end_sequence s2 with Some s3 => atom_end s3 | None => None end
      end
    end
  | VDict d =>
    match atom_begin (push_elem TAtom (Some v) s) with
    | None => None
    | Some (_, s1) =>
      let rows := (fix go (d : list (string * value)) : list (string * (fstate -> option fstate)) :=
                     match d with [] => [] | (k, w) :: d' => (k, put w) :: go d' end) d in
      match put_rows (sort_rows rows) (begin_bag s1) with
      | None => None
      | Some s2 => match end_bag s2 with Some s3 => atom_end s3 | None => None end
      end
    end
  | _ => put_leaf v s
  end.
(** begin_asl_cel (152-156): a new formatter, which pushes its element; then the value *)
Definition begin_asl_cel : fstate := mk_fstate [] 0 [mk_element TFormat None 0].
Definition serialize (v : value) : option (list ascii) :=
  match put v begin_asl_cel with Some s => Some (out s) | None => None end.
End Cel.
