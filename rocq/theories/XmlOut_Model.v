(** Model of the XML serializer: /repo/source/iomanip_xml.cpp:29-144 (xml_format), with the parts of
    /repo/adobe/iomanip.hpp and of the streaming of any_regular_t, array_t and dictionary_t that Cel_Model
    describes (format_base's stack, the manipulators, the sorted index of a dictionary).
    [None] is undefined behaviour or an exception.  What operator<< writes for a double that is not an integer
    is the parameter [show], std::type_info::name the parameter [type_text].  The stream stays good. *)
From Coq Require Import String Ascii ZArith Floats.SpecFloat DecimalString.
From Verif Require Import Prelude Vm_Value Vm_Model Entity_Model.
From Verif Require Import Cel_Model.
From Coq Require Import List.
Import ListNotations.
Local Open Scope nat_scope.

(** static_cast<std::int64_t>(double) and the comparison with the double, iomanip_xml.cpp:125-128: undefined
    when the truncated value does not fit; otherwise the integer, and whether it is the double's value. *)
Definition f_exact (f : spec_float) : bool :=
  match f with
  | S754_zero _ => true
  | S754_finite s m e => if (0 <=? e)%Z then true else (Zpos m mod 2 ^ (- e) =? 0)%Z
  | _ => false
  end.
Definition to_int64 (f : spec_float) : option (Z * bool) :=
  match f_trunc f with
  | Some z => if ((- 2 ^ 63 <=? z) && (z <? 2 ^ 63))%Z then Some (z, f_exact f) else None
  | None => None
  end.
(** operator<<(std::ostream&, std::int64_t) *)
Definition dec (z : Z) : list ascii := cs (NilZero.string_of_int (Z.to_int z)).

Section XmlOut.
Variable show : spec_float -> list ascii.
Variable type_text : value -> list ascii.
Variable code_index : list entry.

Definition element_text (t : string) (l : list ascii) : list ascii :=
  cs "<" ++ cs t ++ cs ">" ++ l ++ cs "</" ++ cs t ++ cs ">".

(** iomanip_xml.cpp:117-140, an atom that is neither a key nor a container *)
Definition leaf_text (v : value) : option (list ascii) :=
  match v with
  | VStr s => Some (element_text "string" (cs (string_of (entity_escape code_index (bs s)))))
  | VName n => Some (element_text "ident" (cs n))
  | VBool b => Some (element_text "bool" (cs (if b then "true" else "false")))
  | VNum f => match to_int64 f with
              | None => None
              | Some (z, true) => Some (element_text "integer" (dec z))
              | Some (z, false) => Some (element_text "double" (show f))
              end
  | VEmpty => Some (cs "<" ++ cs "empty" ++ cs "/>")
  | _ => Some (element_text "xml_unknown" (type_text v))
  end.

(** 112-115: push, and the indentation *)
Definition atom_push (v : value) (s : fstate) : fstate :=
  emit (indents (fdepth s)) (push_elem TAtom (Some v) s).
(** 117: the first atom of a pair in a dictionary *)
Definition is_key (s : fstate) : bool :=
  is_tag TSeq 1 s && is_tag TBag 2 s && match count_at 1 s with Some 0 => true | _ => false end.
(** 141-146 and pop_front *)
Definition atom_pop (s : fstate) : fstate :=
  mk_fstate (out s ++ [LF]) (fdepth s) (tl (if is_tag TSeq 1 s then bump 1 (fstack s) else fstack s)).
(** 117-118: value.cast<name_t>() throws for any other type *)
Definition put_atom (v : value) (s : fstate) : option fstate :=
  let s := atom_push v s in
  let text := if is_key s then match v with VName n => Some (element_text "key" (cs n)) | _ => None end
              else leaf_text v in
  match text with
  | None => None
  | Some t => Some (atom_pop (emit t s))
  end.

(** 71-73 *)
Definition begin_bag (s : fstate) : fstate :=
  let s := emit (cs "<dict>" ++ [LF]) (push_elem TBag None s) in mk_fstate (out s) (S (fdepth s)) (fstack s).
(** 86-90 and the pop *)
Definition end_bag (s : fstate) : option fstate :=
  match fstack s with
  | [] => None
  | _ :: st =>
    let d := pred (fdepth s) in
    Some (mk_fstate (out s ++ indents d ++ cs "</dict>" ++ if is_tag TAtom 1 s then [] else [LF]) d st)
  end.
(** 74-78 *)
Definition begin_sequence (s : fstate) : fstate :=
  let s := push_elem TSeq None s in
  if is_tag TBag 1 s then s
  else let s := emit (cs "<array>" ++ [LF]) s in mk_fstate (out s) (S (fdepth s)) (fstack s).
(** 91-97 and the pop *)
Definition end_sequence (s : fstate) : option fstate :=
  match fstack s with
  | [] => None
  | _ :: st =>
    if is_tag TBag 1 s then Some (mk_fstate (out s) (fdepth s) st)
    else let d := pred (fdepth s) in
         Some (mk_fstate (out s ++ indents d ++ cs "</array>" ++ if is_tag TAtom 1 s then [] else [LF]) d st)
  end.

Section Items.
Variable put : value -> fstate -> option fstate.
(** array.hpp:41-50 *)
Fixpoint put_items (l : list value) (s : fstate) : option fstate :=
  match l with
  | [] => Some s
  | v :: l' => match put v s with Some s' => put_items l' s' | None => None end
  end.
End Items.
(** any_regular.cpp:55-61 *)
Definition put_pair (k : string) (putv : fstate -> option fstate) (s : fstate) : option fstate :=
  match put_atom (VName k) (begin_sequence s) with
  | Some s1 => match putv s1 with Some s2 => end_sequence s2 | None => None end
  | None => None
  end.
Fixpoint put_rows (l : list (string * (fstate -> option fstate))) (s : fstate) : option fstate :=
  match l with
  | [] => Some s
  | (k, f) :: l' => match put_pair k f s with Some s' => put_rows l' s' | None => None end
  end.
(** [os << v] for an any_regular_t: any_regular.hpp:252, 614; 133-136 for the containers *)
Fixpoint put (v : value) (s : fstate) {struct v} : option fstate :=
  match v with
  | VArr l =>
    let s := atom_push v s in
    if is_key s then None
    else match put_items put l (begin_sequence s) with
         | None => None
         | Some s2 => match end_sequence s2 with Some s3 => Some (atom_pop s3) | None => None end
         end
  | VDict d =>
    let s := atom_push v s in
    if is_key s then None
    else let rows := (fix go (d : list (string * value)) : list (string * (fstate -> option fstate)) :=
                        match d with [] => [] | (k, w) :: d' => (k, put w) :: go d' end) d in
         match put_rows (sort_rows rows) (begin_bag s) with
         | None => None
         | Some s2 => match end_bag s2 with Some s3 => Some (atom_pop s3) | None => None end
         end
  | _ => put_atom v s
  end.

(** os << begin_xml << v << end_xml: 29-38, 41, 69-70, 83-84 *)
Definition begin_xml : fstate :=
  let s := push_elem TFormat None (mk_fstate [] 0 []) in emit (indents (fdepth s) ++ cs "<xml>" ++ [LF]) s.
Definition end_xml (s : fstate) : list ascii := out s ++ indents (fdepth s) ++ cs "</xml>".
Definition serialize_xml (v : value) : option (list ascii) :=
  match put v begin_xml with Some s => Some (end_xml s) | None => None end.
End XmlOut.
