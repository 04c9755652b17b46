(** Model of the JavaScript and PDF serializers: /repo/source/iomanip_javascript.cpp:30-182,
    /repo/source/iomanip_pdf.cpp:31-186.  The two files have the structure of iomanip_asl_cel.cpp (see Cel_Model for
    format_base's stack, the manipulators, array_t, dictionary_t and its sorted index) and differ from each other in
    the texts they write, which are the fields of [tokens]; the functions are modelled once, with both line numbers.
    [None] is undefined behaviour: a double that does not fit is converted to std::int64_t.  How operator<<
    writes a double that is not an integer (fixed, 16 digits) is the parameter [show], std::type_info::name
    the parameter [type_text].  The stream stays good. *)
From Coq Require Import String Ascii ZArith Floats.SpecFloat DecimalString.
From Verif Require Import Prelude Vm_Value Vm_Model Entity_Model.
From Verif Require Import Cel_Model XmlOut_Model.
From Coq Require Import List.
Import ListNotations.
Local Open Scope nat_scope.

Record tokens := mk_tokens {
  t_begin : list ascii;               (* begin_format *)
  t_end : list ascii;                 (* end_format *)
  t_bag : list ascii;                 (* opens a dictionary *)
  t_bag_end : list ascii;
  t_item : list ascii;                (* between the items of an array *)
  t_row : list ascii;                 (* between the rows of a dictionary, before the new line *)
  t_string : list ascii * list ascii; (* around a string *)
  t_name : list ascii * list ascii;   (* around a name *)
  t_key : list ascii * list ascii;    (* around a name that is the key of a row *)
  t_empty : list ascii;
  t_unknown : list ascii * list ascii }.
(** iomanip_javascript.cpp:68-101, 117-175 *)
Definition javascript : tokens := mk_tokens [] [] (cs "{") (cs "}") (cs ", ") (cs ",")
  (cs "'", cs "'") (cs "new name('", cs "')") ([], cs ": ") (cs "nil") (cs "'javascript_unknown: ", cs "'").
(** iomanip_pdf.cpp:66-102, 118-174 *)
Definition pdf : tokens := mk_tokens (cs "% start pdf" ++ [LF]) (LF :: cs "% end pdf") (cs "<<") (cs ">>") (cs " ") []
  (cs "(", cs ")") (cs "/", []) (cs "/", cs " ") (cs "null") (cs "(pdf_unknown: ", cs ")").

Section Tok.
Variable T : tokens.
Variable show : spec_float -> list ascii.
Variable type_text : value -> list ascii.

Definition around (p : list ascii * list ascii) (x : list ascii) : list ascii := fst p ++ x ++ snd p.
(** javascript 128-173, pdf 128-172 *)
Definition atom_text (named_argument : bool) (v : value) : option (list ascii) :=
  match v with
  | VStr s => Some (around (t_string T) (cs s))
  | VName n => Some (around (if named_argument then t_key T else t_name T) (cs n))
  | VBool b => Some (cs (if b then "true" else "false"))
  | VNum f => match to_int64 f with
              | None => None
              | Some (z, true) => Some (dec z)
              | Some (z, false) => Some (show f)
              end
  | VEmpty => Some (t_empty T)
  | _ => Some (around (t_unknown T) (type_text v))
  end.
(** javascript 107-127, pdf 108-127 *)
Definition atom_begin (s : fstate) : option (bool * fstate) :=
  match count_at (count_place s) s with
  | None => None
  | Some n =>
    let bag := outputting_bag s in
    let named := bag && Nat.even n in
    Some (named,
      if 0 <? n then
        (if negb bag then emit (t_item T) s
         else if named then emit (t_row T ++ [LF] ++ indents (fdepth s)) s
         else s)
      else if bag then emit (LF :: indents (fdepth s)) s
      else s)
  end.
(** javascript 174-177, pdf 173-176, then pop_front *)
Definition atom_end (s : fstate) : option fstate :=
  match count_at (count_place s) s with
  | None => None
  | Some _ => Some (mk_fstate (out s) (fdepth s) (tl (bump (count_place s) (fstack s))))
  end.
(** javascript 76-78, pdf 77-79 *)
Definition begin_bag (s : fstate) : fstate :=
  let s := emit (t_bag T) (push_elem TBag None s) in mk_fstate (out s) (S (fdepth s)) (fstack s).
(** javascript 84-92, pdf 86-94 and the pop *)
Definition end_bag (s : fstate) : option fstate :=
  match fstack s with
  | [] => None
  | e :: st =>
    let d := pred (fdepth s) in
    Some (mk_fstate (out s ++ (if 0 <? num_out e then LF :: indents d else cs " ") ++ t_bag_end T) d st)
  end.
(** javascript 79-81, pdf 80-82 *)
Definition begin_sequence (s : fstate) : fstate :=
  let s := push_elem TSeq None s in if is_tag TBag 1 s then s else emit (cs "[ ") s.
(** javascript 93-98, pdf 95-100 and the pop *)
Definition end_sequence (s : fstate) : option fstate :=
  match fstack s with
  | [] => None
  | e :: st =>
    Some (mk_fstate (out s ++ if is_tag TBag 1 s then [] else (if 0 <? num_out e then cs " " else []) ++ cs "]")
                    (fdepth s) st)
  end.
Definition put_leaf (v : value) (s : fstate) : option fstate :=
  match atom_begin (push_elem TAtom (Some v) s) with
  | None => None
  | Some (named, s1) => match atom_text named v with Some t => atom_end (emit t s1) | None => None end
  end.
Section Items.
Variable put : value -> fstate -> option fstate.
(** array.hpp:41-50 *)
Fixpoint put_items (l : list value) (s : fstate) : option fstate :=
  match l with
  | [] => Some s
  | v :: l' => match put v s with Some s' => put_items l' s' | None => None end
  end.
End Items.
(** any_regular.cpp:55-61 *)
Definition put_pair (k : string) (putv : fstate -> option fstate) (s : fstate) : option fstate :=
  match put_leaf (VName k) (begin_sequence s) with
  | Some s1 => match putv s1 with Some s2 => end_sequence s2 | None => None end
  | None => None
  end.
Fixpoint put_rows (l : list (string * (fstate -> option fstate))) (s : fstate) : option fstate :=
  match l with
  | [] => Some s
  | (k, f) :: l' => match put_pair k f s with Some s' => put_rows l' s' | None => None end
  end.
(** [os << v] for an any_regular_t *)
Fixpoint put (v : value) (s : fstate) {struct v} : option fstate :=
  match v with
  | VArr l =>
    match atom_begin (push_elem TAtom (Some v) s) with
    | None => None
    | Some (_, s1) =>
      match put_items put l (begin_sequence s1) with
      | None => None
      | Some s2 => match end_sequence s2 with Some s3 => atom_end s3 | None => None end
      end
    end
  | VDict d =>
    match atom_begin (push_elem TAtom (Some v) s) with
    | None => None
    | Some (_, s1) =>
      let rows := (fix go (d : list (string * value)) : list (string * (fstate -> option fstate)) :=
                     match d with [] => [] | (k, w) :: d' => (k, put w) :: go d' end) d in
      match put_rows (sort_rows rows) (begin_bag s1) with
      | None => None
      | Some s2 => match end_bag s2 with Some s3 => atom_end s3 | None => None end
      end
    end
  | _ => put_leaf v s
  end.
(** os << begin_javascript << v << end_javascript: javascript 30-37, 42-44, 75, 83; pdf 32-40, 44, 74-76, 83-85 *)
Definition begin_tok : fstate := emit (t_begin T) (mk_fstate [] 0 [mk_element TFormat None 0]).
Definition serialize_tok (v : value) : option (list ascii) :=
  match put v begin_tok with Some s => Some (out s ++ t_end T) | None => None end.
End Tok.
Definition serialize_javascript := serialize_tok javascript.
Definition serialize_pdf := serialize_tok pdf.
