(** Specification for the JavaScript and PDF serializers: readers of the two notations, and the values the
    notations can express.  Nothing of the serializers' model is used. *)
From Coq Require Import String Ascii ZArith Permutation Sorted Floats.SpecFloat DecimalString.
From Verif Require Import Prelude Vm_Value.
From Verif Require Lex_Spec XmlOut_Spec Cel_Spec.
From Coq Require Import List.
Import ListNotations.
Local Open Scope nat_scope.

Definition white (c : ascii) : bool := (Ascii.eqb c " " || Ascii.eqb c "009" || Ascii.eqb c "010")%bool.
Fixpoint skip (t : list ascii) : list ascii := match t with c :: t' => if white c then skip t' else t | [] => [] end.
(** the rest of the text when it begins with [p] *)
Fixpoint expect (p t : list ascii) : option (list ascii) :=
  match p, t with
  | [], _ => Some t
  | c :: p', d :: t' => if Ascii.eqb c d then expect p' t' else None
  | _ :: _, [] => None
  end.
Notation chars := list_ascii_of_string (only parsing).
(** the longest prefix of such characters, and the rest *)
Fixpoint span (f : ascii -> bool) (t : list ascii) : list ascii * list ascii :=
  match t with c :: t' => if f c then let (a, b) := span f t' in (c :: a, b) else ([], t) | [] => ([], []) end.

(** A number: digits and a sign, or with a dot a decimal number, which [number] reads *)
Definition num_char (c : ascii) : bool := (Lex_Spec.digit c || Ascii.eqb c "-" || Ascii.eqb c ".")%bool.
Definition read_number (number : list ascii -> spec_float) (t : list ascii) : option (value * list ascii) :=
  let (w, r) := span num_char t in
  if existsb (Ascii.eqb ".") w then Some (VNum (number w), r)
  else match NilZero.int_of_string (string_of_list_ascii w) with
       | Some d => match w with [] => None | _ => Some (VNum (f_of_Z (Z.of_int d)), r) end
       | None => None
       end.
(** characters, up to the closing one *)
Definition read_quoted (inside : ascii -> bool) (close t : list ascii) : option (string * list ascii) :=
  let (s, r) := span inside t in
  match expect close r with Some r' => Some (string_of_list_ascii s, r') | None => None end.

(** *** JavaScript: null is written nil, a name new name('...') *)
Definition js_inside (c : ascii) : bool :=
  negb (Ascii.eqb c "'" || Ascii.eqb c "\" || Ascii.eqb c "010" || Ascii.eqb c "013").
Definition js_leaf (number : list ascii -> spec_float) (t : list ascii) : option (value * list ascii) :=
  match expect (chars "'") t with
  | Some r => match read_quoted js_inside (chars "'") r with Some (s, r') => Some (VStr s, r') | None => None end
  | None =>
  match expect (chars "new name('") t with
  | Some r => match read_quoted js_inside (chars "')") r with Some (s, r') => Some (VName s, r') | None => None end
  | None =>
  match expect (chars "true") t with Some r => Some (VBool true, r) | None =>
  match expect (chars "false") t with Some r => Some (VBool false, r) | None =>
  match expect (chars "nil") t with Some r => Some (VEmpty, r) | None => read_number number t end end end end end.
(** identifier ':' *)
Definition js_key (t : list ascii) : option (string * list ascii) :=
  let (w, r) := span Lex_Spec.word_char t in
  match w with
  | c :: _ => if Lex_Spec.word_start c
              then match expect (chars ":") (skip r) with Some r' => Some (string_of_list_ascii w, r') | None => None end
              else None
  | [] => None
  end.

(** *** PDF: strings in parentheses, without escapes or nested parentheses; names after a slash *)
Definition pdf_inside (c : ascii) : bool :=
  negb (Ascii.eqb c "(" || Ascii.eqb c ")" || Ascii.eqb c "\" || Ascii.eqb c "013").
Definition pdf_key (t : list ascii) : option (string * list ascii) :=
  match expect (chars "/") t with
  | Some r => let (w, r') := span Lex_Spec.word_char r in Some (string_of_list_ascii w, r')
  | None => None
  end.
Definition pdf_leaf (number : list ascii -> spec_float) (t : list ascii) : option (value * list ascii) :=
  match expect (chars "(") t with
  | Some r => match read_quoted pdf_inside (chars ")") r with Some (s, r') => Some (VStr s, r') | None => None end
  | None =>
  match pdf_key t with Some (n, r) => Some (VName n, r) | None =>
  match expect (chars "true") t with Some r => Some (VBool true, r) | None =>
  match expect (chars "false") t with Some r => Some (VBool false, r) | None =>
  match expect (chars "null") t with Some r => Some (VEmpty, r) | None => read_number number t end end end end end.

(** *** Arrays and dictionaries; [comma]: whether items and rows are separated by commas.  The number only
    bounds the depth and the lengths. *)
Section Read.
Variable bag bag_end : list ascii.
Variable comma : bool.
Variable leaf : list ascii -> option (value * list ascii).
Variable key : list ascii -> option (string * list ascii).
Definition separator (first : bool) (t : list ascii) : option (list ascii) :=
  if first || negb comma then Some t else expect (chars ",") t.
Section Items.
Variable rd : list ascii -> option (value * list ascii).
Fixpoint items (m : nat) (first : bool) (t : list ascii) : option (list value * list ascii) :=
  match m with
  | 0 => None
  | S m =>
    match expect (chars "]") (skip t) with
    | Some r => Some ([], r)
    | None =>
      match separator first (skip t) with
      | Some t => match rd t with
                  | Some (v, r) => match items m false r with Some (l, r') => Some (v :: l, r') | None => None end
                  | None => None
                  end
      | None => None
      end
    end
  end.
Fixpoint rows (m : nat) (first : bool) (t : list ascii) : option (list (string * value) * list ascii) :=
  match m with
  | 0 => None
  | S m =>
    match expect bag_end (skip t) with
    | Some r => Some ([], r)
    | None =>
      match separator first (skip t) with
      | Some t =>
        match key (skip t) with
        | Some (k, t) => match rd t with
                         | Some (v, r) => match rows m false r with Some (l, r') => Some ((k, v) :: l, r') | None => None end
                         | None => None
                         end
        | None => None
        end
      | None => None
      end
    end
  end.
End Items.
Fixpoint read (n : nat) (t : list ascii) : option (value * list ascii) :=
  match n with
  | 0 => None
  | S n =>
    match expect (chars "[") (skip t) with
    | Some r => match items (read n) n true r with Some (l, r') => Some (VArr l, r') | None => None end
    | None =>
    match expect bag (skip t) with
    | Some r => match rows (read n) n true r with Some (d, r') => Some (VDict d, r') | None => None end
    | None => leaf (skip t)
    end end
  end.
End Read.
Definition read_javascript (number : list ascii -> spec_float) (n : nat) (t : list ascii) : option (value * list ascii) :=
  read (chars "{") (chars "}") true (js_leaf number) js_key n t.
Definition read_pdf (number : list ascii -> spec_float) (n : nat) (t : list ascii) : option (value * list ascii) :=
  read (chars "<<") (chars ">>") false (pdf_leaf number) pdf_key n t.

(** *** The values that can be expressed *)
Section Expressible.
Variable show : spec_float -> list ascii.
Variable number : list ascii -> spec_float.
Variable str_ok name_ok key_ok : string -> Prop.
(** an integer, or a number that is printed as decimal and reads back *)
Definition num_ok (f : spec_float) : Prop :=
  XmlOut_Spec.fits64 f /\
  ((exists z, XmlOut_Spec.is_integer f z /\ f = f_of_Z z) \/
   (forall z, ~ XmlOut_Spec.is_integer f z) /\ Forall (fun c => num_char c = true) (show f) /\ In "."%char (show f) /\ number (show f) = f).
Inductive expressible : value -> Prop :=
| e_num f : num_ok f -> expressible (VNum f)
| e_bool b : expressible (VBool b)
| e_str s : str_ok s -> expressible (VStr s)
| e_name n : name_ok n -> expressible (VName n)
| e_empty : expressible VEmpty
| e_arr l : Forall expressible l -> expressible (VArr l)
| e_dict d : NoDup (map fst d) -> Forall (fun kv => key_ok (fst kv) /\ expressible (snd kv)) d -> expressible (VDict d).
End Expressible.
Definition all_of (f : ascii -> bool) (s : string) : Prop := Forall (fun c => f c = true) (chars s).
Definition js_value (show : spec_float -> list ascii) (number : list ascii -> spec_float) : value -> Prop :=
  expressible show number (all_of js_inside) (all_of js_inside) Cel_Spec.word.
Definition pdf_value (show : spec_float -> list ascii) (number : list ascii -> spec_float) : value -> Prop :=
  expressible show number (all_of pdf_inside) (all_of Lex_Spec.word_char) (all_of Lex_Spec.word_char).

(** *** The layout: one row of a dictionary per line, indented by tabs; arrays on one line *)
Fixpoint joined (sep : list ascii) (l : list (list ascii)) : list ascii :=
  match l with [] => [] | [t] => t | t :: l' => t ++ sep ++ joined sep l' end.
Section Layout.
Variable bag bag_end item row : list ascii.
Variable key : string -> list ascii.
Variable leaf : value -> list ascii -> Prop.
Inductive Laid : nat -> value -> list ascii -> Prop :=
| L_leaf d v t : leaf v t -> Laid d v t
| L_no_items d : Laid d (VArr []) (chars "[ ]")
| L_items d l ts : l <> [] -> Forall2 (Laid d) l ts -> Laid d (VArr l) (chars "[ " ++ joined item ts ++ chars " ]")
| L_no_rows d : Laid d (VDict []) (bag ++ chars " " ++ bag_end)
| L_rows d dd rows ts : dd <> [] -> Permutation dd rows -> StronglySorted (fun x y => XmlOut_Spec.before (fst x) (fst y)) rows ->
    Forall2 (fun kv t => Laid (S d) (snd kv) t) rows ts ->
    Laid d (VDict dd) (bag ++
      joined row (map (fun kt => XmlOut_Spec.newline ++ XmlOut_Spec.tabs (S d) ++ key (fst kt) ++ snd kt) (combine (map fst rows) ts)) ++
      XmlOut_Spec.newline ++ XmlOut_Spec.tabs d ++ bag_end).
End Layout.
Section Leaves.
Variable show : spec_float -> list ascii.
Inductive number_text : value -> list ascii -> Prop :=
| nt_int f z : XmlOut_Spec.is_integer f z -> number_text (VNum f) (chars (NilZero.string_of_int (Z.to_int z)))
| nt_double f : (forall z, ~ XmlOut_Spec.is_integer f z) -> number_text (VNum f) (show f).
Inductive js_text : value -> list ascii -> Prop :=
| jt_number v t : number_text v t -> js_text v t
| jt_true : js_text (VBool true) (chars "true")
| jt_false : js_text (VBool false) (chars "false")
| jt_string s : js_text (VStr s) (chars "'" ++ chars s ++ chars "'")
| jt_name n : js_text (VName n) (chars "new name('" ++ chars n ++ chars "')")
| jt_empty : js_text VEmpty (chars "nil").
Inductive pdf_text : value -> list ascii -> Prop :=
| pt_number v t : number_text v t -> pdf_text v t
| pt_true : pdf_text (VBool true) (chars "true")
| pt_false : pdf_text (VBool false) (chars "false")
| pt_string s : pdf_text (VStr s) (chars "(" ++ chars s ++ chars ")")
| pt_name n : pdf_text (VName n) (chars "/" ++ chars n)
| pt_empty : pdf_text VEmpty (chars "null").
Definition js_laid : nat -> value -> list ascii -> Prop :=
  Laid (chars "{") (chars "}") (chars ", ") (chars ",") (fun k => chars k ++ chars ": ") js_text.
Definition pdf_laid : nat -> value -> list ascii -> Prop :=
  Laid (chars "<<") (chars ">>") (chars " ") [] (fun k => chars "/" ++ chars k ++ chars " ") pdf_text.
End Leaves.
(** values with distinct keys, whose numbers convert to 64 bit integers, of no other type *)
Inductive plain : value -> Prop :=
| pl_num f : XmlOut_Spec.fits64 f -> plain (VNum f)
| pl_leaf v : match v with VBool _ | VStr _ | VName _ | VEmpty => True | _ => False end -> plain v
| pl_arr l : Forall plain l -> plain (VArr l)
| pl_dict d : NoDup (map fst d) -> Forall (fun kv => plain (snd kv)) d -> plain (VDict d).
