(** Specification for the XML serializer: the text of a value, well-formed content, and the values
    that can be written.  Nothing of the serializer's model is used; values, the entity escape and the XML names
    are those of Vm_Value, Entity_Model and Xml_Spec. *)
From Coq Require Import String Ascii ZArith Permutation Sorted Floats.SpecFloat DecimalString.
From Verif Require Import Prelude Vm_Value Entity_Model.
From Verif Require Xml_Spec.
From Coq Require Import List.
Import ListNotations.

Notation chars := list_ascii_of_string (only parsing).
Definition newline : list ascii := ["010"%char].
Definition tabs (d : nat) : list ascii := repeat "009"%char d.
Definition tagged (t : string) (x : list ascii) : list ascii :=
  (chars "<" ++ chars t ++ chars ">") ++ x ++ (chars "</" ++ chars t ++ chars ">").
(** the bytes of a text *)
Definition bytes_of_text (t : list ascii) : list N := map N_of_ascii t.

(** The double [f] is the integer [z]; it converts to a 64 bit integer *)
Definition is_integer (f : spec_float) (z : Z) : Prop :=
  match f with
  | S754_zero _ => z = 0%Z
  | S754_finite s m e =>
    ((0 <= e /\ z = (if s then - (Zpos m * 2 ^ e) else Zpos m * 2 ^ e)) \/
     (e < 0 /\ (if s then - Zpos m else Zpos m) = z * 2 ^ (- e)))%Z
  | _ => False
  end.
Definition fits64 (f : spec_float) : Prop := exists z, f_trunc f = Some z /\ (- 2 ^ 63 <= z < 2 ^ 63)%Z.

(** keys in the order of strcmp *)
Fixpoint before (a b : string) : Prop :=
  match a, b with
  | _, EmptyString => False
  | EmptyString, String _ _ => True
  | String x a', String y b' => (N_of_ascii x < N_of_ascii y)%N \/ x = y /\ before a' b'
  end.

Section Written.
Variable show : spec_float -> list ascii.        (* a double that is not an integer *)
Variable type_text : value -> list ascii.        (* the name of a type *)
Variable code_index : list entry.

(** [Written d v t]: at depth [d] the value [v] is written as [t] *)
Inductive Written : nat -> value -> list ascii -> Prop :=
| W_str d s e : bytes_of_text e = entity_escape code_index (bs s) -> Written d (VStr s) (tagged "string" e)
| W_name d n : Written d (VName n) (tagged "ident" (chars n))
| W_true d : Written d (VBool true) (tagged "bool" (chars "true"))
| W_false d : Written d (VBool false) (tagged "bool" (chars "false"))
| W_int d f z : is_integer f z -> Written d (VNum f) (tagged "integer" (chars (NilZero.string_of_int (Z.to_int z))))
| W_double d f : (forall z, ~ is_integer f z) -> Written d (VNum f) (tagged "double" (show f))
| W_empty d : Written d VEmpty (chars "<empty/>")
| W_other d v : match v with VSize _ | VOther _ => True | _ => False end -> Written d v (tagged "xml_unknown" (type_text v))
| W_arr d l ts : Forall2 (Written (S d)) l ts ->
    Written d (VArr l) (chars "<array>" ++ newline ++ concat (map (fun t => tabs (S d) ++ t ++ newline) ts) ++ tabs d ++ chars "</array>")
| W_dict d dd rows ts : Permutation dd rows -> StronglySorted (fun x y => before (fst x) (fst y)) rows ->
    Forall2 (fun kv t => Written (S d) (snd kv) t) rows ts ->
    Written d (VDict dd) (chars "<dict>" ++ newline ++
      concat (map (fun kt => tabs (S d) ++ tagged "key" (chars (fst kt)) ++ newline ++ tabs (S d) ++ snd kt ++ newline)
                  (combine (map fst rows) ts)) ++ tabs d ++ chars "</dict>").
End Written.

(** Well-formed content of an element: text without markup, references, elements. *)
Inductive Content : list N -> Prop :=
| C_end : Content []
| C_char c r : c <> 60%N -> c <> 62%N -> c <> 38%N -> Content r -> Content (c :: r)
| C_ref b r : ~ In 59%N b -> Content r -> Content (38%N :: b ++ 59%N :: r)
| C_elem nm x r : Xml_Spec.xname nm -> Content x -> Content r ->
    Content (60%N :: nm ++ 62%N :: x ++ 60%N :: 47%N :: nm ++ 62%N :: r)
| C_empty nm r : Xml_Spec.xname nm -> Content r -> Content (60%N :: nm ++ 47%N :: 62%N :: r).

(** Text without markup *)
Definition tidy (t : list ascii) : Prop := Forall (fun c => c <> "<"%char /\ c <> ">"%char /\ c <> "&"%char) t.
(** Distinct keys, numbers that convert, names and printed numbers without markup. *)
Inductive clean (show : spec_float -> list ascii) (type_text : value -> list ascii) : value -> Prop :=
| cl_num f : fits64 f -> tidy (show f) -> clean show type_text (VNum f)
| cl_bool b : clean show type_text (VBool b)
| cl_str s : clean show type_text (VStr s)
| cl_name n : tidy (chars n) -> clean show type_text (VName n)
| cl_nothing : clean show type_text VEmpty
| cl_other v : match v with VSize _ | VOther _ => True | _ => False end -> tidy (type_text v) -> clean show type_text v
| cl_arr l : Forall (clean show type_text) l -> clean show type_text (VArr l)
| cl_dict d : NoDup (map fst d) -> Forall (fun kv => tidy (chars (fst kv)) /\ clean show type_text (snd kv)) d ->
    clean show type_text (VDict d).
(** Values whose text tells them apart: no other types, and numbers that are integers. *)
Inductive exact : value -> Prop :=
| ex_num f z : is_integer f z -> f = f_of_Z z -> exact (VNum f)
| ex_leaf v : match v with VBool _ | VStr _ | VName _ | VEmpty => True | _ => False end -> exact v
| ex_arr l : Forall exact l -> exact (VArr l)
| ex_dict d : Forall (fun kv => exact (snd kv)) d -> exact (VDict d).
