(** Specification for the CEL serializer: which values can be written as CEL, and when two values are the
    same value.  Nothing of the serializer's model is used. *)
From Coq Require Import String Ascii ZArith Permutation Floats.SpecFloat.
From Verif Require Import Prelude Vm_Value Expr_Model Lex_Spec.
From Coq Require Import List.
Import ListNotations.

(** the same value: dictionaries do not have an order *)
Inductive same : value -> value -> Prop :=
| same_arr l l' : Forall2 same l l' -> same (VArr l) (VArr l')
| same_dict d d1 d' : Permutation d d1 -> Forall2 (fun x y => fst x = fst y /\ same (snd x) (snd y)) d1 d' -> same (VDict d) (VDict d')
| same_leaf v : match v with VArr _ | VDict _ => False | _ => True end -> same v v.

(** an identifier of the language *)
Definition word (s : string) : Prop :=
  exists c w, list_ascii_of_string s = c :: w /\ word_start c = true /\ all word_char w.
(** digits, and dots after the first *)
Definition decimal (w : list ascii) : Prop := exists c w', w = c :: w' /\ digit c = true /\ all dec_char w'.

(** the strings that come back: when entities are escaped, those of ASCII characters without a NUL;
    otherwise those without a double quote or a NUL *)
Definition text_ok (escape : bool) (s : string) : Prop :=
  if escape then Forall (fun c => (0 < code c < 128)%Z) (list_ascii_of_string s)
  else ~ In """"%char (list_ascii_of_string s) /\ ~ In "000"%char (list_ascii_of_string s).

Section Writable.
(** how a double is printed, and how a text of digits and dots is read *)
Variable show : spec_float -> list ascii.
Variable read : list ascii -> spec_float.
Variable keyword : string -> bool.
Variable text_ok : string -> Prop.      (* the strings considered *)
(** printed as a decimal number, with or without a sign, that reads back *)
Definition plain_number (f : spec_float) : Prop :=
  exists w, decimal w /\ (show f = w /\ read w = f \/ show f = "-"%char :: w /\ read w = SFopp f).
Inductive writable : value -> Prop :=
| w_num f : plain_number f -> writable (VNum f)
| w_bool b : writable (VBool b)
| w_str s : text_ok s -> writable (VStr s)
| w_name n : word n -> writable (VName n)
| w_empty : writable VEmpty
| w_arr l : Forall writable l -> writable (VArr l)
| w_dict d : NoDup (map fst d) -> Forall (fun kv => word (fst kv) /\ keyword (fst kv) = false /\ writable (snd kv)) d ->
    writable (VDict d).
End Writable.
