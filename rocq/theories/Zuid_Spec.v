(** What the zuid_t properties (C96-C99) say, independently of the code: the text of a UUID
    (RFC 4122 section 3), the order of UUIDs, name based UUIDs (section 4.3). *)
From Verif Require Import Prelude Zuid_Model.
From Verif Require MD5_Spec.
Local Open Scope N_scope.

(** A UUID: 32, 16, 16 bits and eight bytes. *)
Definition legal (u : uuid) : Prop :=
  d1 u < 2 ^ 32 /\ d2 u < 2 ^ 16 /\ d3 u < 2 ^ 16 /\ length (d4 u) = 8%nat /\ Forall (fun b => b < 256) (d4 u).

(** The sixteen bytes of a UUID, most significant byte of each field first. *)
Definition octets (u : uuid) : list N :=
  [d1 u / 2 ^ 24; d1 u / 2 ^ 16 mod 256; d1 u / 2 ^ 8 mod 256; d1 u mod 256;
   d2 u / 256; d2 u mod 256; d3 u / 256; d3 u mod 256] ++ d4 u.

(** The sixteen hexadecimal digits, as characters. *)
Inductive digit : N -> N -> Prop :=   (* character, value *)
| Dec : forall v, v < 10 -> digit (48 + v) v          (* '0' .. '9' *)
| Low : forall v, 10 <= v < 16 -> digit (87 + v) v    (* 'a' .. 'f' *)
| Upp : forall v, 10 <= v < 16 -> digit (55 + v) v.   (* 'A' .. 'F' *)

(** [hex cs n]: the characters [cs] are digits and denote [n]. *)
Inductive hex : list N -> N -> Prop :=
| HNil : hex [] 0
| HSnoc : forall cs n c v, hex cs n -> digit c v -> hex (cs ++ [c]) (16 * n + v).

(** [octet_text cs bs]: two digits for each byte. *)
Inductive octet_text : list N -> list N -> Prop :=
| ONil : octet_text [] []
| OCons : forall a b x cs bs, hex [a; b] x -> octet_text cs bs -> octet_text (a :: b :: cs) (x :: bs).

(** [uuid_text t u]: [t] is the text xxxxxxxx-xxxx-xxxx-xxxx-xxxxxxxxxxxx of [u], digits in either
    case. *)
Definition uuid_text (t : list N) (u : uuid) : Prop :=
  exists a b c d e db eb,
    t = a ++ [45] ++ b ++ [45] ++ c ++ [45] ++ d ++ [45] ++ e /\
    length a = 8%nat /\ hex a (d1 u) /\
    length b = 4%nat /\ hex b (d2 u) /\
    length c = 4%nat /\ hex c (d3 u) /\
    length d = 4%nat /\ octet_text d db /\
    length e = 12%nat /\ octet_text e eb /\
    d4 u = db ++ eb.

(** No capital letters. *)
Definition lower_case (t : list N) : Prop := Forall (fun c => ~ (65 <= c <= 90)) t.

(** Lexicographic order. *)
Inductive lex_lt : list N -> list N -> Prop :=
| LHead : forall x y a b, x < y -> lex_lt (x :: a) (y :: b)
| LTail : forall x a b, lex_lt a b -> lex_lt (x :: a) (x :: b)
| LEnd : forall y b, lex_lt [] (y :: b).

(** RFC 4122 section 4.3: the name based UUID of [name] in the name space [ns]: the MD5 digest of
    the octets of [ns] followed by the name, with the four bits of the version (3) and the two
    bits of the variant (binary 10) written over it. *)
Definition version_and_variant (h : list N) : list N :=
  upd (upd h 6 (3 * 16 + nth 6 h 0 mod 16)) 8 (128 + nth 8 h 0 mod 64).
Definition name_uuid_octets (ns : uuid) (name : list N) : list N :=
  version_and_variant (MD5_Spec.md5 (octets ns ++ name)).
