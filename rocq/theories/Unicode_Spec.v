(** Independent specification of the Unicode encoding forms (Unicode standard, D76, D90-D92,
    table 3-7), written with plain arithmetic. *)
From Verif Require Import Prelude.
Local Open Scope N_scope.

(** D76: Unicode scalar values. *)
Definition scalar (c : N) : Prop := c < 0xD800 \/ 0xE000 <= c < 0x110000.

(** D92: UTF-8. *)
Definition utf8 (c : N) : list N :=
  if c <? 0x80 then [c]
  else if c <? 0x800 then [0xC0 + c / 64; 0x80 + c mod 64]
  else if c <? 0x10000 then [0xE0 + c / 4096; 0x80 + c / 64 mod 64; 0x80 + c mod 64]
  else [0xF0 + c / 262144; 0x80 + c / 4096 mod 64; 0x80 + c / 64 mod 64; 0x80 + c mod 64].

(** D91: UTF-16. *)
Definition utf16 (c : N) : list N :=
  if c <? 0x10000 then [c]
  else [0xD800 + (c - 0x10000) / 1024; 0xDC00 + (c - 0x10000) mod 1024].

Definition utf32 (c : N) : list N := [c].

(** Table 3-7, well-formed UTF-8 byte sequences. *)
Definition within (lo hi b : N) : bool := (lo <=? b) && (b <=? hi).
Definition well_formed_utf8 (bs : list N) : bool :=
  let t := within 0x80 0xBF in
  match bs with
  | [a] => within 0 0x7F a
  | [a; b] => within 0xC2 0xDF a && t b
  | [a; b; c] =>
      ((a =? 0xE0) && within 0xA0 0xBF b && t c)
      || (within 0xE1 0xEC a && t b && t c)
      || ((a =? 0xED) && within 0x80 0x9F b && t c)
      || (within 0xEE 0xEF a && t b && t c)
  | [a; b; c; d] =>
      ((a =? 0xF0) && within 0x90 0xBF b && t c && t d)
      || (within 0xF1 0xF3 a && t b && t c && t d)
      || ((a =? 0xF4) && within 0x80 0x8F b && t c && t d)
  | _ => false
  end.
