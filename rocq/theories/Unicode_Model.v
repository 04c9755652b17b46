(** Model of adobe::copy_utf and its helpers — /repo/adobe/unicode.hpp:27-565.
    Code units and code points are N (UTF-8 code units 0..255, UTF-16 0..65535, UTF-32 and
    std::uint32_t 0..2^32-1). Iterator ranges are lists; reading *first on an empty range is
    the undefined outcome [None]. The model is that of a release build: ADOBE_ASSERT
    (adobe/cassert.hpp:32) has no effect.  Uninitialised variables hold an arbitrary value,
    passed in as [junk]. *)
From Verif Require Import Prelude.
Local Open Scope N_scope.

Definition pivot_1 := 128. (* unicode.hpp:39 *)
Definition pivot_3 := 224. (* unicode.hpp:41 *)
Definition pivot_4 := 240. (* unicode.hpp:42 *)
Definition pivot_5 := 248. (* unicode.hpp:43 *)

(** unicode.hpp:52-72 utf8_header_t; index 0 = continuation bytes. *)
Definition header (nbytes : N) : N :=
  if nbytes =? 2 then 192 else if nbytes =? 3 then 224 else if nbytes =? 4 then 240 else 128.

(** unicode.hpp:92-101: [code & ~Mask] for a byte: Mask is a negative char, so ~Mask (as
    int) is 255 - Mask on the low byte and zero above it. *)
Definition strip_mask (mask code : N) : N := N.land code (255 - mask).

(** unicode.hpp:77-86 *)
Definition add_mask (mask code : N) : N := N.lor code mask.

(** unicode.hpp:105-113 promote_fragment<Position> *)
Definition promote_fragment (position fragment : N) : N := N.shiftl fragment ((position - 1) * 6).

(** unicode.hpp:120-128 demote_fragment<Position> *)
Definition demote_fragment (position fragment : N) : N :=
  N.land (N.shiftr fragment ((position - 1) * 6)) 63.

(** unicode.hpp:139-161 demotion_engine_t<T,ByteCount,Header>. *)
Fixpoint demote (bytes : nat) (is_header : bool) (code : N) : list N :=
  match bytes with
  | O => []
  | S b => add_mask (header (if is_header then N.of_nat bytes else 0))
             (demote_fragment (N.of_nat bytes) code) :: demote b false code
  end.

(** unicode.hpp:164-197 promotion_engine_t<ByteCount,Header>: result and remaining input. *)
Fixpoint promote (bytes : nat) (is_header : bool) (first : list N) : option (N * list N) :=
  match bytes, first with
  | O, _ => Some (0, first)
  | _, [] => None                                             (* *first at the end *)
  | S b, n :: rest =>
    let stripped := strip_mask (header (if is_header then N.of_nat bytes else 0)) n in
    let shifted := promote_fragment (N.of_nat bytes) stripped in
    match b with
    | O => Some (shifted, rest)                               (* promotion_engine_t<1,false> *)
    | S _ =>
      match rest with
      | [] => Some (0, [])                                    (* ran out of input *)
      | _ => match promote b false rest with
             | Some (r, rest') => Some (N.lor shifted r, rest')
             | None => None
             end
      end
    end
  end.

(** unicode.hpp:202-229 to_utf32 for UTF-16; [result] is the variable's value on entry.
    (trail - 0xDC00) may be negative in C++, the sum is not: 0x10000 > 0xDC00. *)
Definition to_utf32_16 (first : list N) (result : N) : option (N * list N) :=
  match first with
  | [] => None
  | code :: rest =>
    if code <? 0xD800 then Some (code, rest)
    else if code <? 0xDC00 then
      match rest with
      | [] => Some (result, [])                     (* returns without assigning result *)
      | trail :: rest' => Some (N.shiftl (code - 0xD800) 10 + trail + 0x10000 - 0xDC00, rest')
      end
    else Some (code, rest)
  end.

(** unicode.hpp:233-258 to_utf32 for UTF-8. *)
Definition to_utf32_8 (first : list N) (result : N) : option (N * list N) :=
  match first with
  | [] => None
  | n :: rest =>
    if n <? pivot_1 then Some (n, rest)
    else if n <? pivot_3 then promote 2 true first
    else if n <? pivot_4 then promote 3 true first
    else if n <? pivot_5 then promote 4 true first
    else Some (result, first)                       (* assert only: first is not advanced *)
  end.

(** unicode.hpp:262-267 to_utf32 for UTF-32. *)
Definition to_utf32_32 (first : list N) (result : N) : option (N * list N) :=
  match first with [] => None | c :: rest => Some (c, rest) end.

(** unicode.hpp:276-293 *)
Definition utf32_to_utf8 (code : N) : list N :=
  if code <? 2 ^ 7 then [code]
  else if code <? 2 ^ 11 then demote 2 true code
  else if code <? 2 ^ 16 then demote 3 true code
  else if code <? 2 ^ 21 then demote 4 true code
  else [].

(** unicode.hpp:301-317; T is a 16 bit type, so static_cast<T> keeps the low 16 bits. *)
Definition utf32_to_utf16 (code : N) : list N :=
  if code <? 0x10000 then [code]
  else [(N.shiftr (code - 0x10000) 10 + 0xD800) mod 2 ^ 16;
        N.land (code - 0x10000) 0x03FF + 0xDC00].

Inductive width := W8 | W16 | W32.

(** Overloads of to_utf32, unicode.hpp:202-267. *)
Definition to_utf32 (w : width) : list N -> N -> option (N * list N) :=
  match w with W8 => to_utf32_8 | W16 => to_utf32_16 | W32 => to_utf32_32 end.

(** What is written for one decoded code point: unicode.hpp:350, 390, 445. *)
Definition emit (w : width) (code : N) : list N :=
  match w with W8 => utf32_to_utf8 code | W16 => utf32_to_utf16 code | W32 => [code] end.

(** The result variable on entry of an iteration: a fresh uninitialised local for the 8 and 16
    bit targets (unicode.hpp:345, 385); for the 32 bit target it is declared outside the loop
    (unicode.hpp:440) and keeps its previous value. *)
Definition entry_value (dst : width) (junk prev : N) : N :=
  match dst with W32 => prev | _ => junk end.

(** At most [fuel] iterations of the while loop of unicode.hpp:344-351, 366-369, 384-391,
    418-421, 442-446. [junk] supplies the uninitialised values, indexed by iterations left.
    Result: remaining input and everything written so far. *)
Fixpoint iterate (fuel : nat) (src dst : width) (junk : nat -> N) (prev : N)
         (first : list N) (out : list N) : option (list N * list N) :=
  match fuel with
  | O => Some (first, out)
  | S f =>
    match first with
    | [] => Some (first, out)
    | _ =>
      match to_utf32 src first (entry_value dst (junk f) prev) with
      | None => None
      | Some (code, rest) => iterate f src dst junk code rest (out ++ emit dst code)
      end
    end
  end.

(** unicode.hpp:428-449 and 548-551 copy_utf<T>(f, l, o) after at most [fuel] iterations: same
    width 8->8 and 16->16 is std::copy (unicode.hpp:328-331, 403-406). *)
Definition copy_utf (fuel : nat) (src dst : width) (junk : nat -> N) (input : list N)
  : option (list N * list N) :=
  match src, dst with
  | W8, W8 | W16, W16 => Some ([], input)
  | _, _ => iterate fuel src dst junk (junk fuel) input []
  end.

(** unicode.hpp:453-493 expand_utf_t<A,B> *)
Definition expand_utf (src dst : width) : nat :=
  match src, dst with
  | W16, W8 => 3 | W32, W8 => 4 | W32, W16 => 2 | _, _ => 1
  end%nat.
