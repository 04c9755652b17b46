(** The operators adobe/enum_ops.hpp gives an enumeration.  An enumeration is its underlying type: an
    integer type of 1 to 64 bits; int has 32.  [None] is undefined behaviour. *)
From Coq Require Import ZArith Bool.
Open Scope Z_scope.

Record itype := mk_itype { width : Z; signed : bool }.
Definition int_t : itype := mk_itype 32 true.
Definition lowest (t : itype) : Z := if signed t then - 2 ^ (width t - 1) else 0.
Definition highest (t : itype) : Z := if signed t then 2 ^ (width t - 1) - 1 else 2 ^ width t - 1.
Definition fits (t : itype) (x : Z) : bool := (lowest t <=? x) && (x <=? highest t).
(** the integral promotions (and with them the usual conversions: both operands have the same type) *)
Definition promote (t : itype) : itype := if width t <? 32 then int_t else t.
(** static_cast to the underlying type (modular, as every compiler has it and C++20 says) *)
Definition wrap (t : itype) (x : Z) : Z := (x - lowest t) mod 2 ^ width t + lowest t.
(** the result of an operation whose exact result is [z], computed in the promoted type and cast back *)
Definition computed (t : itype) (z : Z) : option Z :=
  let p := promote t in
  if signed p then (if fits p z then Some (wrap t z) else None) else Some (wrap t (wrap p z)).

(** 63-119: the bitset operators, where nothing overflows *)
Definition bit_and (t : itype) (x y : Z) : Z := wrap t (Z.land x y).
Definition bit_not (t : itype) (x : Z) : Z := wrap t (Z.lnot x).
Definition bit_or (t : itype) (x y : Z) : Z := wrap t (Z.lor x y).
Definition bit_xor (t : itype) (x y : Z) : Z := wrap t (Z.lxor x y).
(** 121-252: the arithmetic operators *)
Definition plus_of (t : itype) (x : Z) : option Z := computed t x.
Definition minus_of (t : itype) (x : Z) : option Z := computed t (- x).
Definition add (t : itype) (x y : Z) : option Z := computed t (x + y).
Definition sub (t : itype) (x y : Z) : option Z := computed t (x - y).
Definition mul (t : itype) (x y : Z) : option Z := computed t (x * y).
Definition div (t : itype) (x y : Z) : option Z := if y =? 0 then None else computed t (Z.quot x y).
Definition rem (t : itype) (x y : Z) : option Z :=
  if y =? 0 then None else match computed t (Z.quot x y) with None => None | Some _ => computed t (Z.rem x y) end.
(** the prefix and postfix operators: the new value, and what the expression yields *)
Definition pre_inc (t : itype) (x : Z) : option (Z * Z) := match add t x (wrap t 1) with Some r => Some (r, r) | None => None end.
Definition post_inc (t : itype) (x : Z) : option (Z * Z) := match add t x (wrap t 1) with Some r => Some (r, x) | None => None end.
Definition pre_dec (t : itype) (x : Z) : option (Z * Z) := match sub t x (wrap t 1) with Some r => Some (r, r) | None => None end.
Definition post_dec (t : itype) (x : Z) : option (Z * Z) := match sub t x (wrap t 1) with Some r => Some (r, x) | None => None end.
