(** Model of adobe::fnv1a — /repo/adobe/fnv.hpp:87-305.
    The iterator's value_type has size 1 but may be signed (plain char): an element is a Z,
    and static_cast<result_type> reduces it modulo 2^bits (so a negative char becomes a large
    number, for the built-in types and for boost::multiprecision alike). *)
From Verif Require Import Prelude.
Local Open Scope N_scope.

(** fnv.hpp:89-98; 0 means "no such traits": the program does not compile *)
Definition rollup (n : N) : N :=
  if n =? 0 then 0 else if n <=? 32 then 32 else if n <=? 64 then 64 else if n <=? 128 then 128
  else if n <=? 256 then 256 else if n <=? 512 then 512 else if n <=? 1024 then 1024 else 0.

(** fnv.hpp:107-199 *)
Definition prime (size : N) : N :=
  if size =? 32 then 0x1000193
  else if size =? 64 then 0x100000001b3
  else if size =? 128 then 0x1000000000000000000013B
  else if size =? 256 then 0x1000000000000000000000000000000000000000163
  else if size =? 512 then 0x100000000000000000000000000000000000000000000000000000000000000000000000000000000000157
  else 0x10000000000000000000000000000000000000000000000000000000000000000000000000000000000000000000000000000000000000000000000000000000000000000000000000000000000000000000000018D.
Definition offset_basis (size : N) : N :=
  if size =? 32 then 0x811c9dc5
  else if size =? 64 then 0xcbf29ce484222325
  else if size =? 128 then 0x6C62272E07BB014262B821756295C58D
  else if size =? 256 then 0xDD268DBCAAC550362D98C384C4E576CCC8B1536847B6BBB31023B4C8CAEE0535
  else if size =? 512 then 0xB86DB0B1171F4416DCA1E50F309990ACAC87D059C90000000000000000000D21E948F68A34C192F62EA79BC942DBE7CE182036415F56E34BAC982AAC4AFE9FD9
  else 0x5F7A76758ECC4D32E56D5A591028B74B29FC4223FDADA16C3BF34EDA3674DA9A21D9000000000000000000000000000000000000000000000000000000000000000000000000000000000000000000000000000004C6D7EB6E73802734510A555F256CC005AE556BDE8CC9C6A93B21AFF4B16C71EE90B3.

(** fnv.hpp:203-217 *)
Definition mask (from to value : N) : N :=
  if from =? to then value else N.land value (N.shiftl 1 to - 1).

(** static_cast<result_type>(c) *)
Definition cast (size : N) (c : Z) : N := Z.to_N (c mod 2 ^ Z.of_N size).

(** the body of both loops, fnv.hpp:267 and 291 *)
Definition step (size result : N) (c : Z) : N :=
  (N.lxor result (cast size c) * prime size) mod 2 ^ size.

(** fnv.hpp:281-294 fnv1a(first, last) *)
Definition fnv1a (bits : N) (range : list Z) : N :=
  let size := rollup bits in
  mask size bits (fold_left (step size) range (offset_basis size)).

(** fnv.hpp:257-270 fnv1a(first, p): hash until the predicate holds; running off the memory is
    undefined ([None]) *)
Fixpoint fnv1a_until_loop (size : N) (p : Z -> bool) (memory : list Z) (result : N) : option N :=
  match memory with
  | [] => None
  | c :: rest => if p c then Some result else fnv1a_until_loop size p rest (step size result c)
  end.
Definition fnv1a_until (bits : N) (memory : list Z) (p : Z -> bool) : option N :=
  let size := rollup bits in
  option_map (mask size bits) (fnv1a_until_loop size p memory (offset_basis size)).
