(** The FNV hash of Fowler, Noll and Vo, from its published definition
    (draft-eastlake-fnv: FNV primes 256^t + 2^8 + b, offset basis = FNV-0 of the signature string). *)
From Verif Require Import Prelude.
Local Open Scope N_scope.

Inductive width := W32 | W64 | W128 | W256 | W512 | W1024.
Definition bits (w : width) : N :=
  match w with W32 => 32 | W64 => 64 | W128 => 128 | W256 => 256 | W512 => 512 | W1024 => 1024 end.

Definition FNV_prime (w : width) : N :=
  match w with
  | W32   => 2 ^ 24  + 2 ^ 8 + 0x93
  | W64   => 2 ^ 40  + 2 ^ 8 + 0xb3
  | W128  => 2 ^ 88  + 2 ^ 8 + 0x3b
  | W256  => 2 ^ 168 + 2 ^ 8 + 0x63
  | W512  => 2 ^ 344 + 2 ^ 8 + 0x57
  | W1024 => 2 ^ 680 + 2 ^ 8 + 0x8d
  end.

(** FNV-0: multiply, then xor, from zero. *)
Definition fnv0 (w : width) (octets : list N) : N :=
  fold_left (fun h o => N.lxor ((h * FNV_prime w) mod 2 ^ bits w) o) octets 0.

(** "chongo <Landon Curt Noll> /\../\" in ASCII *)
Definition signature : list N :=
  [99;104;111;110;103;111;32;60;76;97;110;100;111;110;32;67;117;114;116;32;78;111;108;108;62;32;47;92;46;46;47;92].

(** FNV-1a: xor, then multiply, from the offset basis. *)
Definition fnv1a (w : width) (octets : list N) : N :=
  fold_left (fun h o => (N.lxor h o * FNV_prime w) mod 2 ^ bits w) octets (fnv0 w signature).

(** The width used for a [b]-bit result: the smallest sufficient one. *)
Definition is_width_for (b : N) (w : width) : Prop :=
  0 < b <= bits w /\ forall w', b <= bits w' -> bits w <= bits w'.
