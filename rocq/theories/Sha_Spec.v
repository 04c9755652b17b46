(** FIPS 180-4 (Secure Hash Standard), written from the standard on strings of bits.
    Sections quoted are those of FIPS 180-4. *)
From Verif Require Import Prelude Blocks.
Local Open Scope N_scope.

(** 3.1: a bit string, most significant bit first, as a number; and back. *)
Definition be (bits : list bool) : N := fold_left (fun x (b : bool) => 2 * x + (if b then 1 else 0)) bits 0.
Fixpoint be_bits (n : nat) (x : N) : list bool :=
  match n with O => [] | S m => N.odd (x / 2 ^ N.of_nat m) :: be_bits m x end.
Definition bits_of_bytes (bytes : list N) : list bool := flat_map (be_bits 8) bytes.

(** 5.1: padding to a multiple of 16w bits: a one, the least number of zeros, the length on 2w bits. *)
Definition pad (w : nat) (msg : list bool) : list bool :=
  let block := (16 * w)%nat in
  let used := ((length msg + 1) mod block)%nat in
  msg ++ [true] ++ repeat false ((block + 14 * w - used) mod block)%nat
      ++ be_bits (2 * w) (N.of_nat (length msg)).

(** 5.2: the 16 words of a block. *)
Definition words (w : nat) (block : list bool) : list N :=
  map (fun i => be (firstn w (skipn (i * w) block))) (seq 0 16).

(** 3.2: operations on w-bit words. *)
Definition ADD (w : N) (xs : list N) : N := fold_right N.add 0 xs mod 2 ^ w.
Definition NOT (w x : N) : N := 2 ^ w - 1 - x.
Definition ROTR (w n x : N) : N := x / 2 ^ n + (x mod 2 ^ n) * 2 ^ (w - n).
Definition ROTL (w n x : N) : N := (x mod 2 ^ (w - n)) * 2 ^ n + x / 2 ^ (w - n).
Definition SHR (n x : N) : N := x / 2 ^ n.

(** 4.1 *)
Definition Ch (w x y z : N) : N := N.lxor (N.land x y) (N.land (NOT w x) z).
Definition Parity (x y z : N) : N := N.lxor x (N.lxor y z).
Definition Maj (x y z : N) : N := N.lxor (N.land x y) (N.lxor (N.land x z) (N.land y z)).
Definition xor3 (x y z : N) : N := N.lxor x (N.lxor y z).

(** 4.2: constants.  K of SHA-256/512 are the first 32/64 bits of the fractional parts of the
    cube roots of the first primes; 5.3: initial values from square roots. *)
Definition primes : list N :=
  filter (fun n => forallb (fun d => negb (n mod N.of_nat d =? 0)) (seq 2 (N.to_nat n - 2)))
         (map N.of_nat (seq 2 408)).
(** floor of the cube root of [x] below 2^k *)
Fixpoint cbrt_bits (k : nat) (x r : N) : N :=
  match k with
  | O => r
  | S k => let r' := r + 2 ^ N.of_nat k in cbrt_bits k x (if r' * r' * r' <=? x then r' else r)
  end.
Definition frac_cbrt (w p : N) : N := cbrt_bits (N.to_nat w + 3) (p * 2 ^ (3 * w)) 0 mod 2 ^ w.
Definition frac_sqrt (w p : N) : N := N.sqrt (p * 2 ^ (2 * w)) mod 2 ^ w.
Definition K256 : list N := map (frac_cbrt 32) (firstn 64 primes).
Definition K512 : list N := map (frac_cbrt 64) (firstn 80 primes).
(** 4.2.1: the four constants of SHA-1 are floor(2^30 sqrt(2, 3, 5, 10)). *)
Definition K1 (t : nat) : N :=
  N.sqrt (nth (t / 20)%nat [2; 3; 5; 10] 0 * 2 ^ 60).

(** 5.3 *)
Definition H1 : list N := [0x67452301; 0xefcdab89; 0x98badcfe; 0x10325476; 0xc3d2e1f0].
Definition H256 : list N := map (frac_sqrt 32) (firstn 8 primes).
Definition H224 : list N := map (fun p => frac_sqrt 64 p mod 2 ^ 32) (firstn 8 (skipn 8 primes)).
Definition H512 : list N := map (frac_sqrt 64) (firstn 8 primes).
Definition H384 : list N := map (frac_sqrt 64) (firstn 8 (skipn 8 primes)).

(** Message schedules, kept newest word first: [prev i l] is W(t-i). *)
Definition prev (i : nat) (l : list N) : N := nth (i - 1) l 0.
Fixpoint extend (f : list N -> N) (n : nat) (l : list N) : list N :=
  match n with O => l | S n => extend f n (f l :: l) end.
Definition schedule (f : list N -> N) (rounds : nat) (M : list N) : list N :=
  rev (extend f (rounds - 16) (rev M)).

(** 6.1.2 *)
Definition f1 (t : nat) (x y z : N) : N :=
  match (t / 20)%nat with 0%nat => Ch 32 x y z | 1%nat => Parity x y z
  | 2%nat => Maj x y z | _ => Parity x y z end.
Definition compress1 (h : list N) (M : list N) : list N :=
  let W := schedule (fun l => ROTL 32 1 (N.lxor (prev 3 l) (N.lxor (prev 8 l)
                                 (N.lxor (prev 14 l) (prev 16 l))))) 80 M in
  let step r t :=
    match r with
    | [a; b; c; d; e] =>
      [ADD 32 [ROTL 32 5 a; f1 t b c d; e; K1 t; nth t W 0]; a; ROTL 32 30 b; c; d]
    | _ => [] end in
  map (fun '(x, y) => ADD 32 [x; y]) (combine h (fold_left step (seq 0 80) h)).

(** 6.2.2 and 6.4.2, which differ only in the parameters. *)
Definition compress2 (w : N) (rounds : nat) (K : list N) (S0 S1 s0 s1 : N -> N) (h M : list N) : list N :=
  let W := schedule (fun l => ADD w [s1 (prev 2 l); prev 7 l; s0 (prev 15 l); prev 16 l]) rounds M in
  let step r t :=
    match r with
    | [a; b; c; d; e; f; g; h] =>
      let T1 := ADD w [h; S1 e; Ch w e f g; nth t K 0; nth t W 0] in
      let T2 := ADD w [S0 a; Maj a b c] in
      [ADD w [T1; T2]; a; b; c; ADD w [d; T1]; e; f; g]
    | _ => [] end in
  map (fun '(x, y) => ADD w [x; y]) (combine h (fold_left step (seq 0 rounds) h)).

Definition compress256 : list N -> list N -> list N :=
  compress2 32 64 K256
    (fun x => xor3 (ROTR 32 2 x) (ROTR 32 13 x) (ROTR 32 22 x))
    (fun x => xor3 (ROTR 32 6 x) (ROTR 32 11 x) (ROTR 32 25 x))
    (fun x => xor3 (ROTR 32 7 x) (ROTR 32 18 x) (SHR 3 x))
    (fun x => xor3 (ROTR 32 17 x) (ROTR 32 19 x) (SHR 10 x)).
Definition compress512 : list N -> list N -> list N :=
  compress2 64 80 K512
    (fun x => xor3 (ROTR 64 28 x) (ROTR 64 34 x) (ROTR 64 39 x))
    (fun x => xor3 (ROTR 64 14 x) (ROTR 64 18 x) (ROTR 64 41 x))
    (fun x => xor3 (ROTR 64 1 x) (ROTR 64 8 x) (SHR 7 x))
    (fun x => xor3 (ROTR 64 19 x) (ROTR 64 61 x) (SHR 6 x)).

(** The five hash functions. *)
Inductive variant := SHA1 | SHA224 | SHA256 | SHA384 | SHA512.
Definition word_size (v : variant) : nat :=
  match v with SHA1 | SHA224 | SHA256 => 32 | SHA384 | SHA512 => 64 end.
Definition initial (v : variant) : list N :=
  match v with SHA1 => H1 | SHA224 => H224 | SHA256 => H256 | SHA384 => H384 | SHA512 => H512 end.
Definition compress (v : variant) : list N -> list N -> list N :=
  match v with SHA1 => compress1 | SHA224 | SHA256 => compress256 | SHA384 | SHA512 => compress512 end.
Definition output_words (v : variant) : nat :=
  match v with SHA1 => 5 | SHA224 => 7 | SHA256 => 8 | SHA384 => 6 | SHA512 => 8 end.

(** 6.1-6.5: the message digest, as a list of words. *)
Definition sha (v : variant) (msg : list bool) : list N :=
  let w := word_size v in
  let blocks := map (words w) (chunks (16 * w) (pad w msg)) in
  firstn (output_words v) (fold_left (compress v) blocks (initial v)).
