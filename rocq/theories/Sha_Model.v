(** Model of adobe::sha<Traits> and its five traits classes — /repo/adobe/sha.hpp:36-955.
    An unsigned W-bit word is an N below 2^W, with explicit truncation after every operation
    that can overflow (several additions in one expression are truncated once: on unsigned
    words that is the same value).  Bytes are N below 256.  [None] is undefined behaviour: a read outside the
    input or the 16-word message block, or a violated assert. *)
From Verif Require Import Prelude.
Local Open Scope N_scope.

Section Word.
Variable W : N.   (* bits of value_type: 32 or 64 *)

(** conversion to value_type *)
Definition trunc (x : N) : N := x mod 2 ^ W.
(** ~x *)
Definition wnot (x : N) : N := N.lxor x (N.ones W).
(** sha.hpp:43-48 *)
Definition shr (n x : N) : N := N.shiftr x n.
(** sha.hpp:50-57 *)
Definition rotr (n x : N) : N := N.lor (N.shiftr x n) (trunc (N.shiftl x (W - n))).
(** sha.hpp:59-66 *)
Definition rotl (n x : N) : N := N.lor (trunc (N.shiftl x n)) (N.shiftr x (W - n)).
(** sha.hpp:70-73 *)
Definition ch (x y z : N) : N := N.lxor (N.land x y) (N.land (wnot x) z).
(** sha.hpp:75-78 *)
Definition parity (x y z : N) : N := N.lxor (N.lxor x y) z.
(** sha.hpp:80-83 *)
Definition maj (x y z : N) : N := N.lxor (N.lxor (N.land x y) (N.land x z)) (N.land y z).
End Word.

(** HashTraits: the word width, initial_state(), digest_message_block (new digest from the old
    one and the message block; the callers also clear the block and the stuffed size), and the
    number of words of digest_type. message_blocksize_k is 16*W and max_message_bitsize_k is
    2*W in all five classes (sha.hpp:508-509, 586-587, 657-658). *)
Record traits := Traits {
  wbits : N;
  initial_state : list N;
  digest_block : list N -> list N -> list N;
  digest_words : nat }.

Definition blocksize (T : traits) : N := 16 * wbits T.
Definition max_message_bitsize (T : traits) : N := 2 * wbits T.

(** A byte source: sha.hpp:128-163 (iterator and a number of bits), and sha.hpp:91-121 (a range),
    which is the same thing with 8 bits for every byte of the range: its bits_available() is 8
    until the range is exhausted and 0 then. *)
Record source := Src { mem : list N; sbits : N }.
Definition range_source (bytes : list N) : source := Src bytes (8 * N.of_nat (length bytes)).
(** sha.hpp:138 *)
Definition bits_available (s : source) : N := if 8 <? sbits s then 8 else sbits s.
(** sha.hpp:140: operator*; reading outside the memory is undefined *)
Definition deref (s : source) : option N := match mem s with [] => None | b :: _ => Some b end.
(** sha.hpp:143-147 *)
Definition next (s : source) : source := Src (tl (mem s)) (sbits s - bits_available s).

(** *dst |= v *)
Definition or_into (state : list N) (dst : nat) (v : N) : option (list N) :=
  match nth_error state dst with
  | None => None
  | Some x => Some (upd state dst (N.lor x v))
  end.

Section Engine.
Variable T : traits.
Let W := wbits T.

Record stuffing := Stuffing
  { st_state : list N; st_dst : nat; st_offset : N; st_count : N; st_bits : N; st_src : source }.

(** sha.hpp:204-221 *)
Fixpoint stuff_loop (fuel : nat) (shift : N) (s : stuffing) : option stuffing :=
  match fuel with
  | O => None
  | S fuel =>
    if (8 <=? st_bits s) && (8 <=? bits_available (st_src s)) then
      match deref (st_src s) with
      | None => None
      | Some b =>
        match or_into (st_state s) (st_dst s) (trunc W (N.shiftl (N.land b 0xff) shift)) with
        | None => None
        | Some state =>
          let '(dst, shift) := if shift =? 0 then (S (st_dst s), W - 8) else (st_dst s, shift - 8) in
          stuff_loop fuel shift
            (Stuffing state dst (st_offset s + 8) (st_count s + 8) (st_bits s - 8) (next (st_src s)))
        end
      end
    else Some s
  end.

(** sha.hpp:167-248: returns the new state, the new stuff_bit_offset, the number of stuffed
    bits and the advanced source. ADOBE_ASSERT(num_bits < 8), line 243, is the last test. *)
Definition stuff_into_state (state : list N) (offset num_bits : N) (src : source)
  : option (list N * N * N * source) :=
  let element := N.to_nat (offset / W) in
  let shift := W - 8 - offset mod W in
  match stuff_loop (S (N.to_nat num_bits)) shift (Stuffing state element offset 0 num_bits src) with
  | None => None
  | Some s =>
    if negb (st_bits s =? 0) && negb (bits_available (st_src s) =? 0) then
      let num_bits := N.min (st_bits s) (bits_available (st_src s)) in
      let message_end := W - st_offset s mod W in
      match deref (st_src s) with
      | None => None
      | Some b =>
        let v := N.land b 0xff in
        let v := if message_end <? 8 then N.shiftr v (8 - message_end)
                 else if 8 <? message_end then trunc W (N.shiftl v (message_end - 8))
                 else v in
        match or_into (st_state s) (st_dst s) v with
        | None => None
        | Some state =>
          if num_bits <? 8
          then Some (state, st_offset s + num_bits, st_count s + num_bits, next (st_src s))
          else None
        end
      end
    else Some (st_state s, st_offset s, st_count s, st_src s)
  end.

(** the members of class sha, sha.hpp:951-954 *)
Record sha := Sha { message_size : N; state : list N; state_digest : list N; stuffed_size : N }.

(** sha.hpp:785-787 *)
Definition init : sha := Sha 0 (repeat 0 16) (initial_state T) 0.

(** sha.hpp:296-309 *)
Fixpoint block_loop (fuel : nat) (avail : N) (o : sha) (src : source) : option sha :=
  match fuel with
  | O => None
  | S fuel =>
    if 0 <? bits_available src then
      match stuff_into_state (state o) (stuffed_size o) avail src with
      | None => None
      | Some (st, off, stuffed, src) =>
        let size := (message_size o + stuffed) mod 2 ^ 64 in
        let o := if stuffed =? avail
                 then Sha size (repeat 0 16) (digest_block T (state_digest o) st) 0
                 else Sha size st (state_digest o) off in
        block_loop fuel (blocksize T) o src
      end
    else Some o
  end.

(** sha.hpp:265-310 *)
Definition block_and_digest (o : sha) (src : source) : option sha :=
  block_loop (S (length (mem src))) (blocksize T - stuffed_size o) o src.

(** sha.hpp:807-815 update(first, last); the assert on line 810 *)
Definition update (o : sha) (bytes : list N) : option sha :=
  if stuffed_size o mod 8 =? 0 then block_and_digest o (range_source bytes) else None.

(** sha.hpp:835-843 update(first, num_bits); [memory] is what the iterator can reach *)
Definition update_bits (o : sha) (memory : list N) (num_bits : N) : option sha :=
  if stuffed_size o mod 8 =? 0 then block_and_digest o (Src memory num_bits) else None.

(** sha.hpp:333-432, with shift_down (313-329) inlined; called by sha.hpp:850-858 with copies
    of the four members, so that the object itself does not change. *)
Definition finalize (o : sha) : option (list N) :=
  match stuff_into_state (state o) (stuffed_size o) 1 (Src [0x80] 1) with
  | None => None
  | Some (st, stuffed, _, _) =>
    let '(digest, st, stuffed) :=
      if stuffed =? blocksize T then (digest_block T (state_digest o) st, repeat 0 16, 0)
      else (state_digest o, st, stuffed) in
    let '(digest, st) :=
      if blocksize T - max_message_bitsize T <? stuffed
      then (digest_block T digest st, repeat 0 16) else (digest, st) in
    let mask := N.ones W in
    let st := if 64 <=? W then st     (* overshift *)
              else if mask <? message_size o
                   then upd st 14 (N.land (N.shiftr (message_size o) W) mask) else st in
    let st := upd st 15 (N.land (message_size o) mask) in
    Some (firstn (digest_words T) (digest_block T digest st))
  end.

(** sha.hpp:875-882 *)
Definition digest (bytes : list N) : option (list N) :=
  match update init bytes with Some o => finalize o | None => None end.
(** sha.hpp:898-905 *)
Definition digest_bits (memory : list N) (num_bits : N) : option (list N) :=
  match update_bits init memory num_bits with Some o => finalize o | None => None end.
End Engine.

(** sha.hpp:908-942 to_string(digest, spaces): [c] is the two's complement byte held in a char;
    (c >> 4) & 0xf and c & 0xf are its two nibbles whether or not char is signed. *)
Definition hex_digit (n : N) : N := if n <? 10 then 48 + n else 87 + n.
Definition element_chars (W element : N) : list N :=
  flat_map (fun i : nat =>
    let c := N.land (N.shiftr element (W - (N.of_nat i + 1) * 8)) 0xff in
    [hex_digit (N.land (N.shiftr c 4) 0xf); hex_digit (N.land c 0xf)])
    (seq 0 (N.to_nat (W / 8))).
Fixpoint to_string_loop (W : N) (spaces first : bool) (digest : list N) : list N :=
  match digest with
  | [] => []
  | e :: r => (if negb first && spaces then [32] else [])
              ++ element_chars W e ++ to_string_loop W spaces false r
  end.
Definition to_string (W : N) (spaces : bool) (digest : list N) : list N :=
  to_string_loop W spaces true digest.

(** ** SHA-1: sha.hpp:502-576 *)

(** lines 520-525: the schedule, t = 16 .. 79 *)
Definition schedule1_step (s : list N) (t : nat) : list N :=
  s ++ [rotl 32 1 (N.lxor (N.lxor (N.lxor (nth (t - 3) s 0) (nth (t - 8) s 0))
                          (nth (t - 14) s 0)) (nth (t - 16) s 0))].
Definition schedule1 (block : list N) : list N := fold_left schedule1_step (seq 16 64) block.

(** lines 537-543: A_ROUND(t, F, k) on [a; b; c; d; e] *)
Definition a_round (f : N -> N -> N -> N) (k : N) (sched : list N) (r : list N) (t : nat) : list N :=
  match r with
  | [a; b; c; d; e] =>
    let T := trunc 32 (rotl 32 5 a + f b c d + e + k + nth t sched 0) in
    [T; a; rotl 32 30 b; c; d]
  | _ => r
  end.
(** lines 545-556: FIVE_ROUNDS and TWENTY_ROUNDS are the rounds t .. t+19 in order *)
Definition twenty_rounds (t : nat) (f : N -> N -> N -> N) (k : N) (sched r : list N) : list N :=
  fold_left (a_round f k sched) (seq t 20) r.

(** digest[i] += ... *)
Fixpoint add_words (W : N) (x y : list N) : list N :=
  match x, y with
  | a :: x', b :: y' => trunc W (a + b) :: add_words W x' y'
  | _, _ => []
  end.

(** lines 515-575 *)
Definition sha1_digest_block (digest block : list N) : list N :=
  let s := schedule1 block in
  let r := twenty_rounds 0 (ch 32) 0x5a827999 s digest in
  let r := twenty_rounds 20 parity 0x6ed9eba1 s r in
  let r := twenty_rounds 40 maj 0x8f1bbcdc s r in
  let r := twenty_rounds 60 parity 0xca62c1d6 s r in
  add_words 32 digest r.

(** lines 511-513 *)
Definition sha1_traits : traits := Traits 32
  [
   0x67452301; 0xefcdab89; 0x98badcfe; 0x10325476; 0xc3d2e1f0]
  sha1_digest_block 5.

(** ** The second generation: sha.hpp:438-496 *)
Record sha2 := Sha2 {
  s_bits : N; s_rounds : nat; s_k : list N;
  big_sigma_0 : N -> N; big_sigma_1 : N -> N; small_sigma_0 : N -> N; small_sigma_1 : N -> N }.

(** lines 453-457 *)
Definition schedule2_step (P : sha2) (s : list N) (t : nat) : list N :=
  s ++ [trunc (s_bits P) (small_sigma_1 P (nth (t - 2) s 0) + nth (t - 7) s 0
                          + small_sigma_0 P (nth (t - 15) s 0) + nth (t - 16) s 0)].
Definition schedule2 (P : sha2) (block : list N) : list N :=
  fold_left (schedule2_step P) (seq 16 (s_rounds P - 16)) block.

(** lines 468-480 on [a; b; c; d; e; f; g; h] *)
Definition round2 (P : sha2) (sched r : list N) (t : nat) : list N :=
  match r with
  | [a; b; c; d; e; f; g; h] =>
    let W := s_bits P in
    let T1 := trunc W (h + big_sigma_1 P e + ch W e f g + nth t (s_k P) 0 + nth t sched 0) in
    let T2 := trunc W (big_sigma_0 P a + maj a b c) in
    [trunc W (T1 + T2); a; b; c; trunc W (d + T1); e; f; g]
  | _ => r
  end.

(** lines 438-496 *)
Definition sha_2_digest_message_block (P : sha2) (digest block : list N) : list N :=
  let s := schedule2 P block in
  add_words (s_bits P) digest (fold_left (round2 P s) (seq 0 (s_rounds P)) digest).

(** sha.hpp:600-618 *)
Definition big_sigma_0_256 (x : N) := N.lxor (N.lxor (rotr 32 2 x) (rotr 32 13 x)) (rotr 32 22 x).
Definition big_sigma_1_256 (x : N) := N.lxor (N.lxor (rotr 32 6 x) (rotr 32 11 x)) (rotr 32 25 x).
Definition small_sigma_0_256 (x : N) := N.lxor (N.lxor (rotr 32 7 x) (rotr 32 18 x)) (shr 3 x).
Definition small_sigma_1_256 (x : N) := N.lxor (N.lxor (rotr 32 17 x) (rotr 32 19 x)) (shr 10 x).
(** sha.hpp:620-637 *)
Definition k_set_256 : list N :=
  [
   0x428a2f98; 0x71374491; 0xb5c0fbcf; 0xe9b5dba5; 0x3956c25b; 0x59f111f1; 0x923f82a4; 0xab1c5ed5;
   0xd807aa98; 0x12835b01; 0x243185be; 0x550c7dc3; 0x72be5d74; 0x80deb1fe; 0x9bdc06a7; 0xc19bf174;
   0xe49b69c1; 0xefbe4786; 0x0fc19dc6; 0x240ca1cc; 0x2de92c6f; 0x4a7484aa; 0x5cb0a9dc; 0x76f988da;
   0x983e5152; 0xa831c66d; 0xb00327c8; 0xbf597fc7; 0xc6e00bf3; 0xd5a79147; 0x06ca6351; 0x14292967;
   0x27b70a85; 0x2e1b2138; 0x4d2c6dfc; 0x53380d13; 0x650a7354; 0x766a0abb; 0x81c2c92e; 0x92722c85;
   0xa2bfe8a1; 0xa81a664b; 0xc24b8b70; 0xc76c51a3; 0xd192e819; 0xd6990624; 0xf40e3585; 0x106aa070;
   0x19a4c116; 0x1e376c08; 0x2748774c; 0x34b0bcb5; 0x391c0cb3; 0x4ed8aa4a; 0x5b9cca4f; 0x682e6ff3;
   0x748f82ee; 0x78a5636f; 0x84c87814; 0x8cc70208; 0x90befffa; 0xa4506ceb; 0xbef9a3f7; 0xc67178f2].
Definition sha256_core : sha2 :=
  Sha2 32 64 k_set_256 big_sigma_0_256 big_sigma_1_256 small_sigma_0_256 small_sigma_1_256.
(** sha.hpp:589-592 *)
Definition sha256_traits : traits := Traits 32
  [
   0x6a09e667; 0xbb67ae85; 0x3c6ef372; 0xa54ff53a; 0x510e527f; 0x9b05688c; 0x1f83d9ab; 0x5be0cd19]
  (sha_2_digest_message_block sha256_core) 8.
(** sha.hpp:640-647: the first seven words of the state *)
Definition sha224_traits : traits := Traits 32
  [
   0xc1059ed8; 0x367cd507; 0x3070dd17; 0xf70e5939; 0xffc00b31; 0x68581511; 0x64f98fa7; 0xbefa4fa4]
  (sha_2_digest_message_block sha256_core) 7.

(** sha.hpp:672-690 *)
Definition big_sigma_0_512 (x : N) := N.lxor (N.lxor (rotr 64 28 x) (rotr 64 34 x)) (rotr 64 39 x).
Definition big_sigma_1_512 (x : N) := N.lxor (N.lxor (rotr 64 14 x) (rotr 64 18 x)) (rotr 64 41 x).
Definition small_sigma_0_512 (x : N) := N.lxor (N.lxor (rotr 64 1 x) (rotr 64 8 x)) (shr 7 x).
Definition small_sigma_1_512 (x : N) := N.lxor (N.lxor (rotr 64 19 x) (rotr 64 61 x)) (shr 6 x).
(** sha.hpp:692-726 *)
Definition k_set_512 : list N :=
  [
   0x428a2f98d728ae22; 0x7137449123ef65cd; 0xb5c0fbcfec4d3b2f; 0xe9b5dba58189dbbc;
   0x3956c25bf348b538; 0x59f111f1b605d019; 0x923f82a4af194f9b; 0xab1c5ed5da6d8118;
   0xd807aa98a3030242; 0x12835b0145706fbe; 0x243185be4ee4b28c; 0x550c7dc3d5ffb4e2;
   0x72be5d74f27b896f; 0x80deb1fe3b1696b1; 0x9bdc06a725c71235; 0xc19bf174cf692694;
   0xe49b69c19ef14ad2; 0xefbe4786384f25e3; 0x0fc19dc68b8cd5b5; 0x240ca1cc77ac9c65;
   0x2de92c6f592b0275; 0x4a7484aa6ea6e483; 0x5cb0a9dcbd41fbd4; 0x76f988da831153b5;
   0x983e5152ee66dfab; 0xa831c66d2db43210; 0xb00327c898fb213f; 0xbf597fc7beef0ee4;
   0xc6e00bf33da88fc2; 0xd5a79147930aa725; 0x06ca6351e003826f; 0x142929670a0e6e70;
   0x27b70a8546d22ffc; 0x2e1b21385c26c926; 0x4d2c6dfc5ac42aed; 0x53380d139d95b3df;
   0x650a73548baf63de; 0x766a0abb3c77b2a8; 0x81c2c92e47edaee6; 0x92722c851482353b;
   0xa2bfe8a14cf10364; 0xa81a664bbc423001; 0xc24b8b70d0f89791; 0xc76c51a30654be30;
   0xd192e819d6ef5218; 0xd69906245565a910; 0xf40e35855771202a; 0x106aa07032bbd1b8;
   0x19a4c116b8d2d0c8; 0x1e376c085141ab53; 0x2748774cdf8eeb99; 0x34b0bcb5e19b48a8;
   0x391c0cb3c5c95a63; 0x4ed8aa4ae3418acb; 0x5b9cca4f7763e373; 0x682e6ff3d6b2b8a3;
   0x748f82ee5defb2fc; 0x78a5636f43172f60; 0x84c87814a1f0ab72; 0x8cc702081a6439ec;
   0x90befffa23631e28; 0xa4506cebde82bde9; 0xbef9a3f7b2c67915; 0xc67178f2e372532b;
   0xca273eceea26619c; 0xd186b8c721c0c207; 0xeada7dd6cde0eb1e; 0xf57d4f7fee6ed178;
   0x06f067aa72176fba; 0x0a637dc5a2c898a6; 0x113f9804bef90dae; 0x1b710b35131c471b;
   0x28db77f523047d84; 0x32caab7b40c72493; 0x3c9ebe0a15c9bebc; 0x431d67c49c100d4c;
   0x4cc5d4becb3e42b6; 0x597f299cfc657e2a; 0x5fcb6fab3ad6faec; 0x6c44198c4a475817].
Definition sha512_core : sha2 :=
  Sha2 64 80 k_set_512 big_sigma_0_512 big_sigma_1_512 small_sigma_0_512 small_sigma_1_512.
(** sha.hpp:660-664 *)
Definition sha512_traits : traits := Traits 64
  [
   0x6a09e667f3bcc908; 0xbb67ae8584caa73b; 0x3c6ef372fe94f82b; 0xa54ff53a5f1d36f1;
   0x510e527fade682d1; 0x9b05688c2b3e6c1f; 0x1f83d9abfb41bd6b; 0x5be0cd19137e2179]
  (sha_2_digest_message_block sha512_core) 8.
(** sha.hpp:729-737: the first six words of the state *)
Definition sha384_traits : traits := Traits 64
  [
   0xcbbb9d5dc1059ed8; 0x629a292a367cd507; 0x9159015a3070dd17; 0x152fecd8f70e5939;
   0x67332667ffc00b31; 0x8eb44a8768581511; 0xdb0c2e0d64f98fa7; 0x47b5481dbefa4fa4]
  (sha_2_digest_message_block sha512_core) 6.
