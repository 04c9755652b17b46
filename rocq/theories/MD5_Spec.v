(** RFC 1321, written from the RFC in arithmetic form, independently of md5.cpp. *)
From Verif Require Import Prelude Blocks.
Local Open Scope N_scope.

Definition M := 2 ^ 32.
Definition rotl (x s : N) : N := (x * 2 ^ s) mod M + x / 2 ^ (32 - s).

(** Section 3.4: auxiliary functions of round i/16 on 32-bit words. *)
Definition neg (x : N) : N := M - 1 - x.
Definition aux (i : nat) (x y z : N) : N :=
  match (i / 16)%nat with
  | 0%nat => N.lor (N.land x y) (N.land (neg x) z)
  | 1%nat => N.lor (N.land x z) (N.land y (neg z))
  | 2%nat => N.lxor (N.lxor x y) z
  | _ => N.lxor y (N.lor x (neg z))
  end.

(** Section 3.4: which word of the block step i uses. *)
Definition word_index (i : nat) : nat :=
  match (i / 16)%nat with
  | 0%nat => i mod 16
  | 1%nat => (5 * i + 1) mod 16
  | 2%nat => (3 * i + 5) mod 16
  | _ => (7 * i) mod 16
  end%nat.

Definition shift_amount (i : nat) : N :=
  nth (i mod 4)%nat (nth (i / 16)%nat [[7; 12; 17; 22]; [5; 9; 14; 20]; [4; 11; 16; 23]; [6; 10; 15; 21]] []) 0.

(** T[i+1] = floor(4294967296 * abs(sin(i+1))) , in decimal. *)
Definition T : list N :=
 [3614090360; 3905402710; 606105819; 3250441966; 4118548399; 1200080426; 2821735955; 4249261313;
  1770035416; 2336552879; 4294925233; 2304563134; 1804603682; 4254626195; 2792965006; 1236535329;
  4129170786; 3225465664; 643717713; 3921069994; 3593408605; 38016083; 3634488961; 3889429448;
  568446438; 3275163606; 4107603335; 1163531501; 2850285829; 4243563512; 1735328473; 2368359562;
  4294588738; 2272392833; 1839030562; 4259657740; 2763975236; 1272893353; 4139469664; 3200236656;
  681279174; 3936430074; 3572445317; 76029189; 3654602809; 3873151461; 530742520; 3299628645;
  4096336452; 1126891415; 2878612391; 4237533241; 1700485571; 2399980690; 4293915773; 2240044497;
  1873313359; 4264355552; 2734768916; 1309151649; 4149444226; 3174756917; 718787259; 3951481745].

Definition quad := (N * N * N * N)%type.

Definition step (x : list N) (v : quad) (i : nat) : quad :=
  let '(a, b, c, d) := v in
  (d, (b + rotl ((a + aux i b c d + nth (word_index i) x 0 + nth i T 0) mod M) (shift_amount i)) mod M, b, c).

Fixpoint words (bytes : list N) : list N :=
  match bytes with
  | b0 :: b1 :: b2 :: b3 :: r => b0 + 256 * b1 + 65536 * b2 + 16777216 * b3 :: words r
  | _ => []
  end.

Definition compress (v : quad) (block : list N) : quad :=
  let '(a, b, c, d) := v in
  let '(a', b', c', d') := fold_left (step (words block)) (seq 0 64) v in
  ((a + a') mod M, (b + b') mod M, (c + c') mod M, (d + d') mod M).

Definition iv : quad := (0x67452301, 0xefcdab89, 0x98badcfe, 0x10325476).

(** little-endian bytes of a number *)
Fixpoint le_bytes (k : nat) (x : N) : list N :=
  match k with O => [] | S k' => x mod 256 :: le_bytes k' (x / 256) end.

(** Sections 3.1 and 3.2: one 1 bit, zeros up to 56 mod 64 bytes, 64-bit length in bits. *)
Definition pad (msg : list N) : list N :=
  msg ++ [0x80] ++ repeat 0 ((119 - length msg mod 64) mod 64)
      ++ le_bytes 8 ((8 * N.of_nat (length msg)) mod 2 ^ 64).

Definition md5 (msg : list N) : list N :=
  let '(a, b, c, d) := fold_left compress (chunks 64 (pad msg)) iv in
  le_bytes 4 a ++ le_bytes 4 b ++ le_bytes 4 c ++ le_bytes 4 d.

(** Test vectors of RFC 1321 A.5 (a sanity check of the specification). *)
Example md5_empty : md5 [] =
  [0xd4;0x1d;0x8c;0xd9;0x8f;0x00;0xb2;0x04;0xe9;0x80;0x09;0x98;0xec;0xf8;0x42;0x7e].
Proof. vm_compute. reflexivity. Qed.
Example md5_abc : md5 [97;98;99] =
  [0x90;0x01;0x50;0x98;0x3c;0xd2;0x4f;0xb0;0xd6;0x96;0x3f;0x7d;0x28;0xe1;0x7f;0x72].
Proof. vm_compute. reflexivity. Qed.
