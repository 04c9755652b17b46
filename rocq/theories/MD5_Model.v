(** Model of adobe::md5_t — /repo/source/md5.cpp:79-346, /repo/adobe/md5.hpp:93-130.
    std::uint32_t is N with explicit reduction modulo 2^32; bytes are N below 256.
    size_t is taken to be 64 bits wide; the loop index does not overflow because an input
    in memory is shorter than 2^64-64 bytes.  memcpy outside buffer_m is [None]. *)
From Verif Require Import Prelude.
Local Open Scope N_scope.

Definition w32 (x : N) : N := x mod 2 ^ 32.
(** ~x on std::uint32_t *)
Definition not32 (x : N) : N := N.lxor x 0xffffffff.

(** md5.cpp:87-90 the macros F, G, H, I *)
Definition F (x y z : N) := N.lor (N.land x y) (N.land (not32 x) z).
Definition G (x y z : N) := N.lor (N.land x z) (N.land y (not32 z)).
Definition H (x y z : N) := N.lxor (N.lxor x y) z.
Definition I (x y z : N) := N.lxor y (N.lor x (not32 z)).

(** md5.cpp:96 ROTATE_LEFT *)
Definition ROTATE_LEFT (x n : N) : N := N.lor (w32 (N.shiftl x n)) (N.shiftr x (32 - n)).

(** md5.cpp:103-126: the common shape of FF, GG, HH, II: new value of (a). *)
Definition op (f : N -> N -> N -> N) (a b c d x s ac : N) : N :=
  w32 (ROTATE_LEFT (w32 (a + (f b c d + x + ac))) s + b).

Record regs := Regs { ra : N; rb : N; rc : N; rd : N }.

(** The four argument orders in which the macros are used in md5.cpp:138-210:
    XX(a,b,c,d,..), XX(d,a,b,c,..), XX(c,d,a,b,..), XX(b,c,d,a,..). *)
Inductive order := ABCD | DABC | CDAB | BCDA.

Definition exec (f : N -> N -> N -> N) (o : order) (x s ac : N) (r : regs) : regs :=
  let '(Regs a b c d) := r in
  match o with
  | ABCD => Regs (op f a b c d x s ac) b c d
  | DABC => Regs a b c (op f d a b c x s ac)
  | CDAB => Regs a b (op f c d a b x s ac) d
  | BCDA => Regs a (op f b c d a x s ac) c d
  end.

(** md5.cpp:138-153, 156-171, 174-189, 192-207: (argument order, index of x, s, ac). *)
Definition round1 : list (order * nat * N * N) :=
  [(ABCD,  0%nat,  7, 0xd76aa478); (DABC,  1%nat, 12, 0xe8c7b756); (CDAB,  2%nat, 17, 0x242070db); (BCDA,  3%nat, 22, 0xc1bdceee);
   (ABCD,  4%nat,  7, 0xf57c0faf); (DABC,  5%nat, 12, 0x4787c62a); (CDAB,  6%nat, 17, 0xa8304613); (BCDA,  7%nat, 22, 0xfd469501);
   (ABCD,  8%nat,  7, 0x698098d8); (DABC,  9%nat, 12, 0x8b44f7af); (CDAB, 10%nat, 17, 0xffff5bb1); (BCDA, 11%nat, 22, 0x895cd7be);
   (ABCD, 12%nat,  7, 0x6b901122); (DABC, 13%nat, 12, 0xfd987193); (CDAB, 14%nat, 17, 0xa679438e); (BCDA, 15%nat, 22, 0x49b40821)].
Definition round2 : list (order * nat * N * N) :=
  [(ABCD,  1%nat, 5, 0xf61e2562); (DABC,  6%nat, 9, 0xc040b340); (CDAB, 11%nat, 14, 0x265e5a51); (BCDA,  0%nat, 20, 0xe9b6c7aa);
   (ABCD,  5%nat, 5, 0xd62f105d); (DABC, 10%nat, 9, 0x2441453);  (CDAB, 15%nat, 14, 0xd8a1e681); (BCDA,  4%nat, 20, 0xe7d3fbc8);
   (ABCD,  9%nat, 5, 0x21e1cde6); (DABC, 14%nat, 9, 0xc33707d6); (CDAB,  3%nat, 14, 0xf4d50d87); (BCDA,  8%nat, 20, 0x455a14ed);
   (ABCD, 13%nat, 5, 0xa9e3e905); (DABC,  2%nat, 9, 0xfcefa3f8); (CDAB,  7%nat, 14, 0x676f02d9); (BCDA, 12%nat, 20, 0x8d2a4c8a)].
Definition round3 : list (order * nat * N * N) :=
  [(ABCD,  5%nat, 4, 0xfffa3942); (DABC,  8%nat, 11, 0x8771f681); (CDAB, 11%nat, 16, 0x6d9d6122); (BCDA, 14%nat, 23, 0xfde5380c);
   (ABCD,  1%nat, 4, 0xa4beea44); (DABC,  4%nat, 11, 0x4bdecfa9); (CDAB,  7%nat, 16, 0xf6bb4b60); (BCDA, 10%nat, 23, 0xbebfbc70);
   (ABCD, 13%nat, 4, 0x289b7ec6); (DABC,  0%nat, 11, 0xeaa127fa); (CDAB,  3%nat, 16, 0xd4ef3085); (BCDA,  6%nat, 23, 0x4881d05);
   (ABCD,  9%nat, 4, 0xd9d4d039); (DABC, 12%nat, 11, 0xe6db99e5); (CDAB, 15%nat, 16, 0x1fa27cf8); (BCDA,  2%nat, 23, 0xc4ac5665)].
Definition round4 : list (order * nat * N * N) :=
  [(ABCD,  0%nat, 6, 0xf4292244); (DABC,  7%nat, 10, 0x432aff97); (CDAB, 14%nat, 15, 0xab9423a7); (BCDA,  5%nat, 21, 0xfc93a039);
   (ABCD, 12%nat, 6, 0x655b59c3); (DABC,  3%nat, 10, 0x8f0ccc92); (CDAB, 10%nat, 15, 0xffeff47d); (BCDA,  1%nat, 21, 0x85845dd1);
   (ABCD,  8%nat, 6, 0x6fa87e4f); (DABC, 15%nat, 10, 0xfe2ce6e0); (CDAB,  6%nat, 15, 0xa3014314); (BCDA, 13%nat, 21, 0x4e0811a1);
   (ABCD,  4%nat, 6, 0xf7537e82); (DABC, 11%nat, 10, 0xbd3af235); (CDAB,  2%nat, 15, 0x2ad7d2bb); (BCDA,  9%nat, 21, 0xeb86d391)].

Definition run_round (f : N -> N -> N -> N) (x : list N) (r : regs)
           (is : list (order * nat * N * N)) : regs :=
  fold_left (fun r '(o, k, s, ac) => exec f o (nth k x 0) s ac r) is r.

(** md5.cpp:239-246 Decode: little-endian words of a byte block (any whole number of words). *)
Fixpoint Decode (input : list N) : list N :=
  match input with
  | b0 :: b1 :: b2 :: b3 :: rest =>
      N.lor (N.lor (N.lor b0 (N.shiftl b1 8)) (N.shiftl b2 16)) (N.shiftl b3 24) :: Decode rest
  | _ => []
  end.

(** md5.cpp:223-232 Encode *)
Fixpoint Encode (input : list N) : list N :=
  match input with
  | [] => []
  | w :: rest => N.land w 0xff :: N.land (N.shiftr w 8) 0xff :: N.land (N.shiftr w 16) 0xff
                 :: N.land (N.shiftr w 24) 0xff :: Encode rest
  end.

(** md5.cpp:132-217 MD5Transform (the final memset of the local x is not observable). *)
Definition MD5Transform (st : regs) (block : list N) : regs :=
  let x := Decode block in
  let r := run_round F x st round1 in
  let r := run_round G x r round2 in
  let r := run_round H x r round3 in
  let r := run_round I x r round4 in
  Regs (w32 (ra st + ra r)) (w32 (rb st + rb r)) (w32 (rc st + rc r)) (w32 (rd st + rd r)).

(** md5.hpp:104-107 data members. *)
Record md5_t := Md5 { state : regs; count0 : N; count1 : N; buffer : list N }.

(** md5.cpp:254-271 reset() (constructor): buffer_m is left as it is. *)
Definition reset (buf : list N) : md5_t :=
  Md5 (Regs 0x67452301 0xefcdab89 0x98badcfe 0x10325476) 0 0 buf.

(** memcpy(&buf[i], src, |src|); writing outside the 64 bytes of buffer_m is UB. *)
Definition blit (buf : list N) (i : nat) (src : list N) : option (list N) :=
  if (i + length src <=? length buf)%nat
  then Some (firstn i buf ++ src ++ skipn (i + length src) buf) else None.

(** md5.cpp:301-302: for (i = partLen; i + 63 < input_length; i += 64) MD5Transform(.., &input[i]) *)
Fixpoint loop (fuel : nat) (i : nat) (st : regs) (input : list N) : nat * regs :=
  match fuel with
  | O => (i, st)
  | S f => if (i + 63 <? length input)%nat
           then loop f (i + 64) (MD5Transform st (firstn 64 (skipn i input))) input
           else (i, st)
  end.

(** md5.cpp:279-309 *)
Definition update (m : md5_t) (input : list N) : option md5_t :=
  let input_length := N.of_nat (length input) in
  let index := N.to_nat (N.land (N.shiftr (count0 m) 3) 0x3f) in
  let lsb_length := w32 (N.shiftl input_length 3 mod 2 ^ 64) in
  let c0 := w32 (count0 m + lsb_length) in
  let c1 := w32 (count1 m + (if c0 <? lsb_length then 1 else 0)) in
  let c1 := w32 (c1 + w32 (N.shiftr input_length 29)) in
  let partLen := (64 - index)%nat in
  if (partLen <=? length input)%nat then
    match blit (buffer m) index (firstn partLen input) with
    | None => None
    | Some buf =>
      let st := MD5Transform (state m) buf in
      let '(i, st) := loop (length input) partLen st input in
      match blit buf 0 (skipn i input) with
      | None => None
      | Some buf => Some (Md5 st c0 c1 buf)
      end
    end
  else
    match blit (buffer m) index input with
    | None => None
    | Some buf => Some (Md5 (state m) c0 c1 buf)
    end.

(** md5.cpp:317-346 *)
Definition final (m : md5_t) : option (list N * md5_t) :=
  let bits := Encode [count0 m; count1 m] in
  let index := N.to_nat (N.land (N.shiftr (count0 m) 3) 0x3f) in
  let padLen := (if index <? 56 then 56 - index else 120 - index)%nat in
  let padding := 0x80 :: repeat 0 63 in
  match update m (firstn padLen padding) with
  | None => None
  | Some m1 =>
    match update m1 bits with
    | None => None
    | Some m2 =>
      let s := state m2 in
      Some (Encode [ra s; rb s; rc s; rd s], reset (buffer m2))
    end
  end.

(** A sequence of update calls. *)
Fixpoint updates (m : md5_t) (inputs : list (list N)) : option md5_t :=
  match inputs with
  | [] => Some m
  | i :: is => match update m i with Some m' => updates m' is | None => None end
  end.
