(** json.hpp's utf8() writes the UTF-8 form. *)
From Verif Require Import Prelude Bits Unicode_Spec Json_Model.
Local Open Scope N_scope.

Lemma lor_add_disjoint a b k : b < 2 ^ k -> a mod 2 ^ k = 0 -> N.lor b a = b + a.
Proof.
  intros Hb Ha. assert (E : a = N.shiftl (a / 2 ^ k) k).
  { rewrite N.shiftl_mul_pow2. pose proof (N.div_mod a (2 ^ k) ltac:(apply N.pow_nonzero; lia)). lia. }
  rewrite E, N.lor_comm, lor_shiftl by exact Hb. rewrite N.shiftl_mul_pow2. lia.
Qed.
Lemma cont_byte x : to_char (N.land (N.lor x 0x80) 0xBF) = 0x80 + x mod 64.
Proof.
  assert (E : N.land (N.lor x 0x80) 0xBF = N.lor (x mod 64) 0x80).
  { change 64 with (2 ^ 6). rewrite <- N.land_ones. apply N.bits_inj_iff. intros n.
    rewrite N.land_spec, !N.lor_spec, N.land_spec.
    change 0xBF with (N.lor 0x80 (N.ones 6)). rewrite N.lor_spec.
    destruct (N.testbit x n), (N.testbit 128 n) eqn:E2, (N.testbit (N.ones 6) n); reflexivity. }
  rewrite E, (lor_add_disjoint _ _ 7); [|change (2^7) with 128; lia|reflexivity].
  unfold to_char. lia.
Qed.
Lemma shiftr6 x : N.shiftr x 6 = x / 64.
Proof. now rewrite N.shiftr_div_pow2. Qed.
Lemma lead_byte x m k : x < 2 ^ k -> m mod 2 ^ k = 0 -> m + x < 256 -> to_char (N.lor x m) = m + x.
Proof.
  intros H1 H2 H3. rewrite (lor_add_disjoint m x k) by assumption. unfold to_char. rewrite N.mod_small; lia.
Qed.
Lemma json_utf8_ok u : u < 0x10FFFF -> json_utf8 u = Ok (utf8 u).
Proof.
  intros H. unfold json_utf8, utf8, utf8_bytes, first_mark. cbn [nth]. rewrite !cont_byte, !shiftr6.
  destruct (N.ltb_spec u 0x80).
  { rewrite N.lor_0_r. unfold to_char. rewrite N.mod_small by lia. reflexivity. }
  destruct (N.ltb_spec u 0x800).
  { rewrite (lead_byte _ _ 5); [reflexivity| |reflexivity|]; change (2^5) with 32; lia. }
  destruct (N.ltb_spec u 0x10000).
  { rewrite (lead_byte _ _ 4); [|change (2^4) with 16|reflexivity|]; rewrite N.div_div by lia;
      change (64*64) with 4096; try lia. reflexivity. }
  destruct (N.ltb_spec u 0x10FFFF); [|lia].
  rewrite (lead_byte _ _ 3); [|change (2^3) with 8|reflexivity|]; rewrite !N.div_div by lia;
    change (64*64*64) with 262144; change (64*64) with 4096; try lia. reflexivity.
Qed.
