(** Bit-operation lemmas over N (standard library only). *)
From Verif Require Import Prelude.
Local Open Scope N_scope.

Lemma testbit_small b k n : b < 2 ^ k -> k <= n -> N.testbit b n = false.
Proof.
  intros Hb Hn. rewrite N.testbit_eqb.
  assert (2 ^ k <= 2 ^ n) by (apply N.pow_le_mono_r; lia).
  rewrite N.div_small by lia. reflexivity.
Qed.

Lemma land_shiftl_small a b k : b < 2 ^ k -> N.land (N.shiftl a k) b = 0.
Proof.
  intros Hb. apply N.bits_inj_iff. intros n. rewrite N.land_spec, N.bits_0.
  destruct (N.lt_ge_cases n k) as [H|H].
  - rewrite N.shiftl_spec_low by lia. reflexivity.
  - rewrite (testbit_small b k n) by lia. apply andb_false_r.
Qed.

Lemma lor_shiftl a b k : b < 2 ^ k -> N.lor (N.shiftl a k) b = a * 2 ^ k + b.
Proof.
  intros Hb. pose proof (land_shiftl_small a b k Hb) as H.
  rewrite <- N.lxor_lor by exact H. rewrite <- N.add_nocarry_lxor by exact H.
  now rewrite N.shiftl_mul_pow2.
Qed.

Lemma land_ones_mod x k : N.land x (N.ones k) = x mod 2 ^ k.
Proof. apply N.land_ones. Qed.

Lemma testbit_lt_pow2 x k : (forall n, k <= n -> N.testbit x n = false) -> x < 2 ^ k.
Proof.
  intros H. assert (Hx : x = N.land x (N.ones k)).
  { apply N.bits_inj_iff. intros n. rewrite N.land_spec.
    destruct (N.lt_ge_cases n k).
    - rewrite N.ones_spec_low by lia. now rewrite andb_true_r.
    - rewrite H by lia. reflexivity. }
  rewrite Hx, N.land_ones. apply N.mod_lt. apply N.pow_nonzero. lia.
Qed.

Lemma lor_lt x y k : x < 2 ^ k -> y < 2 ^ k -> N.lor x y < 2 ^ k.
Proof. intros Hx Hy. apply testbit_lt_pow2. intros n Hn.
  rewrite N.lor_spec, (testbit_small x k), (testbit_small y k) by lia. reflexivity. Qed.
Lemma land_lt x y k : x < 2 ^ k -> N.land x y < 2 ^ k.
Proof. intros Hx. apply testbit_lt_pow2. intros n Hn.
  rewrite N.land_spec, (testbit_small x k) by lia. reflexivity. Qed.
Lemma lxor_lt x y k : x < 2 ^ k -> y < 2 ^ k -> N.lxor x y < 2 ^ k.
Proof. intros Hx Hy. apply testbit_lt_pow2. intros n Hn.
  rewrite N.lxor_spec, (testbit_small x k), (testbit_small y k) by lia. reflexivity. Qed.
