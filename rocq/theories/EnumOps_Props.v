(** C125: the operators of an enumeration *)
From Coq Require Import ZArith Bool Lia.
From Verif Require Import EnumOps_Model.
Open Scope Z_scope.

(** an integer type of C++ with at least two bits, and a value of it *)
Definition a_type (t : itype) : Prop := 2 <= width t <= 64.
Definition a_value (t : itype) (x : Z) : Prop := fits t x = true.
(** bit [i] of the representation *)
Definition bit (x i : Z) : bool := Z.testbit x i.

Lemma a_value_iff t x : a_value t x <-> lowest t <= x <= highest t.
Proof. unfold a_value, fits. rewrite andb_true_iff, !Z.leb_le. reflexivity. Qed.
Lemma span t : a_type t -> highest t - lowest t + 1 = 2 ^ width t.
Proof.
  intros H. unfold a_type in H. unfold highest, lowest. destruct (signed t); [|lia].
  replace (width t) with (1 + (width t - 1)) at 3 by lia. rewrite Z.pow_add_r by lia. change (2 ^ 1) with 2. lia.
Qed.
Lemma size_pos t : a_type t -> 0 < 2 ^ width t.
Proof. intros [H _]. apply Z.pow_pos_nonneg; lia. Qed.
Lemma wrap_value t x : a_type t -> a_value t (wrap t x).
Proof.
  intros H. apply a_value_iff. pose proof (span t H). pose proof (Z.mod_pos_bound (x - lowest t) (2 ^ width t) (size_pos t H)). unfold wrap. lia.
Qed.
Lemma wrap_id t x : a_type t -> a_value t x -> wrap t x = x.
Proof. intros H V. apply a_value_iff in V. pose proof (span t H). unfold wrap. rewrite Z.mod_small; lia. Qed.
Lemma wrap_mod t x : a_type t -> (wrap t x) mod 2 ^ width t = x mod 2 ^ width t.
Proof.
  intros H. pose proof (size_pos t H). unfold wrap. rewrite Zplus_mod_idemp_l. f_equal. lia.
Qed.
Lemma low_bits a b w i : 0 <= i < w -> a mod 2 ^ w = b mod 2 ^ w -> Z.testbit a i = Z.testbit b i.
Proof. intros H E. rewrite <- (Z.mod_pow2_bits_low a w i), <- (Z.mod_pow2_bits_low b w i) by lia. now rewrite E. Qed.
Lemma wrap_bit t x i : a_type t -> 0 <= i < width t -> bit (wrap t x) i = bit x i.
Proof. intros H Hi. apply (low_bits _ _ (width t)); [exact Hi|apply wrap_mod; exact H]. Qed.

(** Bit by bit, the bitset operators are and, or, exclusive or and not; *)
Theorem C125_bitwise t x y i : a_type t -> 0 <= i < width t ->
  bit (bit_and t x y) i = andb (bit x i) (bit y i) /\ bit (bit_or t x y) i = orb (bit x i) (bit y i) /\
  bit (bit_xor t x y) i = xorb (bit x i) (bit y i) /\ bit (bit_not t x) i = negb (bit x i).
Proof.
  intros H Hi. unfold bit_and, bit_or, bit_xor, bit_not. rewrite !wrap_bit by assumption. unfold bit.
  rewrite Z.land_spec, Z.lor_spec, Z.lxor_spec, Z.lnot_spec by lia. auto.
Qed.
(** their results are values of the enumeration, *)
Theorem C125_closed t x y : a_type t ->
  a_value t (bit_and t x y) /\ a_value t (bit_or t x y) /\ a_value t (bit_xor t x y) /\ a_value t (bit_not t x).
Proof. intros H. repeat split; apply wrap_value; exact H. Qed.
(** and a value is determined by its bits, so that the laws of sets hold: for instance De Morgan's. *)
Lemma same_mod a b w : 0 <= w -> (forall i, 0 <= i < w -> Z.testbit a i = Z.testbit b i) -> a mod 2 ^ w = b mod 2 ^ w.
Proof.
  intros Hw H. apply Z.bits_inj'. intros i Hi. destruct (Z.lt_ge_cases i w).
  - rewrite !Z.mod_pow2_bits_low by lia. apply H. lia.
  - rewrite !Z.mod_pow2_bits_high by lia. reflexivity.
Qed.
Theorem C125_bits_determine t x y : a_type t -> a_value t x -> a_value t y ->
  (forall i, 0 <= i < width t -> bit x i = bit y i) -> x = y.
Proof.
  intros H X Y B. rewrite <- (wrap_id t x H X), <- (wrap_id t y H Y). unfold wrap. f_equal.
  assert (E : x mod 2 ^ width t = y mod 2 ^ width t) by (apply same_mod; [destruct H; lia|exact B]).
  rewrite (Zminus_mod x), (Zminus_mod y), E. reflexivity.
Qed.
Corollary C125_set_laws t x y z : a_type t -> a_value t x -> a_value t y -> a_value t z ->
  bit_not t (bit_and t x y) = bit_or t (bit_not t x) (bit_not t y) /\ bit_not t (bit_not t x) = x /\
  bit_and t x (bit_or t y z) = bit_or t (bit_and t x y) (bit_and t x z) /\ bit_xor t (bit_xor t x y) y = x /\
  bit_and t x (bit_not t x) = wrap t 0 /\ bit_or t x 0 = x.
Proof.
  intros H X Y Z0. pose proof (fun a b => C125_closed t a b H) as Cl.
  assert (B : forall a b i, 0 <= i < width t -> _) by exact (fun a b i Hi => C125_bitwise t a b i H Hi).
  assert (D : forall a b, a_value t a -> a_value t b -> (forall i, 0 <= i < width t -> bit a i = bit b i) -> a = b) by (intros a b; exact (C125_bits_determine t a b H)).
  repeat split; apply D; try (apply wrap_value; exact H); try assumption; intros i Hi;
    repeat (rewrite (proj1 (B _ _ i Hi)) || rewrite (proj1 (proj2 (B _ _ i Hi))) || rewrite (proj1 (proj2 (proj2 (B _ _ i Hi)))) || rewrite (proj2 (proj2 (proj2 (B _ 0 i Hi)))) || rewrite (wrap_bit t 0 i H Hi));
    unfold bit; rewrite ?Z.bits_0; destruct (Z.testbit x i), (Z.testbit y i), (Z.testbit z i); reflexivity.
Qed.

(** The arithmetic operators yield the exact result when the enumeration has it, *)
Lemma promote_type t : a_type t -> a_type (promote t).
Proof. intros H. unfold promote. destruct (width t <? 32); [unfold a_type, int_t; cbn; lia|exact H]. Qed.
Lemma promote_holds t z : a_type t -> a_value t z -> a_value (promote t) z.
Proof.
  intros H V. apply a_value_iff in V. apply a_value_iff. unfold promote. destruct (Z.ltb_spec (width t) 32) as [L|]; [|exact V].
  unfold lowest, highest in *. cbn [signed width int_t]. change (32 - 1) with 31.
  assert (2 ^ width t <= 2 ^ 31) by (apply Z.pow_le_mono_r; lia). assert (2 ^ (width t - 1) <= 2 ^ width t) by (apply Z.pow_le_mono_r; destruct H; lia).
  destruct (signed t); lia.
Qed.
Theorem C125_exact t x y : a_type t ->
  (a_value t (x + y) -> add t x y = Some (x + y)) /\ (a_value t (x - y) -> sub t x y = Some (x - y)) /\
  (a_value t (x * y) -> mul t x y = Some (x * y)) /\ (y <> 0 -> a_value t (Z.quot x y) -> div t x y = Some (Z.quot x y)) /\
  (y <> 0 -> a_value t (Z.quot x y) -> a_value t (Z.rem x y) -> rem t x y = Some (Z.rem x y)) /\
  (a_value t (- x) -> minus_of t x = Some (- x)) /\ (a_value t x -> plus_of t x = Some x).
Proof.
  intros H. assert (E : forall z, a_value t z -> computed t z = Some z).
  { intros z V. pose proof (promote_holds t z H V) as P. unfold computed. cbv zeta. destruct (signed (promote t)).
    - unfold a_value in P. rewrite P. now rewrite wrap_id.
    - rewrite (wrap_id (promote t)) by (auto using promote_type). now rewrite wrap_id. }
  unfold add, sub, mul, div, rem, minus_of, plus_of. repeat split; auto; intros N V; destruct (Z.eqb_spec y 0); try contradiction; auto. intros V'. rewrite (E _ V). auto.
Qed.
(** and otherwise, if anything, a value congruent to it; *)
Theorem C125_modular t z r : a_type t -> computed t z = Some r -> a_value t r /\ r mod 2 ^ width t = z mod 2 ^ width t.
Proof.
  intros H. unfold computed. cbv zeta. destruct (signed (promote t)) eqn:Sg.
  - destruct (fits (promote t) z); [|discriminate]. intros [= <-]. split; [apply wrap_value; exact H|apply wrap_mod; exact H].
  - intros [= <-]. split; [apply wrap_value; exact H|]. rewrite wrap_mod by exact H. unfold promote in *. destruct (width t <? 32); [discriminate|]. apply wrap_mod. exact H.
Qed.
(** with an unsigned type of at least 32 bits nothing but division by zero is undefined, and with a type of
    at most 15 bits neither, *)
Theorem C125_defined t x y : a_type t -> a_value t x -> a_value t y -> (signed t = false /\ 32 <= width t) \/ width t <= 15 ->
  add t x y <> None /\ sub t x y <> None /\ mul t x y <> None /\ minus_of t x <> None.
Proof.
  intros H X Y [[U L]|L].
  - assert (P : promote t = t) by (unfold promote; destruct (Z.ltb_spec (width t) 32); [lia|reflexivity]).
    unfold add, sub, mul, minus_of, computed. rewrite P, U. repeat split; discriminate.
  - assert (P : promote t = int_t) by (unfold promote; destruct (Z.ltb_spec (width t) 32); [reflexivity|lia]).
    apply a_value_iff in X, Y. assert (B : forall z, lowest t <= z <= highest t -> - 32768 <= z <= 32767).
    { intros z Hz. assert (2 ^ width t <= 2 ^ 15) by (apply Z.pow_le_mono_r; lia). assert (2 ^ (width t - 1) <= 2 ^ width t) by (apply Z.pow_le_mono_r; destruct H; lia).
      change (2 ^ 15) with 32768 in *. unfold lowest, highest in *. destruct (signed t); lia. }
    apply B in X, Y. unfold add, sub, mul, minus_of, computed. rewrite P. cbn [signed int_t].
    assert (F : forall z, - 2147483648 <= z <= 2147483647 -> fits int_t z = true) by (intros z Hz; apply a_value_iff; unfold lowest, highest; cbn; lia).
    rewrite !F by nia. repeat split; discriminate.
Qed.
(** but with 16 bits unsigned the product can be: the operands are promoted to int. *)
Theorem C125_promoted_product : exists x y, let t := mk_itype 16 false in
  a_type t /\ a_value t x /\ a_value t y /\ mul t x y = None.
Proof. exists 65535, 65535. cbv zeta. split; [unfold a_type; cbn; lia|]. repeat split. Qed.
(** increment and decrement undo each other *)
Theorem C125_inc_dec t x r v : a_type t -> a_value t x -> a_value t 1 -> a_value t (x + 1) ->
  (pre_inc t x = Some (r, v) -> r = x + 1 /\ v = r /\ pre_dec t r = Some (x, x)) /\
  (post_inc t x = Some (r, v) -> r = x + 1 /\ v = x /\ post_dec t r = Some (x, r)).
Proof.
  intros H X O V. unfold pre_inc, post_inc, pre_dec, post_dec. rewrite (wrap_id t 1 H O).
  destruct (C125_exact t x 1 H) as (A & _). rewrite (A V).
  split; intros [= <- <-]; (split; [reflexivity|split; [reflexivity|]]);
    destruct (C125_exact t (x + 1) 1 H) as (_ & B & _); replace (x + 1 - 1) with x in B by lia; rewrite (B X); reflexivity.
Qed.
Example C125_meets : a_type (mk_itype 8 false) /\ a_value (mk_itype 8 false) 200 /\ bit_not (mk_itype 8 false) 200 = 55 /\
  add (mk_itype 8 false) 200 100 = Some 44 /\ add int_t 2147483647 1 = None /\ sub (mk_itype 32 false) 0 1 = Some 4294967295 /\
  mul (mk_itype 8 true) 100 2 = Some (-56) /\ post_inc (mk_itype 8 false) 7 = Some (8, 7).
Proof. split; [unfold a_type; cbn; lia|]. repeat split. Qed.
