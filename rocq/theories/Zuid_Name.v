(** Name based zuids are those of RFC 4122. *)
From Verif Require Import Prelude Bits MD5_Model MD5_Proofs Zuid_Model Zuid_Spec.
From Verif Require MD5_Spec.
Local Open Scope N_scope.

Lemma land_field x k j : N.land x (N.shiftl (N.ones j) k) = N.shiftl (N.shiftr x k mod 2 ^ j) k.
Proof.
  apply N.bits_inj. intros n. rewrite N.land_spec.
  destruct (N.lt_ge_cases n k) as [L|L].
  - rewrite !N.shiftl_spec_low by assumption. now rewrite andb_false_r.
  - rewrite !N.shiftl_spec_high' by assumption. rewrite <- N.land_ones, N.land_spec, N.shiftr_spec'.
    replace (n - k + k) with n by lia. reflexivity.
Qed.

(** A 32 bit number and its bytes. *)
Lemma four_bytes x : x < 2 ^ 32 -> exists a b c d, a < 256 /\ b < 256 /\ c < 256 /\ d < 256 /\
  x = a + 256 * b + 65536 * c + 16777216 * d.
Proof.
  intros H. exists (x mod 256), (x / 256 mod 256), (x / 65536 mod 256), (x / 16777216). lia.
Qed.

Lemma swab32_bytes a b c d : a < 256 -> b < 256 -> c < 256 -> d < 256 ->
  swab32 (a + 256 * b + 65536 * c + 16777216 * d) = d + 256 * c + 65536 * b + 16777216 * a.
Proof.
  intros Ha Hb Hc Hd. set (x := a + 256 * b + 65536 * c + 16777216 * d). unfold swab32.
  change 0xFF00 with (N.shiftl (N.ones 8) 8). change 0xFF0000 with (N.shiftl (N.ones 8) 16).
  rewrite !land_field, N.shiftl_shiftl, <- (N.shiftl_shiftl _ 8 8), N.shiftr_shiftl_l by lia.
  rewrite !N.shiftr_div_pow2, !N.shiftl_mul_pow2.
  change (16 - 8) with 8. change (2 ^ 8) with 256. change (2 ^ 16) with 65536. change (2 ^ 24) with 16777216.
  change (2 ^ 32) with 4294967296.
  replace (x * 16777216 mod 4294967296) with (a * 16777216) by (subst x; lia).
  replace (x / 256 mod 256) with b by (subst x; lia).
  replace (x / 65536 mod 256) with c by (subst x; lia).
  replace (x / 16777216) with d by (subst x; lia).
  rewrite <- !N.lor_assoc.
  replace (a * 16777216) with (N.shiftl a 24) by (rewrite N.shiftl_mul_pow2; reflexivity).
  replace (b * 256 * 256) with (N.shiftl b 16) by (rewrite N.shiftl_mul_pow2; change (2 ^ 16) with 65536; lia).
  replace (c * 256) with (N.shiftl c 8) by (rewrite N.shiftl_mul_pow2; reflexivity).
  rewrite (lor_shiftl c d 8) by exact Hd. change (2 ^ 8) with 256.
  rewrite (lor_shiftl b _ 16) by (change (2 ^ 16) with 65536; lia). change (2 ^ 16) with 65536.
  rewrite (lor_shiftl a _ 24) by (change (2 ^ 24) with 16777216; lia). change (2 ^ 24) with 16777216. lia.
Qed.

Lemma swab16_bytes a b : a < 256 -> b < 256 -> swab16 (a + 256 * b) = b + 256 * a.
Proof.
  intros Ha Hb. unfold swab16. rewrite N.shiftr_div_pow2. change (2 ^ 8) with 256. change (2 ^ 16) with 65536.
  replace ((a + 256 * b) / 256) with b by lia.
  rewrite lor_shiftl by exact Hb. change (2 ^ 8) with 256. lia.
Qed.

(** What is hashed: with [mac] true exactly on the big endian machines, the octets of the name
    space, whichever the machine. *)
Lemma memory_octets be u : legal u ->
  memory_of be (Uuid (htn32 be (d1 u)) (htn16 be (d2 u)) (htn16 be (d3 u)) (d4 u)) = octets u.
Proof.
  intros (H1 & H2 & H3 & H4 & H5). unfold memory_of, octets. cbn [d1 d2 d3 d4].
  destruct (four_bytes _ H1) as (a & b & c & d & Ha & Hb & Hc & Hd & E1).
  change (2 ^ 16) with 65536 in *. change (2 ^ 24) with 16777216. change (2 ^ 8) with 256.
  assert (E2 : d2 u = d2 u mod 256 + 256 * (d2 u / 256)) by lia. assert (d2 u mod 256 < 256) by lia. assert (d2 u / 256 < 256) by lia.
  assert (E3 : d3 u = d3 u mod 256 + 256 * (d3 u / 256)) by lia. assert (d3 u mod 256 < 256) by lia. assert (d3 u / 256 < 256) by lia.
  destruct be; unfold htn32, htn16, store32, store16.
  - cbn [rev app]. reflexivity.
  - rewrite E1, swab32_bytes by assumption. rewrite E2 at 1 2. rewrite E3 at 1 2. rewrite !swab16_bytes by assumption.
    cbn [app].
    do 4 (apply (f_equal2 (@cons N)); [clear - Ha Hb Hc Hd; lia|]).
    do 2 (apply (f_equal2 (@cons N)); [clear - H H0; revert H H0; generalize (d2 u mod 256) (d2 u / 256); intros; lia|]).
    do 2 (apply (f_equal2 (@cons N)); [clear - H6 H7; revert H6 H7; generalize (d3 u mod 256) (d3 u / 256); intros; lia|]).
    reflexivity.
Qed.

Lemma land_small x k : N.land x (N.ones k) = x mod 2 ^ k.
Proof. apply N.land_ones. Qed.

(** The fields read from the hash and stamped are the octets of the hash, stamped. *)
Lemma format_v3_octets be h : length h = 16%nat -> Forall (fun b => b < 256) h ->
  octets (format_uuid_v3 be be h) = version_and_variant h /\ legal (format_uuid_v3 be be h).
Proof.
  intros L F.
  do 16 (destruct h as [|? h]; [discriminate|]). destruct h; [|discriminate].
  repeat match goal with K : Forall _ (_ :: _) |- _ => inversion K; clear K; subst end.
  unfold format_uuid_v3, uuid_at. cbn [firstn skipn d1 d2 d3 d4 nth upd].
  assert (R32 : forall a b c d, a < 256 -> b < 256 -> c < 256 -> d < 256 ->
    htn32 be (load32 be [a; b; c; d]) = d + 256 * c + 65536 * b + 16777216 * a).
  { intros a b c d Ha Hb Hc Hd. destruct be; unfold htn32, load32; cbn [rev app]; [lia|]. now apply swab32_bytes. }
  assert (R16 : forall a b, a < 256 -> b < 256 -> htn16 be (load16 be [a; b]) = b + 256 * a).
  { intros a b Ha Hb. destruct be; unfold htn16, load16; cbn [rev app]; [lia|]. now apply swab16_bytes. }
  rewrite R32, !R16 by assumption.
  change 0x0FFF with (N.ones 12). change 0x3F with (N.ones 6). rewrite !land_small.
  rewrite N.lor_comm, lor_shiftl by (apply N.mod_lt; discriminate).
  rewrite (N.lor_comm _ 128). change 128 with (N.shiftl 2 6) at 1. change 128 with (N.shiftl 2 6) at 1.
  rewrite lor_shiftl by (apply N.mod_lt; discriminate).
  change (2 ^ 12) with 4096. change (2 ^ 6) with 64.
  split.
  - unfold octets, version_and_variant. cbn [d1 d2 d3 d4 app upd nth].
    change (2 ^ 16) with 65536 in *. change (2 ^ 24) with 16777216. change (2 ^ 8) with 256.
    repeat (apply (f_equal2 (@cons N)); [lia|]). reflexivity.
  - unfold legal. cbn [d1 d2 d3 d4]. change (2 ^ 16) with 65536. change (2 ^ 32) with 4294967296.
    split; [lia|]. split; [lia|]. split; [lia|]. split; [reflexivity|].
    repeat (constructor; [lia|]). constructor.
Qed.

Lemma le_bytes_length k : forall x, length (MD5_Spec.le_bytes k x) = k.
Proof. induction k as [|k IH]; intros x; cbn [MD5_Spec.le_bytes length]; [reflexivity|]. now rewrite IH. Qed.
Lemma md5_shape msg : length (MD5_Spec.md5 msg) = 16%nat /\ Forall (fun b => b < 256) (MD5_Spec.md5 msg).
Proof.
  unfold MD5_Spec.md5. destruct (fold_left _ _ _) as [[[a b] c] d]. split.
  - rewrite !app_length, !le_bytes_length. reflexivity.
  - repeat (apply Forall_app; split; [apply byte_le|]). apply byte_le.
Qed.

Lemma octets_bytes u : legal u -> Forall (fun b => b < 256) (octets u).
Proof.
  intros (H1 & H2 & H3 & H4 & H5). unfold octets. apply Forall_app. split; [|exact H5].
  change (2 ^ 16) with 65536 in *. change (2 ^ 24) with 16777216. change (2 ^ 8) with 256. change (2 ^ 32) with 4294967296 in *.
  repeat (constructor; [lia|]). constructor.
Qed.

Lemma create_from_name be junk ns name len : legal ns -> length junk = 64%nat -> Forall (fun b => b < 256) name ->
  exists u, uuid_create_from_name be be junk ns name len = Some u /\ legal u /\
            octets u = name_uuid_octets ns (firstn len name).
Proof.
  intros Hn Hj Hb. unfold uuid_create_from_name. rewrite (memory_octets be ns Hn).
  destruct (Rep_update _ _ (octets ns) (Rep_reset _ Hj)) as (c1 & -> & R1). cbn [app] in R1.
  destruct (Rep_update _ _ (firstn len name) R1) as (c2 & -> & R2).
  assert (FB : Forall (fun b => b < 256) (firstn len name)).
  { rewrite <- (firstn_skipn len name) in Hb. apply Forall_app in Hb as [Hb _]. exact Hb. }
  destruct (final_spec _ _ R2) as (m & -> & _).
  { apply Forall_app; split; [now apply octets_bytes|exact FB]. }
  destruct (md5_shape (octets ns ++ firstn len name)) as [S1 S2].
  destruct (format_v3_octets be _ S1 S2) as [F1 F2].
  eexists. split; [reflexivity|]. split; [exact F2|]. exact F1.
Qed.

Lemma from_bytes x : x = ((x / 16777216 * 256 + x / 65536 mod 256) * 256 + x / 256 mod 256) * 256 + x mod 256.
Proof.
  change 16777216 with (256 * 256 * 256). change 65536 with (256 * 256). rewrite <- !N.div_div by lia.
  pose proof (N.div_mod x 256 ltac:(lia)). pose proof (N.div_mod (x / 256) 256 ltac:(lia)).
  pose proof (N.div_mod (x / 256 / 256) 256 ltac:(lia)).
  revert H H0 H1. generalize (x / 256 / 256 / 256) (x / 256 / 256 mod 256) (x / 256 / 256) (x / 256 mod 256) (x / 256) (x mod 256).
  intros; lia.
Qed.
Lemma octets_inj a b : legal a -> legal b -> octets a = octets b -> a = b.
Proof.
  intros (A1 & A2 & A3 & A4 & A5) (B1 & B2 & B3 & B4 & B5) E. unfold octets in E. cbn [app] in E.
  change (2 ^ 16) with 65536 in *. change (2 ^ 24) with 16777216 in *. change (2 ^ 8) with 256 in *. change (2 ^ 32) with 4294967296 in *.
  injection E as E0 E1 E2 E3 E4 E5 E6 E7 E8.
  destruct a as [a1 a2 a3 a4], b as [b1 b2 b3 b4]. cbn [d1 d2 d3 d4] in *. subst b4.
  assert (a1 = b1) as -> by (rewrite (from_bytes a1), (from_bytes b1), E0, E1, E2, E3; reflexivity).
  assert (a2 = b2) as -> by (rewrite (N.div_mod a2 256), (N.div_mod b2 256), E4, E5 by discriminate; reflexivity).
  assert (a3 = b3) as -> by (rewrite (N.div_mod a3 256), (N.div_mod b3 256), E6, E7 by discriminate; reflexivity).
  reflexivity.
Qed.
