From Verif Require Import Prelude Bits Unicode_Model Unicode_Spec.
Local Open Scope N_scope.

Lemma land63 x : N.land x 63 = x mod 64.
Proof. exact (N.land_ones x 6). Qed.
Lemma land31 x : N.land x 31 = x mod 32.
Proof. exact (N.land_ones x 5). Qed.
Lemma land15 x : N.land x 15 = x mod 16.
Proof. exact (N.land_ones x 4). Qed.
Lemma land127 x : N.land x 127 = x mod 128.
Proof. exact (N.land_ones x 7). Qed.
Lemma land1023 x : N.land x 0x3FF = x mod 1024.
Proof. exact (N.land_ones x 10). Qed.

Lemma sweep (P : N -> bool) (n : nat) :
  forallb P (map N.of_nat (seq 0 n)) = true -> forall x, x < N.of_nat n -> P x = true.
Proof.
  intros H x Hx. rewrite forallb_forall in H. apply H. apply in_map_iff.
  exists (N.to_nat x). split; [lia|]. apply in_seq. lia.
Qed.

Lemma add_header k x : (k = 192 \/ k = 128) -> x < 64 -> add_mask k x = k + x.
Proof.
  intros Hk Hx. apply N.eqb_eq.
  destruct Hk; subst k; revert x Hx;
  (apply (sweep (fun x => add_mask _ x =? _ + x) 64); vm_compute; reflexivity).
Qed.
Lemma add_header3 x : x < 16 -> add_mask 224 x = 224 + x.
Proof. intros Hx. apply N.eqb_eq. revert x Hx.
  apply (sweep (fun x => add_mask 224 x =? 224 + x) 16). vm_compute; reflexivity. Qed.
Lemma add_header4 x : x < 8 -> add_mask 240 x = 240 + x.
Proof. intros Hx. apply N.eqb_eq. revert x Hx.
  apply (sweep (fun x => add_mask 240 x =? 240 + x) 8). vm_compute; reflexivity. Qed.

Lemma demote_frag k x : demote_fragment k x = x / 2 ^ ((k - 1) * 6) mod 64.
Proof. unfold demote_fragment. now rewrite land63, N.shiftr_div_pow2. Qed.

Lemma utf32_to_utf8_spec c : scalar c -> utf32_to_utf8 c = utf8 c.
Proof.
  intros Hc. unfold scalar in Hc. unfold utf32_to_utf8, utf8.
  change (2 ^ 7) with 0x80. change (2 ^ 11) with 0x800. change (2 ^ 16) with 0x10000.
  change (2 ^ 21) with 0x200000.
  destruct (N.ltb_spec c 0x80); [reflexivity|].
  destruct (N.ltb_spec c 0x800).
  - cbn [demote]. change (N.of_nat 2) with 2. change (N.of_nat 1) with 1.
    change (header 2) with 192. change (header 0) with 128.
    rewrite !demote_frag. cbn [N.sub N.mul Pos.mul Pos.sub N.pow Pos.pow Pos.iter Pos.pred_double Pos.pred].
    change (2 ^ ((2 - 1) * 6)) with 64. change (2 ^ ((1 - 1) * 6)) with 1. rewrite N.div_1_r.
    rewrite !add_header by (auto; lia). f_equal. lia.
  - destruct (N.ltb_spec c 0x10000).
    + cbn [demote]. change (N.of_nat 2) with 2. change (N.of_nat 1) with 1. change (N.of_nat 3) with 3.
      change (header 3) with 224. change (header 0) with 128.
      rewrite !demote_frag. change (2 ^ ((3 - 1) * 6)) with 4096.
      change (2 ^ ((2 - 1) * 6)) with 64. change (2 ^ ((1 - 1) * 6)) with 1. rewrite N.div_1_r.
      rewrite add_header3, !add_header by (auto; lia). f_equal. lia.
    + destruct (N.ltb_spec c 0x200000); [|lia].
      cbn [demote]. change (N.of_nat 2) with 2. change (N.of_nat 1) with 1. change (N.of_nat 3) with 3.
      change (N.of_nat 4) with 4.
      change (header 4) with 240. change (header 0) with 128.
      rewrite !demote_frag. change (2 ^ ((3 - 1) * 6)) with 4096. change (2 ^ ((4 - 1) * 6)) with 262144.
      change (2 ^ ((2 - 1) * 6)) with 64. change (2 ^ ((1 - 1) * 6)) with 1. rewrite N.div_1_r.
      rewrite add_header4, !add_header by (auto; lia). f_equal. lia.
Qed.

Lemma utf32_to_utf16_spec c : scalar c -> utf32_to_utf16 c = utf16 c.
Proof.
  intros Hc. unfold scalar in Hc. unfold utf32_to_utf16, utf16.
  destruct (N.ltb_spec c 0x10000); [reflexivity|].
  rewrite land1023, N.shiftr_div_pow2. change (2 ^ 10) with 1024. change (2 ^ 16) with 0x10000.
  f_equal; [|f_equal; lia].
  rewrite N.mod_small; lia.
Qed.

Lemma lor_cont x y : y < 64 -> N.lor (N.shiftl x 6) y = x * 64 + y.
Proof. intros H. exact (lor_shiftl x y 6 H). Qed.

Lemma strip_cont b : strip_mask 128 b = b mod 128.
Proof. unfold strip_mask. change (255 - 128) with 127. apply land127. Qed.
Lemma strip2 b : strip_mask 192 b = b mod 64.
Proof. unfold strip_mask. change (255 - 192) with 63. apply land63. Qed.
Lemma strip3 b : strip_mask 224 b = b mod 32.
Proof. unfold strip_mask. change (255 - 224) with 31. apply land31. Qed.
Lemma strip4 b : strip_mask 240 b = b mod 16.
Proof. unfold strip_mask. change (255 - 240) with 15. apply land15. Qed.
Lemma promote_frag k x : promote_fragment k x = x * 2 ^ ((k - 1) * 6).
Proof. unfold promote_fragment. apply N.shiftl_mul_pow2. Qed.
Lemma lor_add a b k : b < 2 ^ k -> N.lor (a * 2 ^ k) b = a * 2 ^ k + b.
Proof. intros H. rewrite <- N.shiftl_mul_pow2. rewrite lor_shiftl by exact H.
  now rewrite N.shiftl_mul_pow2. Qed.

Lemma promote1_eq b r : promote 1 false (b :: r) = Some (b mod 128, r).
Proof.
  cbn [promote]. change (N.of_nat 1) with 1. change (header 0) with 128.
  rewrite strip_cont, promote_frag. change (2 ^ ((1 - 1) * 6)) with 1.
  now rewrite N.mul_1_r.
Qed.
Lemma promote2_eq b c r : b < 256 ->
  promote 2 false (b :: c :: r) = Some (N.lor (b mod 128 * 64) (c mod 128), r).
Proof.
  intros _. change (promote 2 false (b :: c :: r)) with
   (match promote 1 false (c :: r) with
    | Some (x, rest') => Some (N.lor (promote_fragment 2 (strip_mask 128 b)) x, rest') | None => None end).
  rewrite promote1_eq, strip_cont, promote_frag. reflexivity.
Qed.

Lemma dec2 a b r : 0xC0 <= a <= 0xDF -> 0x80 <= b <= 0xBF ->
  promote 2 true (a :: b :: r) = Some ((a - 0xC0) * 64 + (b - 0x80), r).
Proof.
  intros Ha Hb. change (promote 2 true (a :: b :: r)) with
   (match promote 1 false (b :: r) with
    | Some (x, rest') => Some (N.lor (promote_fragment 2 (strip_mask 192 a)) x, rest') | None => None end).
  rewrite promote1_eq, strip2, promote_frag.
  replace (b mod 128) with (b - 0x80) by lia. replace (a mod 64) with (a - 0xC0) by lia.
  change ((2 - 1) * 6) with 6. rewrite (lor_add _ _ 6) by (change (2 ^ 6) with 64; lia). reflexivity.
Qed.
Lemma cont2 b c r : 0x80 <= b <= 0xBF -> 0x80 <= c <= 0xBF ->
  promote 2 false (b :: c :: r) = Some ((b - 0x80) * 64 + (c - 0x80), r).
Proof.
  intros Hb Hc. rewrite promote2_eq by lia.
  replace (b mod 128) with (b - 0x80) by lia. replace (c mod 128) with (c - 0x80) by lia.
  change 64 with (2 ^ 6) at 1. rewrite (lor_add _ _ 6) by (change (2 ^ 6) with 64; lia). reflexivity.
Qed.
Lemma dec3 a b c r : 0xE0 <= a <= 0xEF -> 0x80 <= b <= 0xBF -> 0x80 <= c <= 0xBF ->
  promote 3 true (a :: b :: c :: r) = Some ((a - 0xE0) * 4096 + (b - 0x80) * 64 + (c - 0x80), r).
Proof.
  intros Ha Hb Hc. change (promote 3 true (a :: b :: c :: r)) with
   (match promote 2 false (b :: c :: r) with
    | Some (x, rest') => Some (N.lor (promote_fragment 3 (strip_mask 224 a)) x, rest') | None => None end).
  rewrite cont2, strip3, promote_frag by lia.
  replace (a mod 32) with (a - 0xE0) by lia.
  change ((3 - 1) * 6) with 12. rewrite (lor_add _ _ 12) by (change (2 ^ 12) with 4096; lia).
  change (2 ^ 12) with 4096. now rewrite N.add_assoc.
Qed.
Lemma cont3 b c d r : 0x80 <= b <= 0xBF -> 0x80 <= c <= 0xBF -> 0x80 <= d <= 0xBF ->
  promote 3 false (b :: c :: d :: r) = Some ((b - 0x80) * 4096 + (c - 0x80) * 64 + (d - 0x80), r).
Proof.
  intros Hb Hc Hd. change (promote 3 false (b :: c :: d :: r)) with
   (match promote 2 false (c :: d :: r) with
    | Some (x, rest') => Some (N.lor (promote_fragment 3 (strip_mask 128 b)) x, rest') | None => None end).
  rewrite cont2, strip_cont, promote_frag by lia.
  replace (b mod 128) with (b - 0x80) by lia.
  change ((3 - 1) * 6) with 12. rewrite (lor_add _ _ 12) by (change (2 ^ 12) with 4096; lia).
  change (2 ^ 12) with 4096. now rewrite N.add_assoc.
Qed.
Lemma dec4 a b c d r : 0xF0 <= a <= 0xF7 -> 0x80 <= b <= 0xBF -> 0x80 <= c <= 0xBF -> 0x80 <= d <= 0xBF ->
  promote 4 true (a :: b :: c :: d :: r) =
  Some ((a - 0xF0) * 262144 + (b - 0x80) * 4096 + (c - 0x80) * 64 + (d - 0x80), r).
Proof.
  intros Ha Hb Hc Hd. change (promote 4 true (a :: b :: c :: d :: r)) with
   (match promote 3 false (b :: c :: d :: r) with
    | Some (x, rest') => Some (N.lor (promote_fragment 4 (strip_mask 240 a)) x, rest') | None => None end).
  rewrite cont3, strip4, promote_frag by lia.
  replace (a mod 16) with (a - 0xF0) by lia.
  change ((4 - 1) * 6) with 18. rewrite (lor_add _ _ 18) by (change (2 ^ 18) with 262144; lia).
  change (2 ^ 18) with 262144. now rewrite !N.add_assoc.
Qed.

Lemma decode_utf8 c r p : scalar c -> to_utf32_8 (utf8 c ++ r) p = Some (c, r).
Proof.
  intros Hc. unfold scalar in Hc. unfold utf8.
  destruct (N.ltb_spec c 0x80).
  { simpl. unfold pivot_1. destruct (N.ltb_spec c 128); [reflexivity|lia]. }
  destruct (N.ltb_spec c 0x800).
  { simpl app. unfold to_utf32_8, pivot_1, pivot_3.
    destruct (N.ltb_spec (0xC0 + c / 64) 128); [lia|].
    destruct (N.ltb_spec (0xC0 + c / 64) 224); [|lia].
    rewrite dec2 by lia. do 2 f_equal. lia. }
  destruct (N.ltb_spec c 0x10000).
  { simpl app. unfold to_utf32_8, pivot_1, pivot_3, pivot_4.
    destruct (N.ltb_spec (0xE0 + c / 4096) 128); [lia|].
    destruct (N.ltb_spec (0xE0 + c / 4096) 224); [lia|].
    destruct (N.ltb_spec (0xE0 + c / 4096) 240); [|lia].
    rewrite dec3 by lia. do 2 f_equal. lia. }
  { simpl app. unfold to_utf32_8, pivot_1, pivot_3, pivot_4, pivot_5.
    destruct (N.ltb_spec (0xF0 + c / 262144) 128); [lia|].
    destruct (N.ltb_spec (0xF0 + c / 262144) 224); [lia|].
    destruct (N.ltb_spec (0xF0 + c / 262144) 240); [lia|].
    destruct (N.ltb_spec (0xF0 + c / 262144) 248); [|lia].
    rewrite dec4 by lia. do 2 f_equal. lia. }
Qed.

Lemma decode_utf16 c r p : scalar c -> to_utf32_16 (utf16 c ++ r) p = Some (c, r).
Proof.
  intros Hc. unfold scalar in Hc. unfold utf16.
  destruct (N.ltb_spec c 0x10000).
  - simpl. destruct (N.ltb_spec c 0xD800); [reflexivity|].
    destruct (N.ltb_spec c 0xDC00); [lia|reflexivity].
  - simpl app. unfold to_utf32_16.
    destruct (N.ltb_spec (0xD800 + (c - 0x10000) / 1024) 0xD800); [lia|].
    destruct (N.ltb_spec (0xD800 + (c - 0x10000) / 1024) 0xDC00); [|lia].
    rewrite N.shiftl_mul_pow2. change (2 ^ 10) with 1024. do 2 f_equal. lia.
Qed.

(** The encoding form of a width. *)
Definition enc (w : width) (c : N) : list N :=
  match w with W8 => utf8 c | W16 => utf16 c | W32 => utf32 c end.

Lemma decode_enc w c r p : scalar c -> to_utf32 w (enc w c ++ r) p = Some (c, r).
Proof. destruct w; simpl; intros; auto using decode_utf8, decode_utf16. Qed.

Lemma emit_enc w c : scalar c -> emit w c = enc w c.
Proof. destruct w; simpl; intros; auto using utf32_to_utf8_spec, utf32_to_utf16_spec. Qed.

Lemma enc_nonempty w c : enc w c <> [].
Proof. destruct w; simpl; unfold utf8, utf16, utf32;
  repeat match goal with |- context [if ?b then _ else _] => destruct b end; discriminate. Qed.

Lemma iterate_enc src dst junk cs : forall fuel prev out,
  Forall scalar cs -> (length cs <= fuel)%nat ->
  iterate fuel src dst junk prev (concat (map (enc src) cs)) out
  = Some ([], out ++ concat (map (enc dst) cs)).
Proof.
  induction cs as [|c cs IH]; intros fuel prev out Hs Hf; simpl in *.
  - rewrite app_nil_r. destruct fuel; reflexivity.
  - destruct fuel as [|fuel]; [lia|]. inversion Hs as [|? ? Hc Hcs]; subst.
    cbn [iterate]. destruct (enc src c ++ concat (map (enc src) cs)) as [|x l] eqn:E.
    { destruct (enc src c) eqn:E2; [now apply enc_nonempty in E2|discriminate]. }
    rewrite <- E. rewrite decode_enc by auto. rewrite IH by (auto; lia).
    rewrite emit_enc by auto. now rewrite <- app_assoc.
Qed.

Lemma enc_length w c : (1 <= length (enc w c))%nat.
Proof. destruct (enc w c) eqn:E; [now apply enc_nonempty in E|simpl; lia]. Qed.

Lemma concat_enc_length w cs : (length cs <= length (concat (map (enc w) cs)))%nat.
Proof. induction cs as [|c cs IH]; simpl; [lia|]. rewrite app_length.
  pose proof (enc_length w c). lia. Qed.

Lemma copy_utf_enc src dst junk cs fuel :
  Forall scalar cs -> (length (concat (map (enc src) cs)) <= fuel)%nat ->
  copy_utf fuel src dst junk (concat (map (enc src) cs)) = Some ([], concat (map (enc dst) cs)).
Proof.
  intros Hs Hf. pose proof (concat_enc_length src cs).
  unfold copy_utf. destruct src, dst; try reflexivity; rewrite iterate_enc by (auto; lia); reflexivity.
Qed.

(** Table 3-7 *)
Lemma utf8_well_formed c : scalar c -> well_formed_utf8 (utf8 c) = true.
Proof.
  intros Hc. unfold scalar in Hc. unfold utf8.
  destruct (N.ltb_spec c 0x80); [unfold well_formed_utf8, within; lia|].
  destruct (N.ltb_spec c 0x800); [unfold well_formed_utf8, within; lia|].
  destruct (N.ltb_spec c 0x10000); unfold well_formed_utf8, within; lia.
Qed.

Lemma well_formed_utf8_inv bs : well_formed_utf8 bs = true ->
  exists c, scalar c /\ bs = utf8 c.
Proof.
  intros H. destruct bs as [|a [|b [|c [|d [|e bs]]]]]; try discriminate;
  unfold well_formed_utf8, within in H; unfold scalar.
  - exists a. split; [lia|]. unfold utf8. destruct (N.ltb_spec a 0x80); [reflexivity|lia].
  - exists ((a - 0xC0) * 64 + (b - 0x80)). split; [lia|]. unfold utf8.
    destruct (N.ltb_spec ((a - 0xC0) * 64 + (b - 0x80)) 0x80); [lia|].
    destruct (N.ltb_spec ((a - 0xC0) * 64 + (b - 0x80)) 0x800); [|lia].
    repeat f_equal; lia.
  - set (v := (a - 0xE0) * 4096 + (b - 0x80) * 64 + (c - 0x80)).
    assert (Hr : 0x800 <= v /\ (v < 0xD800 \/ 0xE000 <= v < 0x10000)) by (unfold v; lia).
    assert (Hbc : 0xE0 <= a <= 0xEF /\ 0x80 <= b <= 0xBF /\ 0x80 <= c <= 0xBF) by lia.
    exists v. split; [lia|]. unfold utf8.
    destruct (N.ltb_spec v 0x80); [lia|]. destruct (N.ltb_spec v 0x800); [lia|].
    destruct (N.ltb_spec v 0x10000); [|lia]. clear H. unfold v. repeat f_equal; lia.
  - set (v := (a - 0xF0) * 262144 + (b - 0x80) * 4096 + (c - 0x80) * 64 + (d - 0x80)).
    assert (Hr : 0x10000 <= v < 0x110000) by (unfold v; lia).
    assert (Hbc : 0xF0 <= a <= 0xF4 /\ 0x80 <= b <= 0xBF /\ 0x80 <= c <= 0xBF /\ 0x80 <= d <= 0xBF) by lia.
    exists v. split; [lia|]. unfold utf8.
    destruct (N.ltb_spec v 0x80); [lia|]. destruct (N.ltb_spec v 0x800); [lia|].
    destruct (N.ltb_spec v 0x10000); [lia|]. clear H. unfold v. repeat f_equal; lia.
Qed.

(** Arbitrary input: progress, bounds. *)
Lemma promote_total n h first : first <> [] ->
  exists v rest, promote (S n) h first = Some (v, rest) /\
    exists pre, first = pre ++ rest /\ pre <> [] .
Proof.
  revert h first; induction n as [|n IH]; intros h first Hne;
  destruct first as [|a rest]; try congruence.
  - cbn [promote]. eexists _, _; split; [reflexivity|]. exists [a]. split; [reflexivity|discriminate].
  - change (promote (S (S n)) h (a :: rest)) with
     (match rest with
      | [] => Some (0, [])
      | _ => match promote (S n) false rest with
             | Some (r, rest') => Some (N.lor (promote_fragment (N.of_nat (S (S n)))
                 (strip_mask (header (if h then N.of_nat (S (S n)) else 0)) a)) r, rest')
             | None => None end end).
    destruct rest as [|b rest].
    + eexists _, _; split; [reflexivity|]. exists [a]. split; [reflexivity|discriminate].
    + destruct (IH false (b :: rest) ltac:(discriminate)) as (v & r & -> & pre & Hpre & Hn).
      eexists _, _; split; [reflexivity|]. exists (a :: pre). rewrite Hpre. split; [reflexivity|discriminate].
Qed.

Lemma utf32_to_utf8_len c : (length (utf32_to_utf8 c) <= 4)%nat.
Proof. unfold utf32_to_utf8.
  repeat match goal with |- context [if ?b then _ else _] => destruct b end; simpl; lia. Qed.
Lemma utf32_to_utf16_len c : (length (utf32_to_utf16 c) <= 2)%nat.
Proof. unfold utf32_to_utf16. destruct (_ <? _); simpl; lia. Qed.
Lemma utf32_to_utf16_len1 c : c < 0x10000 -> length (utf32_to_utf16 c) = 1%nat.
Proof. intros H. unfold utf32_to_utf16. destruct (N.ltb_spec c 0x10000); [reflexivity|lia]. Qed.
Lemma utf32_to_utf8_len3 c : c < 0x10000 -> (length (utf32_to_utf8 c) <= 3)%nat.
Proof. intros H. unfold utf32_to_utf8. change (2 ^ 16) with 0x10000.
  destruct (_ <? 2 ^ 7); [simpl; lia|]. destruct (_ <? 2 ^ 11); [simpl; lia|].
  destruct (N.ltb_spec c 0x10000); [simpl; lia|lia]. Qed.

(** A 2 or 3 byte form yields a value below 2^16 whatever the bytes. *)
Lemma promote_bound n h first v rest : (n <= 2)%nat ->
  (h = true -> exists a r, first = a :: r /\ (n = 1%nat \/ (n = 2%nat /\ 224 <= a < 240))) ->
  promote (S n) h first = Some (v, rest) -> v < 2 ^ (N.of_nat n * 6 + (if h then (if (n =? 2)%nat then 4 else 6) else 7)).
Proof.
  revert h first v rest; induction n as [|n IH]; intros h first v rest Hn Hh Hp;
  (destruct first as [|a first]; [discriminate|]).
  - cbn [promote] in Hp. injection Hp as <- <-. change (N.of_nat 1) with 1.
    rewrite promote_frag. change (2 ^ ((1 - 1) * 6)) with 1. rewrite N.mul_1_r.
    destruct h.
    + destruct (Hh eq_refl) as (? & ? & _ & [?|[? _]]); lia.
    + change (header 0) with 128. rewrite strip_cont. simpl. lia.
  - change (promote (S (S n)) h (a :: first)) with
     (match first with
      | [] => Some (0, [])
      | _ => match promote (S n) false first with
             | Some (r, rest') => Some (N.lor (promote_fragment (N.of_nat (S (S n)))
                 (strip_mask (header (if h then N.of_nat (S (S n)) else 0)) a)) r, rest')
             | None => None end end) in Hp.
    destruct first as [|b first].
    { injection Hp as <- <-. apply N.neq_0_lt_0. apply N.pow_nonzero. lia. }
    destruct (promote (S n) false (b :: first)) as [[r rest']|] eqn:E; [|discriminate].
    injection Hp as <- <-.
    assert (Hr := IH false (b :: first) r rest' ltac:(lia) ltac:(discriminate) E).
    cbn [Nat.eqb] in Hr.
    assert (Hcase : n = 0%nat \/ n = 1%nat) by lia.
    apply lor_lt.
    + rewrite promote_frag. destruct Hcase as [-> | ->].
      * change (N.of_nat 2) with 2. change (2 ^ ((2 - 1) * 6)) with 64. destruct h.
        -- change (header 2) with 192. rewrite strip2. simpl. lia.
        -- change (header 0) with 128. rewrite strip_cont. simpl. lia.
      * change (N.of_nat 3) with 3. change (2 ^ ((3 - 1) * 6)) with 4096. destruct h.
        -- change (header 3) with 224. rewrite strip3. simpl.
           destruct (Hh eq_refl) as (a' & ? & Heq & [?|[_ Ha]]); [lia|].
           injection Heq as <- <-. lia.
        -- change (header 0) with 128. rewrite strip_cont. simpl. lia.
    + eapply N.lt_le_trans; [exact Hr|]. apply N.pow_le_mono_r; [lia|].
      destruct Hcase as [-> | ->]; destruct h; simpl; lia.
Qed.

Lemma promote_short n h first v rest : promote (S (S n)) h first = Some (v, rest) ->
  (exists a, first = [a] /\ v = 0 /\ rest = []) \/
  (exists pre, first = pre ++ rest /\ (2 <= length pre)%nat).
Proof.
  destruct first as [|a first]; [discriminate|].
  change (promote (S (S n)) h (a :: first)) with
     (match first with
      | [] => Some (0, [])
      | _ => match promote (S n) false first with
             | Some (r, rest') => Some (N.lor (promote_fragment (N.of_nat (S (S n)))
                 (strip_mask (header (if h then N.of_nat (S (S n)) else 0)) a)) r, rest')
             | None => None end end).
  destruct first as [|b first]; intros Hp.
  - injection Hp as <- <-. left. eauto.
  - right. destruct (promote_total n false (b :: first) ltac:(discriminate)) as (x & r & E & pre & Hpre & Hn).
    rewrite E in Hp. injection Hp as <- <-. exists (a :: pre). rewrite Hpre. split; [reflexivity|].
    destruct pre; [congruence|simpl; lia].
Qed.

(** No decoder reads past the end. *)
Lemma to_utf32_total w first p : first <> [] -> exists code rest, to_utf32 w first p = Some (code, rest).
Proof.
  intros H. destruct first as [|a r]; [congruence|]. destruct w; cbn [to_utf32].
  - unfold to_utf32_8.
    destruct (_ <? _); [eauto|].
    destruct (_ <? _); [destruct (promote_total 1 true (a :: r)) as (v & t & E & _); eauto|].
    destruct (_ <? _); [destruct (promote_total 2 true (a :: r)) as (v & t & E & _); eauto|].
    destruct (_ <? _); [destruct (promote_total 3 true (a :: r)) as (v & t & E & _); eauto|]. eauto.
  - unfold to_utf32_16. destruct (_ <? _); [eauto|]. destruct (_ <? _); [|eauto]. destruct r; eauto.
  - simpl. eauto.
Qed.

Lemma iterate_no_overread fuel src dst junk : forall prev first out,
  exists r, iterate fuel src dst junk prev first out = Some r.
Proof.
  induction fuel as [|f IH]; intros prev first out; [simpl; eauto|].
  cbn [iterate]. destruct first as [|a r]; [eauto|].
  destruct (to_utf32_total src (a :: r) (entry_value dst (junk f) prev)) as (code & rest & ->);
    [discriminate|]. apply IH.
Qed.

Lemma copy_utf_no_overread fuel src dst junk input :
  exists r, copy_utf fuel src dst junk input = Some r.
Proof. unfold copy_utf. destruct src, dst; eauto using iterate_no_overread. Qed.

(** Inputs on which the bound is guaranteed. *)
Definition unit_bound (w : width) : N := match w with W8 => 0xF8 | W16 => 0x10000 | W32 => 2 ^ 32 end.
Definition lead (u : N) : bool := (0xD800 <=? u) && (u <? 0xDC00).
Definition tame (src dst : width) (input : list N) : Prop :=
  Forall (fun u => u < unit_bound src) input /\
  (src = W16 -> dst = W8 -> lead (last input 0) = false).

Lemma last_app_ne {A} (pre rest : list A) d : rest <> [] -> last (pre ++ rest) d = last rest d.
Proof.
  intros H. induction pre as [|a pre IH]; [reflexivity|].
  simpl. destruct (pre ++ rest) eqn:E; [|exact IH].
  destruct pre; simpl in E; congruence.
Qed.

Lemma tame_suffix src dst pre rest : rest <> [] -> tame src dst (pre ++ rest) -> tame src dst rest.
Proof.
  intros Hr [H1 H2]. split.
  - apply Forall_app in H1. tauto.
  - intros -> ->. rewrite <- (last_app_ne pre rest 0 Hr). auto.
Qed.

Lemma step_bound src dst first p code rest : tame src dst first -> 
  match src, dst with W8, W8 | W16, W16 => False | _, _ => True end ->
  to_utf32 src first p = Some (code, rest) ->
  exists pre, first = pre ++ rest /\ pre <> [] /\
    (length (emit dst code) <= expand_utf src dst * length pre)%nat.
Proof.
  intros [Hb Hl] Hne Hd. destruct first as [|a r]; [destruct src; discriminate|].
  inversion Hb as [|? ? Ha Hr]; subst.
  destruct src; cbn [to_utf32] in Hd.
  - (* UTF-8 source *)
    unfold to_utf32_8 in Hd. cbn [unit_bound] in Ha. unfold pivot_1, pivot_3, pivot_4, pivot_5 in Hd.
    assert (Hone : forall pre : list N, code < 0x10000 -> pre <> [] ->
        (length (emit dst code) <= expand_utf W8 dst * length pre)%nat).
    { intros pre Hc Hp. assert (1 <= length pre)%nat by (destruct pre; [congruence|simpl; lia]).
      destruct dst; [contradiction| |simpl; lia].
      cbn [emit expand_utf]. rewrite utf32_to_utf16_len1 by exact Hc. lia. }
    destruct (N.ltb_spec a 128).
    { injection Hd as <- <-. exists [a]. split; [reflexivity|]. split; [discriminate|].
      apply Hone; [lia|discriminate]. }
    destruct (N.ltb_spec a 224).
    { destruct (promote_total 1 true (a :: r)) as (v & t & E & pre & Hpre & Hp); [discriminate|].
      rewrite E in Hd. injection Hd as <- <-. exists pre. split; [exact Hpre|]. split; [exact Hp|].
      apply Hone; [|exact Hp].
      assert (v < 2 ^ 12).
      { apply (promote_bound 1 true (a :: r) v t); [lia| |exact E]. intros _. eexists _, _. split; [reflexivity|]. now left. }
      change (2 ^ 12) with 4096 in *. lia. }
    destruct (N.ltb_spec a 240).
    { destruct (promote_total 2 true (a :: r)) as (v & t & E & pre & Hpre & Hp); [discriminate|].
      rewrite E in Hd. injection Hd as <- <-. exists pre. split; [exact Hpre|]. split; [exact Hp|].
      apply Hone; [|exact Hp].
      assert (v < 2 ^ 16).
      { apply (promote_bound 2 true (a :: r) v t); [lia| |exact E]. intros _. eexists _, _. split; [reflexivity|]. right. lia. }
      change (2 ^ 16) with 0x10000 in *. lia. }
    destruct (N.ltb_spec a 248); [|lia].
    destruct (promote_short 2 true (a :: r) code rest Hd) as [(b & Heq & -> & ->)|(pre & Hpre & Hlen)].
    { exists [b]. rewrite Heq. split; [reflexivity|]. split; [discriminate|]. apply Hone; [lia|discriminate]. }
    { exists pre. split; [exact Hpre|]. split; [destruct pre; [simpl in Hlen; lia|discriminate]|].
      destruct dst; [contradiction| |cbn [emit expand_utf length]; lia].
      cbn [emit expand_utf]. pose proof (utf32_to_utf16_len code). lia. }
  - (* UTF-16 source *)
    unfold to_utf32_16 in Hd. cbn [unit_bound] in *.
    assert (Hone : code < 0x10000 -> (length (emit dst code) <= expand_utf W16 dst * 1)%nat).
    { intros Hc. destruct dst; [|contradiction|simpl; lia].
      cbn [emit expand_utf]. pose proof (utf32_to_utf8_len3 code Hc). lia. }
    destruct (N.ltb_spec a 0xD800).
    { injection Hd as <- <-. exists [a]. split; [reflexivity|]. split; [discriminate|]. apply Hone. lia. }
    destruct (N.ltb_spec a 0xDC00).
    { destruct r as [|t r].
      - injection Hd as <- <-. exists [a]. split; [reflexivity|]. split; [discriminate|].
        destruct dst; [|contradiction|simpl; lia].
        specialize (Hl eq_refl eq_refl). unfold lead in Hl. cbn [last] in Hl. lia.
      - injection Hd as <- <-. exists [a; t]. split; [reflexivity|]. split; [discriminate|].
        destruct dst; [|contradiction|simpl; lia].
        cbn [emit expand_utf]. match goal with |- (length (utf32_to_utf8 ?c) <= _)%nat =>
          pose proof (utf32_to_utf8_len c) end. simpl (length [a; t]). lia. }
    { injection Hd as <- <-. exists [a]. split; [reflexivity|]. split; [discriminate|]. apply Hone. lia. }
  - (* UTF-32 source *)
    simpl in Hd. injection Hd as <- <-. exists [a]. split; [reflexivity|]. split; [discriminate|].
    destruct dst; cbn [emit expand_utf length].
    + pose proof (utf32_to_utf8_len a). lia.
    + pose proof (utf32_to_utf16_len a). lia.
    + lia.
Qed.

Lemma iterate_bound src dst junk : 
  match src, dst with W8, W8 | W16, W16 => False | _, _ => True end ->
  forall fuel prev first out, tame src dst first -> (length first <= fuel)%nat ->
  exists out', iterate fuel src dst junk prev first out = Some ([], out ++ out') /\
    (length out' <= expand_utf src dst * length first)%nat.
Proof.
  intros Hne. induction fuel as [|f IH]; intros prev first out Ht Hf.
  - destruct first; [|simpl in Hf; lia]. exists []. simpl. rewrite app_nil_r. split; [reflexivity|lia].
  - destruct first as [|a r].
    { exists []. simpl. rewrite app_nil_r. split; [reflexivity|lia]. }
    cbn [iterate]. remember (a :: r) as l.
    destruct (to_utf32_total src l (entry_value dst (junk f) prev)) as (code & rest & E); [subst; discriminate|].
    rewrite E. destruct (step_bound src dst l _ code rest Ht Hne E) as (pre & Hpre & Hp & Hlen).
    assert (Hpl : (1 <= length pre)%nat) by (destruct pre; [congruence|simpl; lia]).
    rewrite Hpre, app_length in Hf.
    destruct rest as [|b rest].
    + exists (emit dst code). subst l. rewrite Hpre, app_length.
      replace (iterate f src dst junk code [] (out ++ emit dst code)) with (Some (@nil N, out ++ emit dst code))
        by (destruct f; reflexivity).
      split; [reflexivity|]. simpl. lia.
    + destruct (IH code (b :: rest) (out ++ emit dst code)) as (out' & -> & Hlen').
      { eapply tame_suffix; [discriminate|]. rewrite <- Hpre. exact Ht. }
      { lia. }
      exists (emit dst code ++ out'). rewrite <- app_assoc. split; [reflexivity|].
      rewrite Hpre, !app_length. lia.
Qed.

Lemma copy_utf_bound src dst junk fuel input :
  tame src dst input -> (length input <= fuel)%nat ->
  exists out, copy_utf fuel src dst junk input = Some ([], out) /\
    (length out <= expand_utf src dst * length input)%nat.
Proof.
  intros Ht Hf. unfold copy_utf.
  destruct src, dst; try (eexists; split; [reflexivity|simpl; lia]);
  match goal with |- context [iterate _ ?s ?d _ _ _ _] =>
    destruct (iterate_bound s d junk I fuel (junk fuel) input [] Ht Hf) as (o & -> & Ho) end;
  exists o; split; auto.
Qed.

Lemma iterate_stuck n dst junk : forall prev out, dst = W16 \/ dst = W32 ->
  exists out', iterate n W8 dst junk prev [0xF8] out = Some ([0xF8], out ++ out') /\ (n <= length out')%nat.
Proof.
  induction n as [|n IH]; intros prev out Hd.
  - exists []. simpl. rewrite app_nil_r. split; [reflexivity|lia].
  - cbn [iterate to_utf32]. change (to_utf32_8 [0xF8] (entry_value dst (junk n) prev))
      with (Some (entry_value dst (junk n) prev, [0xF8])). cbv iota beta.
    set (c := entry_value dst (junk n) prev).
    destruct (IH c (out ++ emit dst c) Hd) as (out' & -> & Hlen).
    exists (emit dst c ++ out'). rewrite app_assoc. split; [reflexivity|]. rewrite app_length.
    assert (1 <= length (emit dst c))%nat; [|lia].
    destruct Hd as [-> | ->]; cbn [emit]; [|simpl; lia].
    unfold utf32_to_utf16. destruct (c <? 0x10000); simpl; lia.
Qed.
