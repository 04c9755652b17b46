(** The message-block engine of sha.hpp against FIPS 180-4 padding, for any compression function. *)
From Verif Require Import Prelude Bits Blocks Sha_Model.
From Verif Require Sha_Spec.
Local Open Scope N_scope.

(** ** be / be_bits *)
Lemma be_bits_length n : forall x, length (Sha_Spec.be_bits n x) = n.
Proof. induction n as [|n IH]; intros x; cbn [Sha_Spec.be_bits length]; auto. Qed.

Lemma be_bits_nth n : forall x p, (p < n)%nat ->
  nth p (Sha_Spec.be_bits n x) false = N.testbit x (N.of_nat (n - 1 - p)).
Proof.
  induction n as [|n IH]; intros x p Hp; [lia|]. cbn [Sha_Spec.be_bits].
  destruct p as [|p]; cbn [nth].
  - replace (S n - 1 - 0)%nat with n by lia. rewrite N.testbit_odd, N.shiftr_div_pow2. reflexivity.
  - rewrite IH by lia. f_equal. lia.
Qed.

Lemma be_snoc bs b : Sha_Spec.be (bs ++ [b]) = 2 * Sha_Spec.be bs + (if b then 1 else 0).
Proof. unfold Sha_Spec.be. rewrite fold_left_app. reflexivity. Qed.

Lemma be_lt bs : Sha_Spec.be bs < 2 ^ N.of_nat (length bs).
Proof.
  induction bs as [|b bs IH] using rev_ind; [reflexivity|].
  rewrite be_snoc, app_length. cbn [length].
  replace (N.of_nat (length bs + 1)) with (N.succ (N.of_nat (length bs))) by lia.
  rewrite N.pow_succ_r'. destruct b; lia.
Qed.

Lemma be_testbit bs : forall j, (j < length bs)%nat ->
  N.testbit (Sha_Spec.be bs) (N.of_nat j) = nth (length bs - 1 - j) bs false.
Proof.
  induction bs as [|b bs IH] using rev_ind; intros j Hj; [simpl in Hj; lia|].
  rewrite be_snoc. rewrite app_length in *. cbn [length] in *.
  destruct j as [|j].
  - change (N.of_nat 0) with 0. replace (length bs + 1 - 1 - 0)%nat with (length bs) by lia.
    rewrite nth_middle. rewrite N.bit0_odd. destruct b.
    + rewrite N.odd_add, N.odd_mul. reflexivity.
    + rewrite N.add_0_r, N.odd_mul. reflexivity.
  - rewrite Nat2N.inj_succ.
    replace (N.testbit (2 * Sha_Spec.be bs + (if b then 1 else 0)) (N.succ (N.of_nat j)))
      with (N.testbit (Sha_Spec.be bs) (N.of_nat j)).
    + rewrite IH by lia. rewrite app_nth1 by lia. f_equal. lia.
    + destruct b; [now rewrite N.testbit_odd_succ by lia|].
      rewrite N.add_0_r. now rewrite N.testbit_even_succ by lia.
Qed.

Lemma bits_of_bytes_length l : length (Sha_Spec.bits_of_bytes l) = (8 * length l)%nat.
Proof.
  induction l as [|b l IH]; [reflexivity|]. unfold Sha_Spec.bits_of_bytes in *. cbn [flat_map].
  rewrite app_length, be_bits_length, IH. cbn [length]. lia.
Qed.

Lemma app_inj_pivot_len {A} (a b c d : list A) : a ++ b = c ++ d -> length a = length c -> a = c /\ b = d.
Proof.
  revert c; induction a as [|x a IH]; intros [|y c] E Hl; simpl in *; try lia; auto.
  injection E as -> E. destruct (IH c E) as [-> ->]; [lia|auto].
Qed.

Section Engine.
Variable w : nat.
Hypothesis Hw : w = 32%nat \/ w = 64%nat.

(** Bit [p] of the message block. *)
Definition sbit (st : list N) (p : nat) : bool :=
  N.testbit (nth (p / w) st 0) (N.of_nat (w - 1 - p mod w)).

(** The 16 words hold the bits [t] followed by zeros. *)
Definition Holds (st : list N) (t : list bool) : Prop :=
  length st = 16%nat /\ Forall (fun x => x < 2 ^ N.of_nat w) st /\
  forall p, (p < 16 * w)%nat -> sbit st p = nth p t false.

Lemma Holds_zero : Holds (repeat 0 16) [].
Proof.
  split; [reflexivity|]. split.
  - apply Forall_forall. intros x Hx. apply repeat_spec in Hx as ->.
    destruct Hw as [-> | ->]; reflexivity.
  - intros p Hp. unfold sbit. replace (nth (p / w) (repeat 0 16) 0) with 0.
    + rewrite N.bits_0. destruct p; reflexivity.
    + symmetry. apply nth_repeat.
Qed.

Lemma nth_upd {A} (l : list A) i j x d : (i < length l)%nat ->
  nth j (upd l i x) d = if Nat.eqb i j then x else nth j l d.
Proof.
  revert i j; induction l as [|a l IH]; intros [|i] [|j] H; simpl in *; try lia; auto.
  rewrite IH by lia. reflexivity.
Qed.

Lemma Forall_upd {A} (P : A -> Prop) l i x : Forall P l -> P x -> Forall P (upd l i x).
Proof.
  intros HF Hx. revert i; induction HF as [|a l Ha HF IH]; intros [|i]; simpl; constructor; auto.
Qed.

Lemma Forall_nth_lt (P : N -> Prop) l i : P 0 -> Forall P l -> P (nth i l 0).
Proof.
  intros H0 HF. revert i; induction HF as [|a l Ha HF IH]; intros [|i]; simpl; auto.
Qed.

Lemma pow_pos k : 0 < 2 ^ k.
Proof. apply N.neq_0_lt_0. apply N.pow_nonzero. discriminate. Qed.

Lemma div_mod_w p : (p = p / w * w + p mod w)%nat /\ (p mod w < w)%nat.
Proof. destruct Hw as [-> | ->]; lia. Qed.

(** Overwriting or or-ing one word. *)
Lemma Holds_set st t t' d x : Holds st t -> (d < 16)%nat -> x < 2 ^ N.of_nat w ->
  (forall p, (p < 16 * w)%nat -> (p / w)%nat <> d -> nth p t' false = nth p t false) ->
  (forall q, (q < w)%nat -> N.testbit x (N.of_nat (w - 1 - q)) = nth (d * w + q) t' false) ->
  Holds (upd st d x) t'.
Proof.
  intros (Hl & HF & Hb) Hd Hx Ho Hs. split; [now rewrite upd_length|].
  split; [now apply Forall_upd|]. intros p Hp. unfold sbit.
  rewrite nth_upd by lia. destruct (Nat.eqb_spec d (p / w)) as [E|E].
  - rewrite Hs by apply div_mod_w. f_equal. rewrite E. symmetry. apply div_mod_w.
  - rewrite Ho by auto. apply Hb. exact Hp.
Qed.

Lemma or_into_spec st t t' d v : Holds st t -> (d < 16)%nat -> v < 2 ^ N.of_nat w ->
  (forall p, (p < 16 * w)%nat -> nth p t' false =
     orb (nth p t false) (if Nat.eqb (p / w) d then N.testbit v (N.of_nat (w - 1 - p mod w)) else false)) ->
  exists st', or_into st d v = Some st' /\ Holds st' t'.
Proof.
  intros HH Hd Hv Ht. destruct HH as (Hl & HF & Hb). unfold or_into.
  destruct (nth_error st d) as [x|] eqn:E; [|apply nth_error_None in E; lia].
  eexists; split; [reflexivity|].
  assert (Ex : nth d st 0 = x) by (now apply nth_error_nth).
  apply (Holds_set st t); auto.
  - repeat split; auto.
  - apply lor_lt; [|exact Hv]. rewrite <- Ex. apply Forall_nth_lt; [apply pow_pos|exact HF].
  - intros p Hp Hne. rewrite Ht by exact Hp.
    destruct (Nat.eqb_spec (p / w) d); [contradiction|]. apply orb_false_r.
  - intros q Hq. assert (Hp : (d * w + q < 16 * w)%nat) by nia.
    rewrite Ht by exact Hp. rewrite <- Hb by exact Hp. unfold sbit.
    assert (E1 : ((d * w + q) / w = d)%nat) by (destruct Hw as [-> | ->]; lia).
    assert (E2 : ((d * w + q) mod w = q)%nat) by (destruct Hw as [-> | ->]; lia).
    rewrite E1, E2, Nat.eqb_refl, Ex. apply N.lor_spec.
Qed.

Lemma nth_app_bits (t u : list bool) p :
  nth p (t ++ u) false = orb (nth p t false) (if (length t <=? p)%nat then nth (p - length t) u false else false).
Proof.
  destruct (Nat.leb_spec (length t) p).
  - rewrite app_nth2 by lia. rewrite (nth_overflow t) by lia. reflexivity.
  - rewrite app_nth1 by lia. now rewrite orb_false_r.
Qed.

(** One whole byte at a byte-aligned position. *)
Lemma or_byte st t b : Holds st t -> (length t mod 8 = 0)%nat -> (length t < 16 * w)%nat -> b < 256 ->
  exists st', or_into st (length t / w) (trunc (N.of_nat w) (N.shiftl (N.land b 0xff) (N.of_nat (w - 8 - length t mod w)))) = Some st'
    /\ Holds st' (t ++ Sha_Spec.be_bits 8 b).
Proof.
  intros HH Ha Hlt Hb. set (s := N.of_nat (w - 8 - length t mod w)).
  assert (Eb : N.land b 0xff = b).
  { change 0xff with (N.ones 8). rewrite N.land_ones. apply N.mod_small. exact Hb. }
  rewrite Eb.
  assert (Hvs : N.shiftl b s < 2 ^ N.of_nat w).
  { rewrite N.shiftl_mul_pow2. apply N.lt_le_trans with (2 ^ 8 * 2 ^ s).
    - apply N.mul_lt_mono_pos_r; [apply pow_pos|exact Hb].
    - rewrite <- N.pow_add_r. apply N.pow_le_mono_r; [lia|]. unfold s.
      destruct Hw as [-> | ->]; lia. }
  unfold trunc. rewrite N.mod_small by exact Hvs.
  apply (or_into_spec st t); auto.
  - destruct Hw as [-> | ->]; lia.
  - intros p Hp. rewrite nth_app_bits. f_equal.
    destruct (Nat.eqb_spec (p / w) (length t / w)) as [E|E].
    + destruct (Nat.leb_spec (length t) p) as [Hle|Hgt].
      * destruct (Nat.lt_ge_cases (p - length t) 8) as [H8|H8].
        -- rewrite be_bits_nth by exact H8. rewrite N.shiftl_spec_high'.
           ++ f_equal. unfold s. destruct Hw as [-> | ->]; lia.
           ++ unfold s. destruct Hw as [-> | ->]; lia.
        -- rewrite nth_overflow by (rewrite be_bits_length; lia).
           symmetry. apply N.shiftl_spec_low. unfold s. destruct Hw as [-> | ->]; lia.
      * symmetry. rewrite N.shiftl_spec_high' by (unfold s; destruct Hw as [-> | ->]; lia).
        apply (testbit_small b 8); [exact Hb|]. unfold s. destruct Hw as [-> | ->]; lia.
    + destruct (Nat.leb_spec (length t) p) as [Hle|Hgt]; [|reflexivity].
      apply nth_overflow. rewrite be_bits_length. destruct Hw as [-> | ->]; lia.
Qed.

(** The single one bit of the padding, at any position: sha.hpp:229-245 for 0x80. *)
Definition one_bit_word (off : N) : N :=
  let message_end := N.of_nat w - off mod N.of_nat w in
  if message_end <? 8 then N.shiftr 0x80 (8 - message_end)
  else if 8 <? message_end then trunc (N.of_nat w) (N.shiftl 0x80 (message_end - 8)) else 0x80.

Lemma one_bit_word_pow off : one_bit_word (N.of_nat off) = 2 ^ N.of_nat (w - 1 - off mod w).
Proof.
  unfold one_bit_word. change 0x80 with (2 ^ 7).
  assert (Em : N.of_nat off mod N.of_nat w = N.of_nat (off mod w)) by (destruct Hw as [-> | ->]; lia).
  rewrite Em. assert (Hm : (off mod w < w)%nat) by (destruct Hw as [-> | ->]; lia).
  set (m := (off mod w)%nat) in *. clearbody m.
  destruct (N.ltb_spec (N.of_nat w - N.of_nat m) 8) as [H|H].
  - rewrite N.shiftr_div_pow2. rewrite <- N.pow_sub_r by lia. f_equal. lia.
  - destruct (N.ltb_spec 8 (N.of_nat w - N.of_nat m)) as [H'|H'].
    + rewrite N.shiftl_mul_pow2, <- N.pow_add_r. unfold trunc. rewrite N.mod_small.
      * f_equal. lia.
      * apply N.pow_lt_mono_r; lia.
    + f_equal. lia.
Qed.

Lemma or_one st t : Holds st t -> (length t < 16 * w)%nat ->
  exists st', or_into st (length t / w) (one_bit_word (N.of_nat (length t))) = Some st'
    /\ Holds st' (t ++ [true]).
Proof.
  intros HH Hlt. rewrite one_bit_word_pow.
  apply (or_into_spec st t); auto.
  - destruct Hw as [-> | ->]; lia.
  - apply N.pow_lt_mono_r; destruct Hw as [-> | ->]; lia.
  - intros p Hp. rewrite nth_app_bits. f_equal.
    rewrite N.pow2_bits_eqb.
    destruct (Nat.eqb_spec (p / w) (length t / w)) as [E|E];
    destruct (Nat.leb_spec (length t) p) as [Hle|Hgt].
    + destruct (Nat.eq_dec p (length t)) as [->|Hne].
      * rewrite Nat.sub_diag, N.eqb_refl. reflexivity.
      * rewrite nth_overflow by (simpl; lia). symmetry. apply N.eqb_neq.
        destruct Hw as [-> | ->]; lia.
    + symmetry. apply N.eqb_neq. destruct Hw as [-> | ->]; lia.
    + destruct (p - length t)%nat as [|k] eqn:Ek; [|destruct k; reflexivity].
      exfalso. apply E. f_equal. lia.
    + reflexivity.
Qed.

Lemma Holds_words st t : Holds st t -> length t = (16 * w)%nat -> st = Sha_Spec.words w t.
Proof.
  intros (Hl & HF & Hb) Ht. apply (nth_ext _ _ 0 0).
  - unfold Sha_Spec.words. rewrite map_length, seq_length. exact Hl.
  - intros i Hi. rewrite Hl in Hi. unfold Sha_Spec.words.
    set (f := fun i => Sha_Spec.be (firstn w (skipn (i * w) t))).
    rewrite (nth_indep (map f (seq 0 16)) 0 (f 0%nat)) by (rewrite map_length, seq_length; lia).
    rewrite (map_nth f). rewrite seq_nth by lia. cbn [Nat.add]. unfold f.
    assert (Hlen : length (firstn w (skipn (i * w) t)) = w) by (rewrite firstn_length, skipn_length; nia).
    apply N.bits_inj_iff. intros n. destruct (N.lt_ge_cases n (N.of_nat w)) as [Hn|Hn].
    + replace n with (N.of_nat (N.to_nat n)) by lia. rewrite be_testbit by lia. rewrite Hlen.
      set (q := (w - 1 - N.to_nat n)%nat).
      assert (Hq : (q < w)%nat) by lia.
      assert (Hp : (i * w + q < 16 * w)%nat) by nia.
      specialize (Hb _ Hp). unfold sbit in Hb.
      assert (E1 : ((i * w + q) / w = i)%nat) by (destruct Hw as [-> | ->]; lia).
      assert (E2 : ((i * w + q) mod w = q)%nat) by (destruct Hw as [-> | ->]; lia).
      rewrite E1, E2 in Hb. replace (w - 1 - q)%nat with (N.to_nat n) in Hb by lia. rewrite Hb.
      rewrite <- (firstn_skipn (i * w) t) at 1. rewrite app_nth2 by (rewrite firstn_length; lia).
      rewrite firstn_length. replace (i * w + q - Nat.min (i * w) (length t))%nat with q by nia.
      rewrite <- (firstn_skipn w (skipn (i * w) t)) at 1. rewrite app_nth1 by lia. reflexivity.
    + rewrite (testbit_small _ (N.of_nat w)); [|apply Forall_nth_lt; [apply pow_pos|exact HF]|exact Hn].
      symmetry. apply (testbit_small _ (N.of_nat w)); [|exact Hn].
      pose proof (be_lt (firstn w (skipn (i * w) t))) as Hbl. rewrite Hlen in Hbl. exact Hbl.
Qed.

Lemma Holds_ext st t t' : (forall p, nth p t false = nth p t' false) -> Holds st t -> Holds st t'.
Proof. intros E (Hl & HF & Hb). repeat split; auto. intros p Hp. rewrite <- E. auto. Qed.

(** A source that represents the bits [m]: whole bytes, then possibly one last byte whose
    first bits are the end of the message and whose other bits are zero. *)
Definition clean (s : source) (m : list bool) : Prop :=
  sbits s = N.of_nat (length m) /\ Forall (fun b => b < 256) (mem s) /\
  exists k junk, Sha_Spec.bits_of_bytes (mem s) = m ++ repeat false k ++ junk /\
    (length m + k = 8 * ((length m + 7) / 8))%nat.

Lemma bits_available_spec s : bits_available s = N.min 8 (sbits s).
Proof. unfold bits_available. destruct (N.ltb_spec 8 (sbits s)); lia. Qed.

Lemma clean_step s m : clean s m -> (8 <= length m)%nat ->
  exists b rest, deref s = Some b /\ b < 256 /\ m = Sha_Spec.be_bits 8 b ++ rest /\ clean (next s) rest
   /\ length (mem s) = S (length (mem (next s))).
Proof.
  intros (Hs & HF & k & junk & E & Hk) Hm. unfold deref, next.
  destruct (mem s) as [|b bs] eqn:Em.
  - simpl in E. destruct m; [simpl in Hm; lia|discriminate].
  - inversion HF as [|? ? Hb HF']; subst. exists b, (skipn 8 m). split; [reflexivity|].
    split; [exact Hb|]. cbn [tl]. unfold Sha_Spec.bits_of_bytes in E. cbn [flat_map] in E.
    assert (Em8 : m = firstn 8 m ++ skipn 8 m) by (symmetry; apply firstn_skipn).
    assert (Hf8 : length (firstn 8 m) = 8%nat) by (rewrite firstn_length; lia).
    rewrite Em8, <- app_assoc in E.
    assert (E2 : firstn 8 m = Sha_Spec.be_bits 8 b /\ skipn 8 m ++ repeat false k ++ junk = flat_map (Sha_Spec.be_bits 8) bs).
    { apply app_inj_pivot_len. exact (eq_sym E). now rewrite Hf8, be_bits_length. }
    destruct E2 as [E2 E3]. rewrite <- E2. split; [exact Em8|]. split; [|reflexivity]. split; [|split].
    + cbn [sbits]. rewrite bits_available_spec, Hs, skipn_length. lia.
    + exact HF'.
    + exists k, junk. split; [exact (eq_sym E3)|]. rewrite skipn_length. lia.
Qed.

Lemma clean_last s m : clean s m -> (0 < length m < 8)%nat ->
  exists b, deref s = Some b /\ b < 256 /\
    (exists k, Sha_Spec.be_bits 8 b = m ++ repeat false k) /\ clean (next s) [] .
Proof.
  intros (Hs & HF & k & junk & E & Hk) Hm. unfold deref, next.
  destruct (mem s) as [|b bs] eqn:Em.
  - simpl in E. destruct m; [simpl in Hm; lia|discriminate].
  - inversion HF as [|? ? Hb HF']; subst. exists b. split; [reflexivity|]. split; [exact Hb|].
    unfold Sha_Spec.bits_of_bytes in E. cbn [flat_map] in E. rewrite app_assoc in E.
    assert (E2 : m ++ repeat false k = Sha_Spec.be_bits 8 b /\ junk = flat_map (Sha_Spec.be_bits 8) bs).
    { apply app_inj_pivot_len. exact (eq_sym E). rewrite app_length, repeat_length, be_bits_length. lia. }
    destruct E2 as [E2 E3]. split; [exists k; now rewrite E2|]. cbn [tl]. split; [|split].
    + cbn [sbits length]. rewrite bits_available_spec, Hs. lia.
    + exact HF'.
    + exists 0%nat, (flat_map (Sha_Spec.be_bits 8) bs). split; [reflexivity|reflexivity].
Qed.

Variable T : traits.
Hypothesis HW : wbits T = N.of_nat w.

Lemma stuff_loop_spec : forall fuel t m s nb,
  Holds (st_state s) t -> (length t mod 8 = 0)%nat -> (length t + nb <= 16 * w)%nat -> (nb < fuel)%nat ->
  st_dst s = (length t / w)%nat -> st_offset s = N.of_nat (length t) -> st_bits s = N.of_nat nb ->
  clean (st_src s) m ->
  exists s' m1 m2, stuff_loop T fuel (N.of_nat (w - 8 - length t mod w)) s = Some s' /\
    m = m1 ++ m2 /\ Holds (st_state s') (t ++ m1) /\ (length m1 mod 8 = 0)%nat /\
    st_dst s' = (length (t ++ m1) / w)%nat /\ st_offset s' = N.of_nat (length (t ++ m1)) /\
    st_count s' = st_count s + N.of_nat (length m1) /\
    st_bits s' = N.of_nat (nb - length m1) /\ (length m1 <= nb)%nat /\ clean (st_src s') m2 /\
    (nb - length m1 < 8 \/ length m2 < 8)%nat /\
    (length (mem (st_src s)) = length (mem (st_src s')) + length m1 / 8)%nat.
Proof.
  induction fuel as [|fuel IH]; intros t m s nb HH Ha Hle Hf Hd Ho Hb Hc; [lia|].
  cbn [stuff_loop]. rewrite bits_available_spec, Hb, (proj1 Hc), HW.
  destruct (N.leb_spec 8 (N.of_nat nb)) as [H8|H8]; cbn [andb].
  2:{ exists s, [], m. cbn [app length]. rewrite app_nil_r, N.add_0_r, Nat.sub_0_r. repeat split; auto; try lia; apply HH || apply Hc. }
  destruct (N.leb_spec 8 (N.min 8 (N.of_nat (length m)))) as [H8'|H8'].
  2:{ exists s, [], m. cbn [app length]. rewrite app_nil_r, N.add_0_r, Nat.sub_0_r. repeat split; auto; try lia; apply HH || apply Hc. }
  destruct (clean_step _ _ Hc) as (b & rest & -> & Hb256 & Em & Hc' & Hmem); [lia|].
  rewrite Hd. destruct (or_byte (st_state s) t b HH Ha ltac:(lia) Hb256) as (st' & -> & HH').
  assert (Hl8 : length (t ++ Sha_Spec.be_bits 8 b) = (length t + 8)%nat) by (rewrite app_length, be_bits_length; lia).
  assert (Esh : (if N.of_nat (w - 8 - length t mod w) =? 0 then (S (length t / w), N.of_nat w - 8) else ((length t / w)%nat, N.of_nat (w - 8 - length t mod w) - 8))
     = ((length (t ++ Sha_Spec.be_bits 8 b) / w)%nat, N.of_nat (w - 8 - length (t ++ Sha_Spec.be_bits 8 b) mod w))).
  { rewrite Hl8. destruct (N.eqb_spec (N.of_nat (w - 8 - length t mod w)) 0) as [E|E];
    apply f_equal2; destruct Hw as [-> | ->]; lia. }
  rewrite Esh.
  destruct (IH (t ++ Sha_Spec.be_bits 8 b) rest
     (Stuffing st' (length (t ++ Sha_Spec.be_bits 8 b) / w)%nat (st_offset s + 8) (st_count s + 8) (N.of_nat nb - 8) (next (st_src s))) (nb - 8)%nat)
    as (s' & m1 & m2 & E & Em2 & HH2 & Ha2 & Hd2 & Ho2 & Hc2 & Hb2 & Hle2 & Hcl2 & Hst2 & Hmem2);
    cbn [st_state st_dst st_offset st_count st_bits st_src]; auto; try lia.
  exists s', (Sha_Spec.be_bits 8 b ++ m1), m2.
  rewrite <- app_assoc in *. cbn [st_count st_src] in *.
  assert (Hl1 : length (Sha_Spec.be_bits 8 b ++ m1) = (8 + length m1)%nat) by (rewrite app_length, be_bits_length; lia).
  rewrite Hl1.
  split; [exact E|]. split; [rewrite Em, Em2; reflexivity|].
  split; [exact HH2|]. split; [lia|]. split; [exact Hd2|]. split; [exact Ho2|].
  split; [lia|]. split; [rewrite Hb2; lia|]. split; [lia|]. split; [exact Hcl2|]. split; [lia|lia].
Qed.

Lemma stuff_spec st t m s nb :
  Holds st t -> (length t mod 8 = 0)%nat -> (length t + nb <= 16 * w)%nat -> (nb mod 8 = 0)%nat -> (0 < nb)%nat ->
  clean s m -> m <> [] ->
  exists st' s' m1 m2,
    stuff_into_state T st (N.of_nat (length t)) (N.of_nat nb) s
      = Some (st', N.of_nat (length (t ++ m1)), N.of_nat (length m1), s') /\
    m = m1 ++ m2 /\ Holds st' (t ++ m1) /\ (length m1 <= nb)%nat /\ clean s' m2 /\
    (length m1 = nb \/ (length m1 < nb)%nat /\ m2 = []) /\ (length (mem s') < length (mem s))%nat.
Proof.
  intros HH Ha Hle Hnb Hnb0 Hc Hm. unfold stuff_into_state. rewrite HW.
  assert (Eel : N.to_nat (N.of_nat (length t) / N.of_nat w) = (length t / w)%nat) by (destruct Hw as [-> | ->]; lia).
  assert (Esh : N.of_nat w - 8 - N.of_nat (length t) mod N.of_nat w = N.of_nat (w - 8 - length t mod w)) by (destruct Hw as [-> | ->]; lia).
  rewrite Eel, Esh. clear Eel Esh.
  destruct (stuff_loop_spec (S (N.to_nat (N.of_nat nb))) t m (Stuffing st (length t / w)%nat (N.of_nat (length t)) 0 (N.of_nat nb) s) nb)
    as (s' & m1 & m2 & -> & Em & HH2 & Ha2 & Hd2 & Ho2 & Hc2 & Hb2 & Hle2 & Hcl2 & Hst2 & Hmem2);
    cbn [st_state st_dst st_offset st_count st_bits st_src]; auto; try lia.
  cbn [st_count st_src] in *. rewrite N.add_0_l in Hc2.
  rewrite bits_available_spec, Hb2, (proj1 Hcl2).
  destruct (N.eqb_spec (N.of_nat (nb - length m1)) 0) as [E0|E0]; cbn [negb andb].
  { exists (st_state s'), (st_src s'), m1, m2. rewrite Ho2, Hc2.
    split; [reflexivity|]. repeat split; auto; try lia; try apply HH2; try apply Hcl2. }
  destruct (N.eqb_spec (N.min 8 (N.of_nat (length m2))) 0) as [E1|E1]; cbn [negb].
  { assert (m2 = []) as -> by (apply length_zero_iff_nil; clear -E1; lia). rewrite app_nil_r in Em. subst m1.
    exists (st_state s'), (st_src s'), m, []. rewrite Ho2, Hc2. rewrite app_nil_r.
    split; [reflexivity|]. repeat split; auto; try lia; try apply HH2; try apply Hcl2.
    - right. split; [clear -E0 Hle2; lia|reflexivity].
    - clear -Hm Hmem2 Ha2. destruct m; [congruence|]. cbn [length] in *. lia. }
  assert (Hm2 : (0 < length m2 < 8)%nat) by lia.
  pose proof Hcl2 as Hcl2'.
  destruct (clean_last _ _ Hcl2 Hm2) as (b & -> & Hb256 & (k & Ek) & Hcl3).
  rewrite Ho2.
  set (t1 := t ++ m1) in *.
  assert (Ha1 : (length t1 mod 8 = 0)%nat) by (unfold t1; rewrite app_length; lia).
  assert (Hl1 : (length t1 < 16 * w)%nat) by (unfold t1; rewrite app_length; lia).
  assert (Ev : (if N.of_nat w - N.of_nat (length t1) mod N.of_nat w <? 8 then
       N.shiftr (N.land b 255) (8 - (N.of_nat w - N.of_nat (length t1) mod N.of_nat w))
     else if 8 <? N.of_nat w - N.of_nat (length t1) mod N.of_nat w then
         trunc (N.of_nat w) (N.shiftl (N.land b 255) (N.of_nat w - N.of_nat (length t1) mod N.of_nat w - 8))
       else N.land b 255)
     = trunc (N.of_nat w) (N.shiftl (N.land b 0xff) (N.of_nat (w - 8 - length t1 mod w)))).
  { assert (Emod : N.of_nat (length t1) mod N.of_nat w = N.of_nat (length t1 mod w)) by (destruct Hw as [-> | ->]; lia).
    assert (Hmod : (length t1 mod w <= w - 8)%nat) by (destruct Hw as [-> | ->]; lia).
    assert (Hw8 : (8 <= w)%nat) by (destruct Hw as [-> | ->]; lia).
    rewrite Emod. set (q := (length t1 mod w)%nat) in *. clearbody q.
    destruct (N.ltb_spec (N.of_nat w - N.of_nat q) 8); [lia|].
    destruct (N.ltb_spec 8 (N.of_nat w - N.of_nat q)).
    - do 2 f_equal. lia.
    - replace (N.of_nat (w - 8 - q)) with 0 by lia. rewrite N.shiftl_0_r. unfold trunc.
      rewrite N.mod_small; [reflexivity|]. change 255 with (N.ones 8). rewrite N.land_ones.
      apply N.lt_le_trans with (2 ^ 8); [apply N.mod_lt; discriminate|].
      apply N.pow_le_mono_r; lia. }
  rewrite Ev, Hd2. destruct (or_byte (st_state s') t1 b HH2 Ha1 Hl1 Hb256) as (st' & -> & HH3).
  replace (N.min (N.of_nat (nb - length m1)) (N.min 8 (N.of_nat (length m2)))) with (N.of_nat (length m2)) by lia.
  destruct (N.ltb_spec (N.of_nat (length m2)) 8); [|lia].
  exists st', (next (st_src s')), m, []. rewrite app_nil_r, Em, app_length, app_assoc. fold t1. rewrite app_length, Hc2.
  split; [unfold t1; rewrite ?app_length, !Nat2N.inj_add, ?N.add_assoc; reflexivity|].
  split; [reflexivity|]. split.
  - apply (Holds_ext st' (t1 ++ Sha_Spec.be_bits 8 b)); [|exact HH3]. intros p. rewrite Ek.
    rewrite app_assoc. rewrite (nth_app_bits (t1 ++ m2)).
    destruct (length (t1 ++ m2) <=? p)%nat; [|now rewrite orb_false_r].
    rewrite nth_repeat. now rewrite orb_false_r.
  - split; [lia|]. split; [exact Hcl3|]. split; [right; split; [lia|reflexivity]|].
    assert (Hne : mem (st_src s') <> []).
    { intros Enil. destruct Hcl2' as (_ & _ & kk & junk & EE & _). rewrite Enil in EE.
      destruct m2; [cbn [length] in Hm2; lia|discriminate]. }
    unfold next. cbn [mem]. destruct (mem (st_src s')); [congruence|]. cbn [tl length] in *. lia.
Qed.
End Engine.
