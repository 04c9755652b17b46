(** The five digest_message_block functions of sha.hpp compute the FIPS 180-4 compression functions. *)
From Verif Require Import Prelude Bits Sha_Model.
From Verif Require Sha_Spec.
Local Open Scope N_scope.

Definition isw (w : N) (x : N) : Prop := x < 2 ^ w.

Lemma trunc_lt w x : trunc w x < 2 ^ w.
Proof. unfold trunc. apply N.mod_lt. apply N.pow_nonzero. discriminate. Qed.

Lemma shl_mod w n x : n <= w -> (x * 2 ^ n) mod 2 ^ w = (x mod 2 ^ (w - n)) * 2 ^ n.
Proof.
  intros Hn. replace (2 ^ w) with (2 ^ (w - n) * 2 ^ n).
  - apply N.mul_mod_distr_r; apply N.pow_nonzero; discriminate.
  - rewrite <- N.pow_add_r. f_equal. lia.
Qed.

Lemma div_pow_lt w n x : n <= w -> x < 2 ^ w -> x / 2 ^ n < 2 ^ (w - n).
Proof.
  intros Hn Hx. apply N.div_lt_upper_bound; [apply N.pow_nonzero; discriminate|].
  rewrite <- N.pow_add_r. replace (n + (w - n)) with w by lia. exact Hx.
Qed.

Lemma rotr_spec w n x : n <= w -> x < 2 ^ w -> rotr w n x = Sha_Spec.ROTR w n x.
Proof.
  intros Hn Hx. unfold rotr, Sha_Spec.ROTR, trunc.
  rewrite N.shiftl_mul_pow2, N.shiftr_div_pow2, shl_mod by lia.
  replace (w - (w - n)) with n by lia.
  rewrite <- N.shiftl_mul_pow2, N.lor_comm, lor_shiftl by (apply div_pow_lt; assumption).
  rewrite N.shiftl_mul_pow2. apply N.add_comm.
Qed.

Lemma rotl_spec w n x : n <= w -> x < 2 ^ w -> rotl w n x = Sha_Spec.ROTL w n x.
Proof.
  intros Hn Hx. unfold rotl, Sha_Spec.ROTL, trunc.
  rewrite N.shiftl_mul_pow2, N.shiftr_div_pow2, shl_mod by lia.
  rewrite <- N.shiftl_mul_pow2, lor_shiftl; [now rewrite N.shiftl_mul_pow2|].
  replace n with (w - (w - n)) at 2 by lia. apply div_pow_lt; [lia|exact Hx].
Qed.

Lemma rotl_lt w n x : n <= w -> x < 2 ^ w -> rotl w n x < 2 ^ w.
Proof.
  intros Hn Hx. unfold rotl. apply lor_lt; [apply trunc_lt|]. rewrite N.shiftr_div_pow2.
  eapply N.le_lt_trans; [|exact Hx]. apply N.div_le_upper_bound; [apply N.pow_nonzero; discriminate|].
  assert (1 <= 2 ^ (w - n)) by (pose proof (N.pow_nonzero 2 (w - n)); lia). nia.
Qed.

Lemma wnot_spec w x : x < 2 ^ w -> wnot w x = Sha_Spec.NOT w x.
Proof.
  intros Hx. unfold wnot, Sha_Spec.NOT. change (N.lxor x (N.ones w)) with (N.lnot x w).
  destruct (N.eq_dec x 0) as [->|Hne].
  - rewrite N.lnot_0_l. rewrite N.ones_equiv. lia.
  - rewrite N.lnot_sub_low; [rewrite N.ones_equiv; lia|]. apply N.log2_lt_pow2; lia.
Qed.

Lemma ch_spec w x y z : x < 2 ^ w -> ch w x y z = Sha_Spec.Ch w x y z.
Proof. intros Hx. unfold ch, Sha_Spec.Ch. now rewrite wnot_spec. Qed.
Lemma parity_spec x y z : parity x y z = Sha_Spec.Parity x y z.
Proof. apply N.lxor_assoc. Qed.
Lemma maj_spec x y z : maj x y z = Sha_Spec.Maj x y z.
Proof. apply N.lxor_assoc. Qed.
Lemma xor3_assoc x y z : N.lxor (N.lxor x y) z = Sha_Spec.xor3 x y z.
Proof. apply N.lxor_assoc. Qed.
Lemma shr_spec n x : shr n x = Sha_Spec.SHR n x.
Proof. apply N.shiftr_div_pow2. Qed.

Lemma add_words_spec w : forall x y, add_words w x y = map (fun '(a, b) => Sha_Spec.ADD w [a; b]) (combine x y).
Proof.
  induction x as [|a x IH]; intros [|b y]; try reflexivity. cbn [add_words combine map]. rewrite IH.
  apply f_equal2; [|reflexivity]. unfold trunc, Sha_Spec.ADD. cbn [fold_right]. now rewrite N.add_0_r.
Qed.

Lemma add_words_lt w : forall x y, Forall (isw w) (add_words w x y).
Proof. induction x as [|a x IH]; intros [|b y]; constructor; auto. apply trunc_lt. Qed.
Lemma add_words_length w : forall x y, length x = length y -> length (add_words w x y) = length x.
Proof. induction x as [|a x IH]; intros [|b y] H; simpl in *; try lia. f_equal. apply IH. lia. Qed.

(** Schedules: appending at the end and indexing from the front vs consing. *)
Section Schedule.
Variables (w : N) (f : list N -> N) (step : list N -> nat -> list N).
Hypothesis Hstep : forall l, Forall (isw w) l -> (16 <= length l)%nat ->
  step (rev l) (length l) = rev (f l :: l) /\ isw w (f l).

Lemma schedule_spec n : forall l, Forall (isw w) l -> (16 <= length l)%nat ->
  fold_left step (seq (length l) n) (rev l) = rev (Sha_Spec.extend f n l)
  /\ Forall (isw w) (Sha_Spec.extend f n l).
Proof.
  induction n as [|n IH]; intros l HF Hl; [now split|].
  cbn [seq fold_left Sha_Spec.extend]. destruct (Hstep l HF Hl) as [-> Hf].
  change (S (length l)) with (length (f l :: l)). apply IH; [now constructor|simpl; lia].
Qed.
End Schedule.

Lemma nth_rev_prev (l : list N) i : (1 <= i <= length l)%nat -> nth (length l - i) (rev l) 0 = Sha_Spec.prev i l.
Proof. intros Hi. unfold Sha_Spec.prev. rewrite rev_nth by lia. f_equal. lia. Qed.

Lemma prev_lt w l i : Forall (isw w) l -> Sha_Spec.prev i l < 2 ^ w.
Proof.
  intros HF. unfold Sha_Spec.prev. revert l HF. induction (i - 1)%nat as [|k IH]; intros l HF; destruct HF; simpl;
  try (apply N.neq_0_lt_0; apply N.pow_nonzero; discriminate); auto.
Qed.

Lemma sched_full (w : N) f step n M :
  (forall l, Forall (isw w) l -> (16 <= length l)%nat -> step (rev l) (length l) = rev (f l :: l) /\ isw w (f l)) ->
  Forall (isw w) M -> length M = 16%nat ->
  fold_left step (seq 16 (n - 16)) M = Sha_Spec.schedule f n M
  /\ Forall (isw w) (Sha_Spec.schedule f n M).
Proof.
  intros H HF HM. unfold Sha_Spec.schedule.
  assert (HF' : Forall (isw w) (rev M)) by (now apply Forall_rev).
  destruct (schedule_spec w f step H (n - 16) (rev M) HF') as [E1 E2]; [rewrite rev_length; lia|].
  rewrite rev_involutive, rev_length, HM in E1. split; [exact E1|]. now apply Forall_rev.
Qed.

(** Rounds. *)
Lemma fold_rounds (w : N) (k : nat) (step step' : list N -> nat -> list N) (ts : list nat) :
  (forall r t, In t ts -> Forall (isw w) r -> length r = k ->
     step r t = step' r t /\ Forall (isw w) (step' r t) /\ length (step' r t) = k) ->
  forall r, Forall (isw w) r -> length r = k ->
  fold_left step ts r = fold_left step' ts r /\ Forall (isw w) (fold_left step' ts r)
  /\ length (fold_left step' ts r) = k.
Proof.
  induction ts as [|t ts IH]; intros H r HF Hl; [now split|]. cbn [fold_left].
  destruct (H r t (or_introl eq_refl) HF Hl) as (-> & HF' & Hl').
  apply IH; auto. intros r' t' Ht. apply H. now right.
Qed.

Lemma lxor4 a b c d : N.lxor (N.lxor (N.lxor a b) c) d = N.lxor a (N.lxor b (N.lxor c d)).
Proof. now rewrite !N.lxor_assoc. Qed.

(** ** SHA-1 *)
Lemma a_round_spec f k sched a b c d e t :
  let F := Sha_Spec.f1 t in
  isw 32 a -> isw 32 b -> isw 32 c -> isw 32 d -> isw 32 e ->
  f b c d = F b c d -> k = Sha_Spec.K1 t ->
  a_round f k sched [a; b; c; d; e] t =
   [Sha_Spec.ADD 32 [Sha_Spec.ROTL 32 5 a; F b c d; e; Sha_Spec.K1 t; nth t sched 0]; a; Sha_Spec.ROTL 32 30 b; c; d].
Proof.
  intros F Ha Hb Hc Hd He Hf Hk. unfold a_round. rewrite Hf, <- Hk.
  rewrite !rotl_spec by (auto; lia). unfold trunc, Sha_Spec.ADD. cbn [fold_right].
  apply f_equal2; [|reflexivity]. f_equal. rewrite N.add_0_r, !N.add_assoc. reflexivity.
Qed.

Definition step1 (W : list N) (r : list N) (t : nat) : list N :=
    match r with
    | [a; b; c; d; e] =>
      [Sha_Spec.ADD 32 [Sha_Spec.ROTL 32 5 a; Sha_Spec.f1 t b c d; e; Sha_Spec.K1 t; nth t W 0]; a; Sha_Spec.ROTL 32 30 b; c; d]
    | _ => [] end.

Lemma ADD_lt w l : Sha_Spec.ADD w l < 2 ^ w.
Proof. unfold Sha_Spec.ADD. apply N.mod_lt. apply N.pow_nonzero. discriminate. Qed.

Lemma twenty_spec t0 f k sched :
  (forall t x y z, (t0 <= t < t0 + 20)%nat -> isw 32 x -> f x y z = Sha_Spec.f1 t x y z) ->
  (forall t, (t0 <= t < t0 + 20)%nat -> k = Sha_Spec.K1 t) ->
  forall r, Forall (isw 32) r -> length r = 5%nat ->
  twenty_rounds t0 f k sched r = fold_left (step1 sched) (seq t0 20) r
  /\ Forall (isw 32) (fold_left (step1 sched) (seq t0 20) r)
  /\ length (fold_left (step1 sched) (seq t0 20) r) = 5%nat.
Proof.
  intros Hf Hk r HF Hl. unfold twenty_rounds. apply (fold_rounds 32 5); auto.
  clear r HF Hl. intros r t Ht HF Hl. apply in_seq in Ht.
  destruct r as [|a [|b [|c [|d [|e [|? ?]]]]]]; try discriminate Hl.
  inversion HF as [|? ? Ha F0]; subst. inversion F0 as [|? ? Hb F1]; subst. inversion F1 as [|? ? Hc F2]; subst.
  inversion F2 as [|? ? Hd F3]; subst. inversion F3 as [|? ? He F4]; subst.
  rewrite a_round_spec by auto. unfold step1. split; [reflexivity|]. split; [|reflexivity].
  constructor; [apply ADD_lt|]. constructor; [exact Ha|]. constructor.
  - unfold isw. rewrite <- rotl_spec by (auto; lia). apply rotl_lt; [lia|exact Hb].
  - constructor; [exact Hc|]. constructor; [exact Hd|]. constructor.
Qed.

Lemma K1_values t : (t < 80)%nat ->
  Sha_Spec.K1 t = nth (t / 20)%nat [0x5a827999; 0x6ed9eba1; 0x8f1bbcdc; 0xca62c1d6] 0.
Proof.
  intros Ht. unfold Sha_Spec.K1. assert (Hq : (t / 20 < 4)%nat) by lia.
  destruct (t / 20)%nat as [|[|[|[|q]]]]; try lia; vm_compute; reflexivity.
Qed.

Lemma sha1_spec h M : Forall (isw 32) h -> length h = 5%nat -> Forall (isw 32) M -> length M = 16%nat ->
  sha1_digest_block h M = Sha_Spec.compress1 h M.
Proof.
  intros Hh Hlh HM HlM. unfold sha1_digest_block, schedule1.
  set (f := fun l => Sha_Spec.ROTL 32 1 (N.lxor (Sha_Spec.prev 3 l) (N.lxor (Sha_Spec.prev 8 l)
                                 (N.lxor (Sha_Spec.prev 14 l) (Sha_Spec.prev 16 l))))).
  destruct (sched_full 32 f schedule1_step 80 M) as [E Hs]; auto.
  { intros l HF Hl. unfold schedule1_step. rewrite !nth_rev_prev by lia. rewrite lxor4.
    assert (Hx : N.lxor (Sha_Spec.prev 3 l) (N.lxor (Sha_Spec.prev 8 l) (N.lxor (Sha_Spec.prev 14 l) (Sha_Spec.prev 16 l))) < 2 ^ 32).
    { repeat apply lxor_lt; apply prev_lt; exact HF. }
    cbn [rev]. unfold f. rewrite <- rotl_spec by (auto; lia). split; [reflexivity|].
    unfold isw. apply rotl_lt; [lia|exact Hx]. }
  change (80 - 16)%nat with 64%nat in E. rewrite E. set (s := Sha_Spec.schedule f 80 M) in *.
  destruct (twenty_spec 0 (ch 32) 0x5a827999 s) with (r := h) as (-> & HF1 & Hl1); auto.
  { intros t x y z Ht Hx. unfold Sha_Spec.f1. replace (t / 20)%nat with 0%nat by lia. now apply ch_spec. }
  { intros t Ht. rewrite K1_values by lia. now replace (t / 20)%nat with 0%nat by lia. }
  set (r1 := fold_left (step1 s) (seq 0 20) h) in *.
  destruct (twenty_spec 20 parity 0x6ed9eba1 s) with (r := r1) as (-> & HF2 & Hl2); auto.
  { intros t x y z Ht Hx. unfold Sha_Spec.f1. replace (t / 20)%nat with 1%nat by lia. apply parity_spec. }
  { intros t Ht. rewrite K1_values by lia. now replace (t / 20)%nat with 1%nat by lia. }
  set (r2 := fold_left (step1 s) (seq 20 20) r1) in *.
  destruct (twenty_spec 40 maj 0x8f1bbcdc s) with (r := r2) as (-> & HF3 & Hl3); auto.
  { intros t x y z Ht Hx. unfold Sha_Spec.f1. replace (t / 20)%nat with 2%nat by lia. apply maj_spec. }
  { intros t Ht. rewrite K1_values by lia. now replace (t / 20)%nat with 2%nat by lia. }
  set (r3 := fold_left (step1 s) (seq 40 20) r2) in *.
  destruct (twenty_spec 60 parity 0xca62c1d6 s) with (r := r3) as (-> & HF4 & Hl4); auto.
  { intros t x y z Ht Hx. unfold Sha_Spec.f1. replace (t / 20)%nat with 3%nat by lia. apply parity_spec. }
  { intros t Ht. rewrite K1_values by lia. now replace (t / 20)%nat with 3%nat by lia. }
  rewrite add_words_spec. unfold Sha_Spec.compress1. fold f. fold s. fold (step1 s).
  change (seq 0 80) with (seq 0 20 ++ seq 20 20 ++ seq 40 20 ++ seq 60 20).
  rewrite !fold_left_app. fold r1. fold r2. fold r3. reflexivity.
Qed.

(** ** SHA-2 *)
Section Sha2.
Variables (P : sha2) (S0 S1 s0 s1 : N -> N).
Let w := s_bits P.
Hypothesis Hb0 : forall x, isw w x -> big_sigma_0 P x = S0 x.
Hypothesis Hb1 : forall x, isw w x -> big_sigma_1 P x = S1 x.
Hypothesis Hs0 : forall x, isw w x -> small_sigma_0 P x = s0 x.
Hypothesis Hs1 : forall x, isw w x -> small_sigma_1 P x = s1 x.

Lemma sha2_spec h M : Forall (isw w) h -> length h = 8%nat -> Forall (isw w) M -> length M = 16%nat ->
  sha_2_digest_message_block P h M = Sha_Spec.compress2 w (s_rounds P) (s_k P) S0 S1 s0 s1 h M.
Proof.
  intros Hh Hlh HM HlM. unfold sha_2_digest_message_block, schedule2.
  set (f := fun l => Sha_Spec.ADD w [s1 (Sha_Spec.prev 2 l); Sha_Spec.prev 7 l; s0 (Sha_Spec.prev 15 l); Sha_Spec.prev 16 l]).
  destruct (sched_full w f (schedule2_step P) (s_rounds P) M) as [E Hs]; auto.
  { intros l HF Hl. unfold schedule2_step. rewrite !nth_rev_prev by lia.
    rewrite Hs1, Hs0 by (apply prev_lt; exact HF). cbn [rev]. unfold f. split; [|apply ADD_lt].
    apply f_equal2; [reflexivity|]. apply f_equal2; [|reflexivity]. unfold trunc, Sha_Spec.ADD. cbn [fold_right].
    fold w. f_equal. rewrite N.add_0_r, !N.add_assoc. reflexivity. }
  rewrite E. set (s := Sha_Spec.schedule f (s_rounds P) M) in *.
  rewrite add_words_spec. fold w. unfold Sha_Spec.compress2. fold f. fold s.
  apply f_equal. apply f_equal.
  match goal with |- _ = fold_left ?st _ _ => set (step' := st) end.
  refine (proj1 (fold_rounds w 8 (round2 P s) step' _ _ h Hh Hlh)).
  clear h Hh Hlh. intros r t _ HF Hl.
  destruct r as [|a [|b [|c [|d [|e [|ff [|g [|hh [|? ?]]]]]]]]]; try discriminate Hl.
  inversion HF as [|? ? Ha F0]; subst. inversion F0 as [|? ? Hb F1]; subst. inversion F1 as [|? ? Hc F2]; subst.
  inversion F2 as [|? ? Hd F3]; subst. inversion F3 as [|? ? He F4]; subst.
  inversion F4 as [|? ? Hf F5]; subst. inversion F5 as [|? ? Hg F6]; subst. inversion F6 as [|? ? Hhh F7]; subst.
  assert (ET : trunc w (hh + big_sigma_1 P e + ch w e ff g + nth t (s_k P) 0 + nth t s 0)
     = Sha_Spec.ADD w [hh; S1 e; Sha_Spec.Ch w e ff g; nth t (s_k P) 0; nth t s 0]).
  { unfold trunc, Sha_Spec.ADD. cbn [fold_right]. rewrite Hb1, ch_spec by assumption. f_equal.
    rewrite N.add_0_r, !N.add_assoc. reflexivity. }
  assert (ET2 : trunc w (big_sigma_0 P a + maj a b c) = Sha_Spec.ADD w [S0 a; Sha_Spec.Maj a b c]).
  { unfold trunc, Sha_Spec.ADD. cbn [fold_right]. rewrite Hb0, maj_spec by assumption.
    now rewrite N.add_0_r. }
  unfold round2. cbv zeta. fold w. rewrite ET, ET2. unfold step'.
  set (T1 := Sha_Spec.ADD w [hh; _; _; _; _]). set (T2 := Sha_Spec.ADD w [S0 a; _]).
  split; [|split; [|reflexivity]].
  - unfold Sha_Spec.ADD. cbn [fold_right]. rewrite !N.add_0_r. reflexivity.
  - repeat (constructor; [first [assumption | apply ADD_lt]|]). constructor.
Qed.
End Sha2.

Lemma K256_table : Sha_Spec.K256 = k_set_256. Proof. vm_compute. reflexivity. Qed.
Lemma K512_table : Sha_Spec.K512 = k_set_512. Proof. vm_compute. reflexivity. Qed.

Lemma sha256_spec h M : Forall (isw 32) h -> length h = 8%nat -> Forall (isw 32) M -> length M = 16%nat ->
  sha_2_digest_message_block sha256_core h M = Sha_Spec.compress256 h M.
Proof.
  intros. unfold Sha_Spec.compress256. rewrite K256_table.
  apply (sha2_spec sha256_core); auto; intros x Hx; cbn [big_sigma_0 big_sigma_1 small_sigma_0 small_sigma_1 sha256_core];
  unfold big_sigma_0_256, big_sigma_1_256, small_sigma_0_256, small_sigma_1_256; rewrite xor3_assoc, ?shr_spec;
  rewrite !rotr_spec by (try lia; exact Hx); reflexivity.
Qed.

Lemma sha512_spec h M : Forall (isw 64) h -> length h = 8%nat -> Forall (isw 64) M -> length M = 16%nat ->
  sha_2_digest_message_block sha512_core h M = Sha_Spec.compress512 h M.
Proof.
  intros. unfold Sha_Spec.compress512. rewrite K512_table.
  apply (sha2_spec sha512_core); auto; intros x Hx; cbn [big_sigma_0 big_sigma_1 small_sigma_0 small_sigma_1 sha512_core];
  unfold big_sigma_0_512, big_sigma_1_512, small_sigma_0_512, small_sigma_1_512; rewrite xor3_assoc, ?shr_spec;
  rewrite !rotr_spec by (try lia; exact Hx); reflexivity.
Qed.

Definition traits_of (v : Sha_Spec.variant) : traits :=
  match v with
  | Sha_Spec.SHA1 => sha1_traits | Sha_Spec.SHA224 => sha224_traits | Sha_Spec.SHA256 => sha256_traits
  | Sha_Spec.SHA384 => sha384_traits | Sha_Spec.SHA512 => sha512_traits
  end.
Definition state_words (v : Sha_Spec.variant) : nat := match v with Sha_Spec.SHA1 => 5 | _ => 8 end.

Lemma initial_spec v : initial_state (traits_of v) = Sha_Spec.initial v.
Proof. destruct v; vm_compute; reflexivity. Qed.
Lemma wbits_spec v : wbits (traits_of v) = N.of_nat (Sha_Spec.word_size v).
Proof. destruct v; reflexivity. Qed.
Lemma digest_words_spec v : digest_words (traits_of v) = Sha_Spec.output_words v.
Proof. destruct v; reflexivity. Qed.

Definition wb (v : Sha_Spec.variant) := N.of_nat (Sha_Spec.word_size v).

Lemma block_spec v h M : Forall (isw (wb v)) h -> length h = state_words v ->
  Forall (isw (wb v)) M -> length M = 16%nat ->
  digest_block (traits_of v) h M = Sha_Spec.compress v h M.
Proof.
  destruct v; cbn [traits_of digest_block sha1_traits sha224_traits sha256_traits sha384_traits sha512_traits
     Sha_Spec.compress state_words wb Sha_Spec.word_size]; intros.
  - now apply sha1_spec.
  - now apply sha256_spec.
  - now apply sha256_spec.
  - now apply sha512_spec.
  - now apply sha512_spec.
Qed.

Lemma fold_len {B} (k : nat) (step : list N -> B -> list N) :
  (forall r t, length r = k -> length (step r t) = k) ->
  forall ts r, length r = k -> length (fold_left step ts r) = k.
Proof. intros H ts. induction ts as [|t ts IH]; intros r Hr; cbn [fold_left]; auto. Qed.

Lemma a_round_len f k s r t : length r = 5%nat -> length (a_round f k s r t) = 5%nat.
Proof. intros H. destruct r as [|a [|b [|c [|d [|e [|? ?]]]]]]; try discriminate H. reflexivity. Qed.
Lemma round2_len P s r t : length r = 8%nat -> length (round2 P s r t) = 8%nat.
Proof. intros H. destruct r as [|a [|b [|c [|d [|e [|ff [|g [|hh [|? ?]]]]]]]]]; try discriminate H. reflexivity. Qed.

Lemma block_words v h M : length h = state_words v ->
  Forall (isw (wb v)) (digest_block (traits_of v) h M)
  /\ length (digest_block (traits_of v) h M) = state_words v.
Proof.
  destruct v; cbn [traits_of digest_block sha1_traits sha224_traits sha256_traits sha384_traits sha512_traits state_words wb Sha_Spec.word_size];
  intros Hl; (split; [apply add_words_lt|]).
  - unfold sha1_digest_block, twenty_rounds. rewrite add_words_length; [exact Hl|].
    rewrite Hl. symmetry. do 4 (apply fold_len; [apply a_round_len|]). exact Hl.
  - unfold sha_2_digest_message_block. rewrite add_words_length; [exact Hl|].
    rewrite Hl. symmetry. apply fold_len; [apply round2_len|exact Hl].
  - unfold sha_2_digest_message_block. rewrite add_words_length; [exact Hl|].
    rewrite Hl. symmetry. apply fold_len; [apply round2_len|exact Hl].
  - unfold sha_2_digest_message_block. rewrite add_words_length; [exact Hl|].
    rewrite Hl. symmetry. apply fold_len; [apply round2_len|exact Hl].
  - unfold sha_2_digest_message_block. rewrite add_words_length; [exact Hl|].
    rewrite Hl. symmetry. apply fold_len; [apply round2_len|exact Hl].
Qed.

Lemma fold_blocks v bs : Forall (fun b => Forall (isw (wb v)) b /\ length b = 16%nat) bs ->
  forall h, Forall (isw (wb v)) h -> length h = state_words v ->
  fold_left (digest_block (traits_of v)) bs h = fold_left (Sha_Spec.compress v) bs h.
Proof.
  induction 1 as [|b bs [Hb Hlb] HF IH]; intros h Hh Hl; [reflexivity|]. cbn [fold_left].
  destruct (block_words v h b Hl) as [H1 H2].
  rewrite <- block_spec by assumption. apply IH; assumption.
Qed.

Lemma initial_ok v : Forall (isw (wb v)) (initial_state (traits_of v)) /\ length (initial_state (traits_of v)) = state_words v.
Proof. destruct v; (split; [|reflexivity]); repeat (constructor; [reflexivity|]); constructor. Qed.
