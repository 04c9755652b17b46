From Verif Require Import Prelude Bits Blocks MD5_Model.
From Verif Require MD5_Spec.
Module Sp := MD5_Spec.
Local Open Scope N_scope.

Lemma w32_lt x : w32 x < 2 ^ 32.
Proof. unfold w32. apply N.mod_lt. discriminate. Qed.

Lemma not32_neg x : x < 2 ^ 32 -> not32 x = Sp.neg x.
Proof.
  intros Hx. unfold not32, Sp.neg, Sp.M. change 0xffffffff with (N.ones 32).
  change (N.lxor x (N.ones 32)) with (N.lnot x 32).
  destruct (N.eq_dec x 0) as [->|Hne]; [reflexivity|].
  rewrite N.lnot_sub_low; [rewrite N.ones_equiv; change (2 ^ 32) with 4294967296 in *; lia|].
  apply N.log2_lt_pow2; lia.
Qed.

Lemma rotate_rotl x s : x < 2 ^ 32 -> s <= 32 -> ROTATE_LEFT x s = Sp.rotl x s.
Proof.
  intros Hx Hs. unfold ROTATE_LEFT, Sp.rotl, w32, Sp.M.
  rewrite N.shiftl_mul_pow2, N.shiftr_div_pow2.
  assert (E : (x * 2 ^ s) mod 2 ^ 32 = (x mod 2 ^ (32 - s)) * 2 ^ s).
  { replace (2 ^ 32) with (2 ^ (32 - s) * 2 ^ s).
    - rewrite N.mul_mod_distr_r; [reflexivity| |]; apply N.pow_nonzero; lia.
    - rewrite <- N.pow_add_r. f_equal. lia. }
  rewrite E. rewrite <- N.shiftl_mul_pow2. rewrite lor_shiftl; [now rewrite N.shiftl_mul_pow2|].
  apply N.div_lt_upper_bound; [apply N.pow_nonzero; lia|].
  rewrite <- N.pow_add_r. replace (32 - s + s) with 32 by lia. exact Hx.
Qed.

Definition view (i : nat) (r : regs) : Sp.quad :=
  match (i mod 4)%nat with
  | 0%nat => (ra r, rb r, rc r, rd r)
  | 1%nat => (rd r, ra r, rb r, rc r)
  | 2%nat => (rc r, rd r, ra r, rb r)
  | _ => (rb r, rc r, rd r, ra r)
  end.
Definition order_of (i : nat) : order :=
  match (i mod 4)%nat with 0%nat => ABCD | 1%nat => DABC | 2%nat => CDAB | _ => BCDA end.

Definition ok (r : regs) : Prop := ra r < 2 ^ 32 /\ rb r < 2 ^ 32 /\ rc r < 2 ^ 32 /\ rd r < 2 ^ 32.

Definition instr_of (i : nat) : order * nat * N * N :=
  (order_of i, Sp.word_index i, Sp.shift_amount i, nth i Sp.T 0).

Lemma tables : map instr_of (seq 0 64) = round1 ++ round2 ++ round3 ++ round4.
Proof. vm_compute. reflexivity. Qed.
Lemma table1 : round1 = map instr_of (seq 0 16). Proof. vm_compute. reflexivity. Qed.
Lemma table2 : round2 = map instr_of (seq 16 16). Proof. vm_compute. reflexivity. Qed.
Lemma table3 : round3 = map instr_of (seq 32 16). Proof. vm_compute. reflexivity. Qed.
Lemma table4 : round4 = map instr_of (seq 48 16). Proof. vm_compute. reflexivity. Qed.

(** f computes the auxiliary function of step i on 32-bit words. *)
Definition is_aux (f : N -> N -> N -> N) (i : nat) : Prop :=
  forall x y z, x < 2 ^ 32 -> y < 2 ^ 32 -> z < 2 ^ 32 -> f x y z = Sp.aux i x y z.

Lemma op_spec f i a b c d x ac s : is_aux f i -> s <= 32 ->
  a < 2 ^ 32 -> b < 2 ^ 32 -> c < 2 ^ 32 -> d < 2 ^ 32 ->
  op f a b c d x s ac = (b + Sp.rotl ((a + Sp.aux i b c d + x + ac) mod Sp.M) s) mod Sp.M.
Proof.
  intros Hf Hs Ha Hb Hc Hd. unfold op. rewrite rotate_rotl by (auto; apply w32_lt).
  unfold w32. change (2 ^ 32) with Sp.M. rewrite Hf by assumption.
  rewrite N.add_comm. do 4 f_equal. lia.
Qed.

Lemma shift_le i : (i < 64)%nat -> Sp.shift_amount i <= 32.
Proof.
  intros Hi. assert (G : forallb (fun i => Sp.shift_amount i <=? 32) (seq 0 64) = true) by (vm_compute; reflexivity).
  rewrite forallb_forall in G. specialize (G i). rewrite in_seq in G. specialize (G ltac:(lia)). lia.
Qed.

Lemma op_lt f a b c d x s ac : op f a b c d x s ac < 2 ^ 32.
Proof. apply w32_lt. Qed.

Lemma mod4_cases i : exists q, i = (4 * q)%nat \/ i = (4 * q + 1)%nat \/ i = (4 * q + 2)%nat \/ i = (4 * q + 3)%nat.
Proof. exists (i / 4)%nat. lia. Qed.

Lemma exec_ok f o x s ac r : ok r -> ok (exec f o x s ac r).
Proof.
  destruct r as [a b c d]. unfold ok. simpl. intros (Ha & Hb & Hc & Hd).
  destruct o; cbn [exec ra rb rc rd]; repeat split; auto using op_lt.
Qed.

Lemma exec_step f i x r : is_aux f i -> (i < 64)%nat -> ok r ->
  Sp.step x (view i r) i =
  view (S i) (exec f (order_of i) (nth (Sp.word_index i) x 0) (Sp.shift_amount i) (nth i Sp.T 0) r).
Proof.
  intros Hf Hi Hok. pose proof (shift_le i Hi) as Hs.
  destruct r as [a b c d]. destruct Hok as (Ha & Hb & Hc & Hd). cbn [ra rb rc rd] in *.
  unfold view, order_of, Sp.step.
  destruct (mod4_cases i) as (q & [E|[E|[E|E]]]).
  - replace (i mod 4)%nat with 0%nat by lia. replace (S i mod 4)%nat with 1%nat by lia.
    cbn [exec ra rb rc rd]. rewrite (op_spec f i) by assumption. reflexivity.
  - replace (i mod 4)%nat with 1%nat by lia. replace (S i mod 4)%nat with 2%nat by lia.
    cbn [exec ra rb rc rd]. rewrite (op_spec f i) by assumption. reflexivity.
  - replace (i mod 4)%nat with 2%nat by lia. replace (S i mod 4)%nat with 3%nat by lia.
    cbn [exec ra rb rc rd]. rewrite (op_spec f i) by assumption. reflexivity.
  - replace (i mod 4)%nat with 3%nat by lia. replace (S i mod 4)%nat with 0%nat by lia.
    cbn [exec ra rb rc rd]. rewrite (op_spec f i) by assumption. reflexivity.
Qed.

Lemma round_spec f x len : forall s r, (forall i, (s <= i < s + len)%nat -> is_aux f i) ->
  (s + len <= 64)%nat -> ok r ->
  fold_left (Sp.step x) (seq s len) (view s r) = view (s + len) (run_round f x r (map instr_of (seq s len)))
  /\ ok (run_round f x r (map instr_of (seq s len))).
Proof.
  induction len as [|len IH]; intros s r Hf Hs Hok.
  - simpl. rewrite Nat.add_0_r. auto.
  - cbn [seq fold_left map run_round instr_of].
    rewrite (exec_step f) by (auto; try lia; apply Hf; lia).
    set (r' := exec f (order_of s) (nth (Sp.word_index s) x 0) (Sp.shift_amount s) (nth s Sp.T 0) r).
    assert (Hr' : ok r') by (apply exec_ok; assumption).
    destruct (IH (S s) r') as [E O]; [intros; apply Hf; lia|lia|exact Hr'|].
    rewrite E. replace (S s + len)%nat with (s + S len)%nat by lia. split; [reflexivity|exact O].
Qed.

Lemma aux_F i : (0 <= i < 0 + 16)%nat -> is_aux F i.
Proof. intros Hi x y z Hx Hy Hz. unfold F, Sp.aux. replace (i / 16)%nat with 0%nat by lia.
  now rewrite not32_neg. Qed.
Lemma aux_G i : (16 <= i < 16 + 16)%nat -> is_aux G i.
Proof. intros Hi x y z Hx Hy Hz. unfold G, Sp.aux. replace (i / 16)%nat with 1%nat by lia.
  now rewrite not32_neg. Qed.
Lemma aux_H i : (32 <= i < 32 + 16)%nat -> is_aux H i.
Proof. intros Hi x y z Hx Hy Hz. unfold H, Sp.aux. replace (i / 16)%nat with 2%nat by lia. reflexivity. Qed.
Lemma aux_I i : (48 <= i < 48 + 16)%nat -> is_aux I i.
Proof. intros Hi x y z Hx Hy Hz. unfold I, Sp.aux. replace (i / 16)%nat with 3%nat by lia.
  now rewrite not32_neg. Qed.

Definition byte (b : N) : Prop := b < 256.

Lemma Decode_words l : Forall byte l -> Decode l = Sp.words l.
Proof.
  remember (length l) as n. revert l Heqn. induction n as [n IH] using lt_wf_ind. intros l Hn HF.
  destruct l as [|b0 [|b1 [|b2 [|b3 r]]]]; try reflexivity.
  cbn [Decode Sp.words].
  inversion HF as [|? ? H0 F0]; subst. inversion F0 as [|? ? H1 F1]; subst.
  inversion F1 as [|? ? H2 F2]; subst. inversion F2 as [|? ? H3 F3]; subst.
  unfold byte in *. f_equal.
  - rewrite (N.lor_comm b0), lor_shiftl by (change (2 ^ 8) with 256; lia).
    rewrite (N.lor_comm (b1 * 2 ^ 8 + b0)), lor_shiftl
      by (change (2 ^ 8) with 256; change (2 ^ 16) with 65536; lia).
    rewrite N.lor_comm, lor_shiftl
      by (change (2 ^ 8) with 256; change (2 ^ 16) with 65536; change (2 ^ 24) with 16777216; lia).
    change (2 ^ 8) with 256; change (2 ^ 16) with 65536; change (2 ^ 24) with 16777216. lia.
  - apply (IH (length r)); [simpl; lia|reflexivity|assumption].
Qed.

Definition quad_of (r : regs) : Sp.quad := (ra r, rb r, rc r, rd r).

Lemma transform_spec r block : ok r -> Forall byte block ->
  quad_of (MD5Transform r block) = Sp.compress (quad_of r) block.
Proof.
  intros Hok HF. unfold MD5Transform, Sp.compress. rewrite Decode_words by exact HF.
  set (x := Sp.words block).
  rewrite table1, table2, table3, table4.
  destruct (round_spec F x 16 0 r aux_F ltac:(lia) Hok) as [E1 O1].
  set (r1 := run_round F x r (map instr_of (seq 0 16))) in *.
  destruct (round_spec G x 16 16 r1 aux_G ltac:(lia) O1) as [E2 O2].
  set (r2 := run_round G x r1 (map instr_of (seq 16 16))) in *.
  destruct (round_spec H x 16 32 r2 aux_H ltac:(lia) O2) as [E3 O3].
  set (r3 := run_round H x r2 (map instr_of (seq 32 16))) in *.
  destruct (round_spec I x 16 48 r3 aux_I ltac:(lia) O3) as [E4 O4].
  set (r4 := run_round I x r3 (map instr_of (seq 48 16))) in *.
  change (seq 0 64) with (seq 0 16 ++ seq 16 16 ++ seq 32 16 ++ seq 48 16).
  rewrite !fold_left_app. change (quad_of r) with (view 0 r) at 2.
  change (0 + 16)%nat with 16%nat in E1. change (16 + 16)%nat with 32%nat in E2.
  change (32 + 16)%nat with 48%nat in E3.
  rewrite E1, E2, E3, E4. change (view (48 + 16) r4) with (ra r4, rb r4, rc r4, rd r4).
  reflexivity.
Qed.

Lemma transform_ok r block : ok (MD5Transform r block).
Proof. unfold MD5Transform, ok. cbn [ra rb rc rd]. repeat split; apply w32_lt. Qed.
Opaque MD5Transform Sp.compress.

Definition ivr : regs := Regs 0x67452301 0xefcdab89 0x98badcfe 0x10325476.

Lemma ivr_ok : ok ivr. Proof. unfold ok, ivr; simpl. repeat split; reflexivity. Qed.

Lemma fold_sim {X Y B} (f : X -> B -> X) (f' : Y -> B -> Y) (g : X -> Y) (P : X -> Prop) (Q : B -> Prop)
  (Hs : forall r b, P r -> Q b -> g (f r b) = f' (g r) b) (HP : forall r b, P (f r b)) bs :
  Forall Q bs -> forall r, P r -> g (fold_left f bs r) = fold_left f' bs (g r).
Proof.
  induction 1 as [|b bs Hb Hbs IH]; intros r Hr; [reflexivity|].
  cbn [fold_left]. rewrite IH by apply HP. rewrite Hs by assumption. reflexivity.
Qed.

Lemma fold_transform_spec bs : Forall (Forall byte) bs -> forall r, ok r ->
  quad_of (fold_left MD5Transform bs r) = fold_left Sp.compress bs (quad_of r).
Proof. exact (fold_sim _ _ _ ok (Forall byte) transform_spec transform_ok bs). Qed.

(** Representation of "the object has been fed msg". *)
Record Rep (m : md5_t) (msg : list N) : Prop := {
  Rep_state : state m = fold_left MD5Transform (chunks 64 msg) ivr;
  Rep_c0 : count0 m < 2 ^ 32;
  Rep_c1 : count1 m < 2 ^ 32;
  Rep_count : count0 m + 2 ^ 32 * count1 m = (8 * N.of_nat (length msg)) mod 2 ^ 64;
  Rep_buf : length (buffer m) = 64%nat;
  Rep_tail : firstn (length (tail_of 64 msg)) (buffer m) = tail_of 64 msg }.

Lemma Rep_reset buf : length buf = 64%nat -> Rep (reset buf) [].
Proof. intros Hb. constructor; simpl; auto; reflexivity. Qed.

Lemma index_spec m msg : Rep m msg ->
  N.to_nat (N.land (N.shiftr (count0 m) 3) 0x3f) = (length msg mod 64)%nat.
Proof.
  intros HR. change 0x3f with (N.ones 6). rewrite N.land_ones, N.shiftr_div_pow2.
  pose proof (Rep_c0 _ _ HR). pose proof (Rep_count _ _ HR) as Hc.
  change (2 ^ 32) with 4294967296 in *. change (2 ^ 64) with 18446744073709551616 in *.
  change (2 ^ 3) with 8. change (2 ^ 6) with 64.
  assert (E : count0 m = (8 * N.of_nat (length msg)) mod 4294967296).
  { lia. }
  rewrite E. lia.
Qed.

Lemma blit_ok buf i src : (i + length src <= length buf)%nat ->
  exists b, blit buf i src = Some b /\ length b = length buf /\ firstn (i + length src) b = firstn i buf ++ src.
Proof.
  intros Hl. unfold blit. destruct (Nat.leb_spec (i + length src) (length buf)); [|lia].
  eexists; split; [reflexivity|]. split.
  - rewrite !app_length, firstn_length, skipn_length. lia.
  - rewrite app_assoc. rewrite firstn_app.
    rewrite (firstn_all2 (firstn i buf ++ src)) by (rewrite app_length, firstn_length; lia).
    rewrite app_length, firstn_length. replace (i + length src - (Nat.min i (length buf) + length src))%nat with 0%nat by lia.
    now rewrite firstn_O, app_nil_r.
Qed.

Lemma loop_spec input : forall fuel i st, (i <= length input)%nat -> (length input - i <= fuel)%nat ->
  exists i', loop fuel i st input = (i', fold_left MD5Transform (chunks 64 (skipn i input)) st) /\
    skipn i' input = tail_of 64 (skipn i input).
Proof.
  induction fuel as [|f IH]; intros i st Hi Hf.
  - assert (E : skipn i input = []) by (apply skipn_all2; lia).
    exists i. simpl. rewrite E. split; reflexivity.
  - cbn [loop]. destruct (Nat.ltb_spec (i + 63) (length input)) as [Hlt|Hge].
    + assert (E : skipn i input = firstn 64 (skipn i input) ++ skipn (i + 64) input).
      { replace (i + 64)%nat with (64 + i)%nat by lia. rewrite <- (firstn_skipn 64 (skipn i input)) at 1.
        f_equal. rewrite skipn_skipn. reflexivity. }
      assert (Hlen : length (firstn 64 (skipn i input)) = 64%nat)
        by (rewrite firstn_length, skipn_length; lia).
      remember (firstn 64 (skipn i input)) as blk eqn:Eblk.
      destruct (IH (i + 64)%nat (MD5Transform st blk)) as (i' & -> & Ht); [lia|lia|].
      exists i'. rewrite E, chunks_cons, tail_cons by (auto; lia). split; [|exact Ht].
      cbn [fold_left]. reflexivity.
    + exists i. assert (Hlen : (length (skipn i input) < 64)%nat) by (rewrite skipn_length; lia).
      rewrite chunks_short, tail_short by lia. split; reflexivity.
Qed.

Lemma count_step c0 c1 n len : c0 < 2 ^ 32 -> c1 < 2 ^ 32 ->
  c0 + 2 ^ 32 * c1 = (8 * n) mod 2 ^ 64 ->
  let lsb := w32 (N.shiftl len 3 mod 2 ^ 64) in
  let c0' := w32 (c0 + lsb) in
  let c1' := w32 (w32 (c1 + (if c0' <? lsb then 1 else 0)) + w32 (N.shiftr len 29)) in
  c0' + 2 ^ 32 * c1' = (8 * (n + len)) mod 2 ^ 64.
Proof.
  intros H0 H1 Hc. cbv zeta. unfold w32. rewrite N.shiftl_mul_pow2, N.shiftr_div_pow2.
  change (2 ^ 3) with 8. change (2 ^ 29) with 536870912.
  change (2 ^ 32) with 4294967296 in *. change (2 ^ 64) with 18446744073709551616 in *.
  assert (E : len * 8 mod 18446744073709551616 mod 4294967296 = (8 * len) mod 4294967296) by lia.
  rewrite E. set (l := (8 * len) mod 4294967296). set (h := len / 536870912).
  assert (Hl : l < 4294967296) by (unfold l; lia).
  assert (Hsplit : 8 * len = l + 4294967296 * h) by (unfold l, h; lia).
  replace (8 * (n + len)) with (8 * n + (l + 4294967296 * h)) by lia.
  clearbody l h. clear E Hsplit.
  rewrite <- (N.add_mod_idemp_l (8 * n)) by discriminate. rewrite <- Hc.
  destruct (N.ltb_spec ((c0 + l) mod 4294967296) l); lia.
Qed.

Lemma Rep_update m msg input : Rep m msg ->
  exists m', update m input = Some m' /\ Rep m' (msg ++ input).
Proof.
  intros HR. unfold update. rewrite (index_spec m msg HR).
  pose proof (count_step _ _ (N.of_nat (length msg)) (N.of_nat (length input)) (Rep_c0 _ _ HR) (Rep_c1 _ _ HR) (Rep_count _ _ HR)) as Hcount.
  cbv zeta in Hcount.
  pose proof (tail_length 64 ltac:(lia) msg) as Htl.
  pose proof (tail_lt 64 ltac:(lia) msg) as Htlt.
  set (idx := (length msg mod 64)%nat) in *.
  pose proof (Rep_buf _ _ HR) as Hbuf. pose proof (Rep_tail _ _ HR) as Htail. rewrite Htl in Htail.
  set (c0' := w32 (count0 m + _)) in *. set (c1' := w32 (w32 _ + _)) in *.
  assert (Hlen8 : (8 * (N.of_nat (length msg) + N.of_nat (length input))) = 8 * N.of_nat (length (msg ++ input))).
  { rewrite app_length. lia. }
  rewrite Hlen8 in Hcount.
  destruct (Nat.leb_spec (64 - idx) (length input)) as [Hle|Hgt].
  - assert (Hfl : length (firstn (64 - idx) input) = (64 - idx)%nat) by (rewrite firstn_length; lia).
    destruct (blit_ok (buffer m) idx (firstn (64 - idx) input)) as (buf & -> & Hbl & Hbf); [lia|].
    rewrite Htail, Hfl in Hbf. replace (idx + (64 - idx))%nat with 64%nat in Hbf by lia.
    rewrite firstn_all2 in Hbf by lia. 
    destruct (loop_spec input (length input) (64 - idx) (MD5Transform (state m) buf)) as (i' & -> & Hi'); [lia|lia|].
    pose proof (tail_lt 64 ltac:(lia) (skipn (64 - idx) input)) as Htl2. rewrite <- Hi' in Htl2.
    destruct (blit_ok buf 0 (skipn i' input)) as (buf2 & -> & Hbl2 & Hbf2); [lia|].
    eexists; split; [reflexivity|].
    assert (Happ : tail_of 64 msg ++ input = buf ++ skipn (64 - idx) input).
    { rewrite Hbf, <- app_assoc. f_equal. symmetry. apply firstn_skipn. }
    assert (Htail2 : tail_of 64 (msg ++ input) = skipn i' input).
    { rewrite tail_app by lia. rewrite Happ, tail_cons by lia. now rewrite Hi'. }
    constructor; cbn [state count0 count1 buffer].
    + rewrite chunks_app, fold_left_app by lia. rewrite <- (Rep_state _ _ HR).
      rewrite Happ, chunks_cons by lia. reflexivity.
    + apply w32_lt.
    + apply w32_lt.
    + exact Hcount.
    + lia.
    + rewrite Htail2. exact Hbf2.
  - destruct (blit_ok (buffer m) idx input) as (buf & -> & Hbl & Hbf); [lia|].
    eexists; split; [reflexivity|].
    assert (Hshort : (length (tail_of 64 msg ++ input) < 64)%nat) by (rewrite app_length; lia).
    assert (Htail2 : tail_of 64 (msg ++ input) = tail_of 64 msg ++ input).
    { rewrite tail_app by lia. now rewrite tail_short by lia. }
    constructor; cbn [state count0 count1 buffer].
    + rewrite chunks_app, (chunks_short 64 ltac:(lia) (tail_of 64 msg ++ input)), app_nil_r by lia. exact (Rep_state _ _ HR).
    + apply w32_lt.
    + apply w32_lt.
    + exact Hcount.
    + lia.
    + rewrite Htail2, app_length, Htl, Hbf, Htail. reflexivity.
Qed.

Lemma Rep_updates inputs : forall m msg, Rep m msg ->
  exists m', updates m inputs = Some m' /\ Rep m' (msg ++ concat inputs).
Proof.
  induction inputs as [|i is IH]; intros m msg HR; simpl.
  - rewrite app_nil_r. eauto.
  - destruct (Rep_update m msg i HR) as (m1 & -> & HR1).
    destruct (IH m1 _ HR1) as (m2 & -> & HR2). exists m2. rewrite <- app_assoc in HR2. auto.
Qed.

Lemma Encode_cons w r : w < 2 ^ 32 -> Encode (w :: r) = Sp.le_bytes 4 w ++ Encode r.
Proof.
  intros Hw. cbn [Encode Sp.le_bytes app]. change 0xff with (N.ones 8).
  rewrite !N.land_ones, !N.shiftr_div_pow2. rewrite !N.div_div by discriminate. reflexivity.
Qed.

Lemma le_bytes_app j : forall k x, Sp.le_bytes (j + k) x = Sp.le_bytes j x ++ Sp.le_bytes k (x / 256 ^ N.of_nat j).
Proof.
  induction j as [|j IH]; intros k x.
  - simpl. now rewrite N.div_1_r.
  - cbn [Nat.add Sp.le_bytes app]. f_equal. rewrite IH. f_equal. f_equal.
    rewrite N.div_div by (try apply N.pow_nonzero; discriminate). f_equal.
    rewrite Nat2N.inj_succ, N.pow_succ_r'. reflexivity.
Qed.

Lemma le_bytes_4 x : Sp.le_bytes 4 x = Sp.le_bytes 4 (x mod 2 ^ 32).
Proof.
  cbn [Sp.le_bytes]. change (2 ^ 32) with 4294967296.
  repeat (apply f_equal2; [lia|]); reflexivity.
Qed.

Lemma Encode_count c0 c1 n : c0 < 2 ^ 32 -> c1 < 2 ^ 32 ->
  c0 + 2 ^ 32 * c1 = n -> Encode [c0; c1] = Sp.le_bytes 8 n.
Proof.
  intros H0 H1 Hn. rewrite !Encode_cons by assumption. cbn [Encode]. rewrite app_nil_r.
  change 8%nat with (4 + 4)%nat. rewrite le_bytes_app. 
  rewrite (le_bytes_4 n). change (256 ^ N.of_nat 4) with (2 ^ 32). subst n.
  change (2 ^ 32) with 4294967296 in *. f_equal; f_equal; lia.
Qed.

Lemma pad_length msg : (length (Sp.pad msg) mod 64 = 0)%nat.
Proof.
  unfold Sp.pad. rewrite !app_length, repeat_length. simpl length. lia.
Qed.

Lemma byte_repeat k : Forall byte (repeat 0 k).
Proof. apply Forall_forall. intros x Hx. apply repeat_spec in Hx as ->. unfold byte. lia. Qed.
Lemma byte_le k : forall x, Forall byte (Sp.le_bytes k x).
Proof. induction k as [|k IH]; intros x; simpl; constructor; auto. unfold byte. lia. Qed.

Lemma pad_bytes msg : Forall byte msg -> Forall byte (Sp.pad msg).
Proof.
  intros Hm. unfold Sp.pad. apply Forall_app. split; [exact Hm|]. apply Forall_app. split.
  - constructor; [unfold byte; lia|constructor].
  - apply Forall_app. split; [apply byte_repeat|apply byte_le].
Qed.

Lemma firstn_repeat {A} (x : A) k n : (k <= n)%nat -> firstn k (repeat x n) = repeat x k.
Proof. revert n; induction k as [|k IH]; intros [|n] Hk; simpl; auto; try lia. f_equal. apply IH. lia. Qed.

Lemma final_spec m msg : Rep m msg -> Forall byte msg ->
  exists m', final m = Some (Sp.md5 msg, m') /\ Rep m' [].
Proof.
  intros HR HF. unfold final. rewrite (index_spec m msg HR).
  set (idx := (length msg mod 64)%nat).
  set (padLen := (if (idx <? 56)%nat then 56 - idx else 120 - idx)%nat).
  assert (Hidx : (idx < 64)%nat) by (unfold idx; lia).
  assert (Hpl : (1 <= padLen <= 64)%nat /\ ((padLen - 1) = (119 - idx) mod 64)%nat).
  { unfold padLen. destruct (Nat.ltb_spec idx 56); lia. }
  assert (Epad : firstn padLen (0x80 :: repeat 0 63) = [0x80] ++ repeat 0 ((119 - idx) mod 64)%nat).
  { destruct padLen as [|p] eqn:Ep; [lia|]. cbn [firstn app]. f_equal.
    rewrite firstn_repeat by lia. f_equal. lia. }
  rewrite Epad.
  destruct (Rep_update m msg ([0x80] ++ repeat 0 ((119 - idx) mod 64)%nat) HR) as (m1 & -> & HR1).
  rewrite (Encode_count _ _ _ (Rep_c0 _ _ HR) (Rep_c1 _ _ HR) (Rep_count _ _ HR)).
  destruct (Rep_update m1 _ (Sp.le_bytes 8 ((8 * N.of_nat (length msg)) mod 2 ^ 64)) HR1) as (m2 & -> & HR2).
  eexists; split; [|apply Rep_reset; apply HR2].
  do 2 f_equal. unfold Sp.md5.
  assert (Eall : (msg ++ [0x80] ++ repeat 0 ((119 - idx) mod 64)%nat) ++ Sp.le_bytes 8 ((8 * N.of_nat (length msg)) mod 2 ^ 64) = Sp.pad msg).
  { unfold Sp.pad. rewrite <- !app_assoc. reflexivity. }
  rewrite Eall in HR2.
  assert (Hfold : quad_of (state m2) = fold_left Sp.compress (chunks 64 (Sp.pad msg)) Sp.iv).
  { rewrite (Rep_state _ _ HR2). rewrite fold_transform_spec; [reflexivity| |apply ivr_ok].
    apply chunks_Forall; [lia|]. now apply pad_bytes. }
  rewrite <- Hfold. unfold quad_of.
  assert (Hok : ok (state m2)).
  { rewrite (Rep_state _ _ HR2). destruct (chunks 64 (Sp.pad msg)) as [|b bs] using rev_ind; [apply ivr_ok|].
    rewrite fold_left_app. simpl. apply transform_ok. }
  destruct Hok as (Ha & Hb & Hc & Hd).
  rewrite !Encode_cons by assumption. cbn [Encode]. rewrite app_nil_r, ?app_assoc. reflexivity.
Qed.
