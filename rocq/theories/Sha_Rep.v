(** What a sha object represents, and the correctness of update and finalize. *)
From Verif Require Import Prelude Bits Blocks Sha_Model Sha_Engine.
From Verif Require Sha_Spec.
Local Open Scope N_scope.

Section Rep.
Variable T : traits.
Variable w : nat.
Hypothesis Hw : w = 32%nat \/ w = 64%nat.
Hypothesis HW : wbits T = N.of_nat w.

Let B := (16 * w)%nat.
Lemma B_pos : (0 < B)%nat. Proof. unfold B. lia. Qed.
Lemma B_mod8 : (B mod 8 = 0)%nat. Proof. unfold B. destruct Hw as [-> | ->]; reflexivity. Qed.

Record Rep (o : sha) (msg : list bool) : Prop := {
  R_digest : state_digest o = fold_left (digest_block T) (map (Sha_Spec.words w) (chunks B msg)) (initial_state T);
  R_state : Holds w (state o) (tail_of B msg);
  R_stuffed : stuffed_size o = N.of_nat (length (tail_of B msg));
  R_size : message_size o = N.of_nat (length msg) mod 2 ^ 64 }.

Lemma Rep_init : Rep (init T) [].
Proof.
  assert (E : tail_of B ([] : list bool) = []) by (apply tail_short; [apply B_pos|apply B_pos]).
  constructor; rewrite ?E; try reflexivity. apply Holds_zero. exact Hw.
Qed.

Lemma tail_mod8 (msg : list bool) : (length msg mod 8 = 0)%nat -> (length (tail_of B msg) mod 8 = 0)%nat.
Proof. intros H. rewrite tail_length by apply B_pos. unfold B. destruct Hw as [-> | ->]; lia. Qed.

Lemma block_loop_spec : forall fuel m o src msg avail,
  Rep o msg -> (length msg mod 8 = 0)%nat -> clean src m ->
  (m = [] \/ avail = N.of_nat (B - length (tail_of B msg))) -> (length (mem src) < fuel)%nat ->
  exists o', block_loop T fuel avail o src = Some o' /\ Rep o' (msg ++ m).
Proof.
  induction fuel as [|fuel IH]; intros m o src msg avail HR Ha Hc Hav Hf; [lia|].
  cbn [block_loop]. rewrite (bits_available_spec w Hw), (proj1 Hc).
  destruct m as [|b0 m0].
  { cbn [length]. change (0 <? N.min 8 (N.of_nat 0)) with false. cbv iota.
    exists o. rewrite app_nil_r. auto. }
  destruct (N.ltb_spec 0 (N.min 8 (N.of_nat (length (b0 :: m0))))) as [_|H0]; [|cbn [length] in H0; lia].
  destruct Hav as [Hav|Hav]; [discriminate|]. remember (b0 :: m0) as m eqn:Em0.
  assert (Hm : m <> []) by (rewrite Em0; discriminate). clear Em0 b0 m0.
  pose proof (tail_lt B B_pos msg) as Hlt. pose proof (tail_mod8 msg Ha) as Hta.
  set (t := tail_of B msg) in *.
  assert (Hnb8 : ((B - length t) mod 8 = 0)%nat).
  { pose proof B_mod8. clear - H Hta Hlt. lia. }
  rewrite (R_stuffed _ _ HR). fold t. rewrite Hav.
  destruct (stuff_spec w Hw T HW (state o) t m src (B - length t)%nat (R_state _ _ HR) Hta)
    as (st' & s' & m1 & m2 & -> & Em & HH & Hle & Hc' & Hfull & Hmem); auto; try (unfold B in *; lia).
  assert (Hsz : (message_size o + N.of_nat (length m1)) mod 2 ^ 64 = N.of_nat (length (msg ++ m1)) mod 2 ^ 64).
  { rewrite (R_size _ _ HR), app_length, Nat2N.inj_add. rewrite N.add_mod_idemp_l by discriminate. reflexivity. }
  rewrite Hsz.
  assert (HR' : Rep (if N.of_nat (length m1) =? N.of_nat (B - length t)
           then Sha (N.of_nat (length (msg ++ m1)) mod 2 ^ 64) (repeat 0 16) (digest_block T (state_digest o) st') 0
           else Sha (N.of_nat (length (msg ++ m1)) mod 2 ^ 64) st' (state_digest o) (N.of_nat (length (t ++ m1)))) (msg ++ m1)
        /\ (m2 = [] \/ ((length m1 mod 8 = 0)%nat /\ blocksize T = N.of_nat (B - length (tail_of B (msg ++ m1)))))).
  { destruct (N.eqb_spec (N.of_nat (length m1)) (N.of_nat (B - length t))) as [E|E].
    - assert (Hl : length (t ++ m1) = B) by (rewrite app_length; lia).
      assert (Ech : chunks B (t ++ m1) = [t ++ m1]).
      { rewrite <- (app_nil_r (t ++ m1)) at 1. rewrite chunks_cons by (auto using B_pos).
        rewrite chunks_short; [reflexivity|apply B_pos|apply B_pos]. }
      assert (Etl : tail_of B (msg ++ m1) = []).
      { rewrite tail_app by apply B_pos. fold t. rewrite <- (app_nil_r (t ++ m1)).
        rewrite tail_cons by (auto using B_pos). rewrite tail_short; [reflexivity|apply B_pos|apply B_pos]. }
      split.
      + constructor; cbn [state_digest state stuffed_size message_size].
        * rewrite chunks_app by apply B_pos. fold t. rewrite Ech, map_app, fold_left_app, <- (R_digest _ _ HR).
          cbn [map fold_left]. f_equal. apply (Holds_words w Hw); assumption.
        * rewrite Etl. apply Holds_zero. exact Hw.
        * rewrite Etl. reflexivity.
        * reflexivity.
      + right. split; [rewrite (Nat2N.inj _ _ E); exact Hnb8|].
        rewrite Etl. unfold blocksize, B. cbn [length]. rewrite HW. lia.
    - destruct Hfull as [Hfull|[Hl0 ->]]; [exfalso; apply E; now rewrite Hfull|].
      assert (Hl : (length (t ++ m1) < B)%nat) by (rewrite app_length; lia).
      assert (Ech : chunks B (t ++ m1) = []) by (apply chunks_short; [apply B_pos|exact Hl]).
      assert (Etl : tail_of B (msg ++ m1) = t ++ m1).
      { rewrite tail_app by apply B_pos. fold t. apply tail_short; [apply B_pos|exact Hl]. }
      split; [|now left].
      constructor; cbn [state_digest state stuffed_size message_size].
      * rewrite chunks_app by apply B_pos. fold t. rewrite Ech, app_nil_r. exact (R_digest _ _ HR).
      * rewrite Etl. exact HH.
      * rewrite Etl. reflexivity.
      * reflexivity. }
  destruct HR' as [HR' Hnext].
  destruct Hnext as [->|[Ha1 Hbs]].
  - rewrite app_nil_r in Em. subst m1.
    destruct fuel as [|fuel]; [lia|]. cbn [block_loop]. rewrite (bits_available_spec w Hw), (proj1 Hc').
    cbn [length]. change (0 <? N.min 8 (N.of_nat 0)) with false. cbv iota. eauto.
  - edestruct (IH m2 _ s' (msg ++ m1) (blocksize T) HR') as (o' & Eo & HRo);
      [rewrite app_length; clear -Ha Ha1; lia|exact Hc'|right; exact Hbs|lia|].
    exists o'. split; [exact Eo|]. rewrite Em, app_assoc. exact HRo.
Qed.

Lemma Rep_aligned o msg : Rep o msg -> (length msg mod 8 = 0)%nat -> (stuffed_size o mod 8 =? 0) = true.
Proof.
  intros HR Ha. rewrite (R_stuffed _ _ HR). pose proof (tail_mod8 msg Ha) as H.
  apply N.eqb_eq. clear -H. lia.
Qed.

Lemma Rep_update_bits o msg memory nbits m : Rep o msg -> (length msg mod 8 = 0)%nat ->
  clean (Src memory nbits) m ->
  exists o', update_bits T o memory nbits = Some o' /\ Rep o' (msg ++ m).
Proof.
  intros HR Ha Hc. unfold update_bits. rewrite (Rep_aligned o msg HR Ha). unfold block_and_digest.
  apply block_loop_spec; auto. right. rewrite (R_stuffed _ _ HR). unfold blocksize, B. rewrite HW. lia.
Qed.

Lemma Rep_update o msg bytes : Rep o msg -> (length msg mod 8 = 0)%nat -> Forall (fun b => b < 256) bytes ->
  exists o', update T o bytes = Some o' /\ Rep o' (msg ++ Sha_Spec.bits_of_bytes bytes).
Proof.
  intros HR Ha HF. change (update T o bytes) with (update_bits T o bytes (8 * N.of_nat (length bytes))).
  apply Rep_update_bits; auto. split; [|split].
  - cbn [sbits]. rewrite bits_of_bytes_length. lia.
  - exact HF.
  - exists 0%nat, []. cbn [mem repeat app]. rewrite app_nil_r. split; [reflexivity|].
    rewrite bits_of_bytes_length. lia.
Qed.

(** ** finalize *)
Lemma stuff_one st t : Holds w st t -> (length t < 16 * w)%nat ->
  exists st', stuff_into_state T st (N.of_nat (length t)) 1 (Src [0x80] 1)
     = Some (st', N.of_nat (length t + 1), 1, Src [] 0) /\ Holds w st' (t ++ [true]).
Proof.
  intros HH Hlt. unfold stuff_into_state. rewrite HW.
  assert (Eel : N.to_nat (N.of_nat (length t) / N.of_nat w) = (length t / w)%nat) by (destruct Hw as [-> | ->]; lia).
  rewrite Eel. change (S (N.to_nat 1)) with 2%nat. cbn [stuff_loop st_bits]. change (8 <=? 1) with false.
  cbn [andb st_bits st_src]. change (bits_available (Src [128] 1)) with 1.
  change (1 =? 0) with false. cbn [negb andb st_offset st_state st_dst st_count deref mem].
  change (N.min 1 1) with 1. change (N.land 128 255) with 0x80.
  destruct (or_one w Hw st t HH Hlt) as (st' & E & HH').
  unfold one_bit_word in E. cbv zeta in E. rewrite E. exists st'. split; [|exact HH'].
  change (1 <? 8) with true. cbv iota. change (next (Src [128] 1)) with (Src [] 0).
  rewrite Nat2N.inj_add. reflexivity.
Qed.

Lemma Holds_zeros st t k : Holds w st t -> Holds w st (t ++ repeat false k).
Proof.
  apply Holds_ext. intros p. rewrite (nth_app_bits w Hw), nth_repeat.
  destruct (length t <=? p)%nat; now rewrite orb_false_r.
Qed.

Lemma Holds_put st t d x : Holds w st t -> length t = (d * w)%nat -> (d < 16)%nat -> x < 2 ^ N.of_nat w ->
  Holds w (upd st d x) (t ++ Sha_Spec.be_bits w x).
Proof.
  intros HH Hl Hd Hx. apply (Holds_set w Hw st t); auto.
  - intros p Hp Hne. rewrite (nth_app_bits w Hw). destruct (Nat.leb_spec (length t) p); [|apply orb_false_r].
    rewrite (nth_overflow (Sha_Spec.be_bits w x)), orb_false_r; [reflexivity|].
    rewrite be_bits_length. assert (w <> 0)%nat by (destruct Hw; lia).
    destruct (Nat.lt_ge_cases (p - length t) w) as [Hq|Hq]; [|exact Hq].
    exfalso. apply Hne. symmetry. apply (Nat.div_unique p w d (p - length t)); [exact Hq|]. lia.
  - intros q Hq. rewrite app_nth2 by lia. rewrite <- Hl. replace (length t + q - length t)%nat with q by lia.
    rewrite be_bits_nth by exact Hq. reflexivity.
Qed.

Lemma be_bits_app a : forall b x, Sha_Spec.be_bits (a + b) x = Sha_Spec.be_bits a (x / 2 ^ N.of_nat b) ++ Sha_Spec.be_bits b x.
Proof.
  induction a as [|a IH]; intros b x; [reflexivity|]. cbn [Nat.add Sha_Spec.be_bits app]. rewrite IH.
  f_equal. f_equal. rewrite N.div_div by (apply N.pow_nonzero; discriminate).
  rewrite <- N.pow_add_r. f_equal. f_equal. lia.
Qed.

Lemma be_bits_mod n : forall x, Sha_Spec.be_bits n (x mod 2 ^ N.of_nat n) = Sha_Spec.be_bits n x.
Proof.
  intros x. apply (nth_ext _ _ false false); rewrite !be_bits_length; [reflexivity|].
  intros p Hp. rewrite !be_bits_nth by exact Hp. apply N.mod_pow2_bits_low. lia.
Qed.

Lemma zero_bits k : Sha_Spec.be_bits k 0 = repeat false k.
Proof.
  apply (nth_ext _ _ false false); rewrite be_bits_length, ?repeat_length; [reflexivity|].
  intros p Hp. rewrite be_bits_nth by exact Hp. rewrite nth_repeat. apply N.bits_0.
Qed.

(** Lines 405-413: writing the length. *)
Lemma length_words st t L : Holds w st t -> (length t <= 14 * w)%nat -> L < 2 ^ 64 ->
  Holds w (upd (if 64 <=? N.of_nat w then st
                else if N.ones (N.of_nat w) <? L then upd st 14 (N.land (N.shiftr L (N.of_nat w)) (N.ones (N.of_nat w))) else st)
              15 (N.land L (N.ones (N.of_nat w))))
    (t ++ repeat false (14 * w - length t) ++ Sha_Spec.be_bits (2 * w) L).
Proof.
  intros HH Hl HL.
  apply (Holds_zeros st t (14 * w - length t)) in HH. rewrite app_assoc.
  set (t14 := t ++ repeat false (14 * w - length t)) in *.
  assert (Hl14 : length t14 = (14 * w)%nat) by (unfold t14; rewrite app_length, repeat_length; lia).
  clearbody t14. clear Hl t.
  replace (2 * w)%nat with (w + w)%nat by lia. rewrite be_bits_app, app_assoc.
  rewrite !N.land_ones. rewrite <- (be_bits_mod w L).
  apply Holds_put; [|rewrite app_length, be_bits_length; lia|lia|apply N.mod_lt; apply N.pow_nonzero; discriminate].
  assert (Hz : L / 2 ^ N.of_nat w = 0 -> Holds w st (t14 ++ Sha_Spec.be_bits w (L / 2 ^ N.of_nat w))).
  { intros ->. rewrite zero_bits. now apply Holds_zeros. }
  destruct (N.leb_spec 64 (N.of_nat w)) as [H64|H64].
  - apply Hz. assert (w = 64%nat) as -> by (destruct Hw; lia). apply N.div_small. exact HL.
  - destruct (N.ltb_spec (N.ones (N.of_nat w)) L) as [Hm|Hm].
    + rewrite N.shiftr_div_pow2. rewrite <- (be_bits_mod w (L / _)).
      apply Holds_put; [exact HH|lia|lia|apply N.mod_lt; apply N.pow_nonzero; discriminate].
    + apply Hz. apply N.div_small. rewrite N.ones_equiv in Hm. pose proof (pow_pos (N.of_nat w)). lia.
Qed.

Lemma chunks_one (b : list bool) : length b = B -> chunks B b = [b].
Proof.
  intros Hb. rewrite <- (app_nil_r b) at 1. rewrite chunks_cons by (auto using B_pos).
  rewrite chunks_short; [reflexivity|apply B_pos|apply B_pos].
Qed.

Lemma finalize_spec o msg : Rep o msg -> N.of_nat (length msg) < 2 ^ 64 ->
  finalize T o = Some (firstn (digest_words T)
    (fold_left (digest_block T) (map (Sha_Spec.words w) (chunks B (Sha_Spec.pad w msg))) (initial_state T))).
Proof.
  intros HR HL. unfold finalize. rewrite (R_stuffed _ _ HR).
  pose proof (tail_lt B B_pos msg) as Hlt. set (t := tail_of B msg) in *.
  destruct (stuff_one (state o) t (R_state _ _ HR) Hlt) as (st & -> & HH).
  rewrite (R_size _ _ HR), N.mod_small by exact HL. rewrite (R_digest _ _ HR).
  set (L := N.of_nat (length msg)) in *. set (d0 := fold_left (digest_block T) (map _ (chunks B msg)) _).
  assert (Hused : ((length msg + 1) mod B = (length t + 1) mod B)%nat).
  { unfold t. rewrite tail_length by apply B_pos. rewrite Nat.add_mod_idemp_l by (pose proof B_pos; lia). reflexivity. }
  set (K := ((B + 14 * w - (length msg + 1) mod B) mod B)%nat).
  assert (Epad : chunks B (Sha_Spec.pad w msg) = chunks B msg ++ chunks B ((t ++ [true]) ++ repeat false K ++ Sha_Spec.be_bits (2 * w) L)).
  { unfold Sha_Spec.pad. fold B K L. rewrite chunks_app by apply B_pos. fold t. rewrite <- !app_assoc. reflexivity. }
  rewrite Epad, map_app, fold_left_app. fold d0.
  assert (Hl1 : length (t ++ [true]) = (length t + 1)%nat) by (rewrite app_length; reflexivity).
  set (t1 := t ++ [true]) in *.
  assert (Hbs : blocksize T = N.of_nat B) by (unfold blocksize, B; rewrite HW; lia).
  assert (Hms : blocksize T - max_message_bitsize T = N.of_nat (14 * w)) by (unfold blocksize, max_message_bitsize; rewrite HW; lia).
  rewrite Hms, Hbs, HW.
  assert (HB : B = (16 * w)%nat) by reflexivity.
  assert (HK : (length t + 1 <= 14 * w -> K = 14 * w - (length t + 1))%nat /\
               (14 * w < length t + 1 -> K = (B - (length t + 1)) + 14 * w)%nat).
  { unfold K. rewrite Hused. assert (Hw0 : (0 < w)%nat) by (destruct Hw; lia).
    destruct (Nat.eq_dec (length t + 1) B) as [E|E].
    - rewrite E, Nat.mod_same by lia. split; [lia|]. intros _.
      replace (B + 14 * w - 0)%nat with (14 * w + 1 * B)%nat by lia. rewrite Nat.mod_add by lia. rewrite Nat.mod_small by lia. lia.
    - rewrite (Nat.mod_small (length t + 1)) by lia. split; intros H.
      + replace (B + 14 * w - (length t + 1))%nat with (14 * w - (length t + 1) + 1 * B)%nat by lia.
        rewrite Nat.mod_add by lia. apply Nat.mod_small. lia.
      + rewrite Nat.mod_small by lia. lia. }
  clearbody K. destruct HK as [HK1 HK2].
  destruct (Nat.le_gt_cases (length t + 1) (14 * w)) as [Hc|Hc].
  - (* the length fits in the current block *)
    specialize (HK1 Hc). clear HK2.
    destruct (N.eqb_spec (N.of_nat (length t + 1)) (N.of_nat B)); [lia|].
    destruct (N.ltb_spec (N.of_nat (14 * w)) (N.of_nat (length t + 1))); [lia|].
    cbv zeta. do 2 f_equal. pose proof (length_words st t1 L HH ltac:(lia) HL) as HF.
    rewrite Hl1, <- HK1 in HF.
    assert (Hlen : length (t1 ++ repeat false K ++ Sha_Spec.be_bits (2 * w) L) = B)
      by (rewrite !app_length, repeat_length, be_bits_length; lia).
    rewrite (chunks_one _ Hlen). cbn [map fold_left]. f_equal. apply (Holds_words w Hw); assumption.
  - specialize (HK2 Hc). clear HK1.
    assert (Hgoal : forall s, Holds w s t1 ->
      digest_block T (digest_block T d0 s) (upd (if 64 <=? N.of_nat w then repeat 0 16
                else if N.ones (N.of_nat w) <? L then upd (repeat 0 16) 14 (N.land (N.shiftr L (N.of_nat w)) (N.ones (N.of_nat w))) else repeat 0 16)
              15 (N.land L (N.ones (N.of_nat w))))
      = fold_left (digest_block T) (map (Sha_Spec.words w) (chunks B (t1 ++ repeat false K ++ Sha_Spec.be_bits (2 * w) L))) d0).
    { intros s Hs. apply (Holds_zeros s t1 (B - (length t + 1))) in Hs.
      rewrite HK2, repeat_app, <- app_assoc, app_assoc.
      assert (Hlb : length (t1 ++ repeat false (B - (length t + 1))) = B) by (rewrite app_length, repeat_length; lia).
      rewrite chunks_cons by (auto using B_pos).
      pose proof (length_words (repeat 0 16) [] L (Holds_zero w Hw) ltac:(simpl; lia) HL) as HF.
      cbn [length app] in HF. rewrite Nat.sub_0_r in HF.
      rewrite chunks_one by (rewrite app_length, repeat_length, be_bits_length; lia).
      cbn [map fold_left]. rewrite <- (Holds_words w Hw s _ Hs Hlb).
      rewrite <- (Holds_words w Hw _ _ HF) by (rewrite app_length, repeat_length, be_bits_length; lia).
      reflexivity. }
    destruct (N.eqb_spec (N.of_nat (length t + 1)) (N.of_nat B)) as [E|E].
    + destruct (N.ltb_spec (N.of_nat (14 * w)) 0); [lia|]. cbv zeta. do 2 f_equal. apply Hgoal. exact HH.
    + destruct (N.ltb_spec (N.of_nat (14 * w)) (N.of_nat (length t + 1))); [|lia].
      cbv zeta. do 2 f_equal. apply Hgoal. exact HH.
Qed.
End Rep.
