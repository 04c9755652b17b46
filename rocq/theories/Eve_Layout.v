(** Laying out a solved tree without guides. *)
From Verif Require Import Prelude Eve_Model Eve_Spec Eve_Base Eve_Adjust Eve_Solve.
From Coq Require Import List ZArith Lia Bool.
Import ListNotations.
Open Scope Z_scope.
Ltac Zify.zify_post_hook ::= idtac.

(** everything but the place *)
Definition rest (d : slice_select) (v : view) := (key d v, clen d v, s_measured_length (slc d v), fwd d v, rev_g d v).
Lemma rest_inv d v w : rest d v = rest d w -> key d v = key d w /\ clen d v = clen d w /\ s_measured_length (slc d v) = s_measured_length (slc d w) /\ fwd d v = fwd d w /\ rev_g d v = rev_g d w.
Proof. unfold rest. intros E. generalize (f_equal (fun x => fst (fst (fst (fst x)))) E) (f_equal (fun x => snd (fst (fst (fst x)))) E) (f_equal (fun x => snd (fst (fst x))) E) (f_equal (fun x => snd (fst x)) E) (f_equal snd E). cbn [fst snd]. auto. Qed.
Lemma rest_upd d f v : rest d (upd d (upd_place f) v) = rest d v.
Proof. unfold rest, key, core, align, suppressed, clen, fwd, rev_g. rewrite !slc_upd, slc_upd_other, placeable_upd, visible_upd, placement_upd, indent_upd, create_upd, spacing_upd, sb_upd. reflexivity. Qed.
Lemma rest_put d l x c : rest d (put d l x c) = rest d c. Proof. apply rest_upd. Qed.
Lemma ppos_put d l x c : ppos d (put d l x c) = x. Proof. unfold ppos, put. rewrite slc_upd. reflexivity. Qed.
Lemma plen_put d l x c : plen d (put d l x c) = l. Proof. unfold plen, put. rewrite slc_upd. reflexivity. Qed.

Definition vin_block (d : slice_select) (c : view) (b share : Z) : Prop :=
  match align d c with
  | align_forward_fill | align_reverse_fill => ppos d c = b /\ plen d c = clen d c + share
  | align_forward | align_reverse => ppos d c = b /\ plen d c = clen d c /\ share = 0
  | align_center => ppos d c = b + share / 2 /\ plen d c = clen d c
  | align_proportional => b <= ppos d c <= b + share /\ plen d c = clen d c
  | align_default => False
  end.
Fixpoint vtiles (d : slice_select) (start : Z) (cs : list view) (shares : list Z) (stop : Z) : Prop :=
  match cs, shares with
  | [], [] => start = stop
  | c :: cs', s :: shares' => vin_block d c (start + v_space_before c) s /\ vtiles d (start + v_space_before c + clen d c + s) cs' shares' stop
  | _, _ => False
  end.
Definition vfair (q : Z) (d : slice_select) (c : view) (share : Z) : Prop := if is_padded (align d c) then share = q \/ share = q + 1 else share = 0.

Lemma vtiles_app d cs2 sh2 m e cs1 : forall sh1 s, vtiles d s cs1 sh1 m -> vtiles d m cs2 sh2 e -> vtiles d s (cs1 ++ cs2) (sh1 ++ sh2) e.
Proof. induction cs1 as [|c cs1 IH]; intros [|x sh1] s H K; cbn in *; try contradiction; [subst; auto|]. destruct H. split; auto. Qed.
Lemma sum_app l l' : sum (l ++ l') = sum l + sum l'.
Proof. unfold sum. induction l; cbn; lia. Qed.

Ltac conj := repeat match goal with |- _ /\ _ => split end.
Definition J (q padded rem : Z) : Prop := q * padded <= rem <= (q + 1) * padded.
Definition unpadded (d : slice_select) (cs : list view) : Prop := Forall (fun c => is_padded (align d c) = false) cs.
Lemma J_step q p rem : J q p rem -> p <> 0 -> 0 <= q -> 0 <= rem -> let s := Z.quot rem p in (s = q \/ s = q + 1) /\ J q (p - 1) (rem - s) /\ 0 <= s <= rem.
Proof.
  unfold J. intros H P Q R. cbv zeta. assert (0 < p) by nia. rewrite Z.quot_div_nonneg by lia.
  pose proof (Z.div_mod rem p ltac:(lia)) as D. pose proof (Z.mod_pos_bound rem p ltac:(lia)) as M. set (s := rem / p) in *. clearbody s. set (m := rem mod p) in *. clearbody m.
  assert (q <= s) by nia. assert (s <= q + 1) by nia. split; [lia|]. split; [|nia].
  assert (s = q \/ s = q + 1) as [-> | ->] by lia; nia.
Qed.
Lemma padded_count_cons d c cs : padded_count d (c :: cs) = (if is_padded (align d c) then 1 else 0) + padded_count d cs.
Proof. unfold padded_count. cbn [filter]. destruct (is_padded _); cbn [length]; lia. Qed.
Lemma padded_count_nonneg d cs : 0 <= padded_count d cs. Proof. unfold padded_count. lia. Qed.
Lemma padded_count_app d l l' : padded_count d (l ++ l') = padded_count d l + padded_count d l'.
Proof. unfold padded_count. rewrite filter_app, app_length. lia. Qed.
Lemma padded_count_rev d l : padded_count d (rev l) = padded_count d l.
Proof. induction l; cbn [rev]; auto. rewrite padded_count_app, padded_count_cons, IHl, padded_count_cons. change (padded_count d []) with 0. lia. Qed.
Lemma run_length_app d l l' : run_length d (l ++ l') = run_length d l + run_length d l'.
Proof. unfold run_length. induction l; cbn [fold_right app]; lia. Qed.
Lemma run_length_rev d l : run_length d (rev l) = run_length d l.
Proof. induction l as [|c l IH]; auto. cbn [rev]. rewrite run_length_app, IH. unfold run_length. cbn. lia. Qed.

Lemma quiet_list_fwd d c : quiet d c -> (if suppressed d c then [] else fwd d c) = [].
Proof. intros [-> | [E _]]; auto. rewrite E. destruct (suppressed d c); auto. Qed.
Lemma quiet_list_rev d c : quiet d c -> (if suppressed d c then [] else rev_g d c) = [].
Proof. intros [-> | [_ E]]; auto. rewrite E. destruct (suppressed d c); auto. Qed.

Lemma rest_key_align d c c' : rest d c = rest d c' -> align d c = align d c' /\ clen d c = clen d c' /\ v_space_before c = v_space_before c'.
Proof. intros E. apply rest_inv in E as (K&C&_). apply key_inv in K. tauto. Qed.

Lemma layout_reverse_quiet d q rcs : forall gs r p rem done others p' rem',
  Forall (quiet d) rcs -> 0 <= q -> 0 <= rem -> (J q p rem \/ unpadded d rcs) -> layout_reverse d rcs gs r p rem = Some (done, others, p', rem') ->
  exists pre sh, rcs = pre ++ others /\ Forall (fun c => to_reverse (align d c) = true) pre /\ match others with [] => True | c :: _ => to_reverse (align d c) = false end /\
    Forall2 (fun c c' => rest d c = rest d c') pre done /\ vtiles d (r - run_length d pre - sum sh) (rev done) sh r /\ Forall2 (vfair q d) (rev done) sh /\
    rem' = rem - sum sh /\ p' = p - padded_count d pre /\ (J q p' rem' \/ unpadded d others) /\ 0 <= rem' /\ (J q p rem -> J q p' rem').
Proof.
  induction rcs as [|c rcs IH]; intros gs r p rem done others p' rem' Q Hq Hr JU E; cbn [layout_reverse] in E.
  - injection E as <- <- <- <-. exists [], []. cbn. change (padded_count d []) with 0. conj; auto; try lia.
  - apply Forall_inv in Q as Q1. apply Forall_inv_tail in Q as Q2. destruct (to_reverse (align d c)) eqn:T; cbn [negb] in E.
    2: { injection E as <- <- <- <-. exists [], []. cbn. change (padded_count d []) with 0. conj; auto; try lia. }
    rewrite (quiet_list_rev d c Q1) in E. cbn [length skipn] in E.
    assert (JU' : J q p rem \/ unpadded d rcs). { destruct JU as [|U]; auto. right. apply Forall_inv_tail in U. exact U. }
    destruct (align d c) eqn:A; try discriminate.
    + (* reverse *)
      destruct (layout_reverse d rcs gs _ p rem) as [[[[done1 oth1] p1] r1]|] eqn:E1; try discriminate. injection E as <- <- <- <-.
      destruct (IH _ _ _ _ _ _ _ _ Q2 Hq Hr JU' E1) as (pre&sh&X1&X2&X3&X4&X5&X6&X7&X8&X9&X10&X11).
      exists (c :: pre), (sh ++ [0]). rewrite sum_app. cbn [sum fold_right]. split; [subst; reflexivity|]. split; [constructor; auto; rewrite A; reflexivity|]. split; auto.
      split; [constructor; auto; symmetry; apply rest_put|]. split; [|split; [|split; [lia|split; [|auto]]]].
      * cbn [rev]. eapply vtiles_app.
        -- replace (r - run_length d (c :: pre) - (sum sh + (0 + 0))) with (r - 0 - (clen d c + v_space_before c) - run_length d pre - sum sh) by (unfold run_length; cbn; lia). exact X5.
        -- cbn. unfold vin_block. destruct (rest_key_align _ _ _ (rest_put d (clen d c) (r - 0 - clen d c) c)) as (P1&P2&P3). rewrite P1, P2, P3, A, ppos_put, plen_put. split; [|lia]. repeat split; lia.
      * cbn [rev]. apply Forall2_app; auto. constructor; [|constructor]. unfold vfair. destruct (rest_key_align _ _ _ (rest_put d (clen d c) (r - 0 - clen d c) c)) as (P1&_). rewrite P1, A. reflexivity.
      * rewrite padded_count_cons, A. cbn [is_padded]. lia.
    + (* reverse fill *)
      destruct (p =? 0) eqn:P0; try discriminate. apply Z.eqb_neq in P0.
      assert (JJ : J q p rem). { destruct JU as [|U]; auto. exfalso. apply Forall_inv in U. rewrite A in U. discriminate. }
      destruct (J_step q p rem JJ P0 Hq Hr) as (S1&S2&S3). set (s := Z.quot rem p) in *. clearbody s.
      destruct (layout_reverse d rcs gs _ _ _) as [[[[done1 oth1] p1] r1]|] eqn:E1; try discriminate. injection E as <- <- <- <-.
      assert (Hrs : 0 <= rem - s) by lia.
      destruct (IH _ _ _ _ _ _ _ _ Q2 Hq Hrs (or_introl S2) E1) as (pre&sh&X1&X2&X3&X4&X5&X6&X7&X8&X9&X10&X11).
      exists (c :: pre), (sh ++ [s]). rewrite sum_app. cbn [sum fold_right]. split; [subst; reflexivity|]. split; [constructor; auto; rewrite A; reflexivity|]. split; auto.
      split; [constructor; auto; symmetry; apply rest_put|]. split; [|split; [|split; [lia|split; [|auto]]]].
      * cbn [rev]. eapply vtiles_app.
        -- replace (r - run_length d (c :: pre) - (sum sh + (s + 0))) with (r - 0 - (clen d c + s + v_space_before c) - run_length d pre - sum sh) by (unfold run_length; cbn; lia). exact X5.
        -- cbn. unfold vin_block. destruct (rest_key_align _ _ _ (rest_put d (clen d c + s) (r - 0 - (clen d c + s)) c)) as (P1&P2&P3). rewrite P1, P2, P3, A, ppos_put, plen_put. split; [|lia]. split; lia.
      * cbn [rev]. apply Forall2_app; auto. constructor; [|constructor]. unfold vfair. destruct (rest_key_align _ _ _ (rest_put d (clen d c + s) (r - 0 - (clen d c + s)) c)) as (P1&_). rewrite P1, A. exact S1.
      * rewrite padded_count_cons, A. cbn [is_padded]. lia.
Qed.

Lemma layout_forward_quiet rp d q zero avail cs : sensible_rounding rp -> forall gs len p rem placed,
  Forall (fun c => quiet d c /\ align d c <> align_default /\ 0 <= v_space_before c /\ 0 <= clen d c) cs -> 0 <= q -> 0 <= rem -> (J q p rem \/ unpadded d cs) ->
  zero <= len -> len + run_length d cs + rem <= zero + avail ->
  layout_forward rp d zero avail cs gs len p rem = Some placed ->
  exists sh, Forall (fun c => to_reverse (align d c) = false) cs /\ Forall2 (fun c c' => rest d c = rest d c') cs placed /\
    vtiles d len placed sh (len + run_length d cs + sum sh) /\ Forall2 (vfair q d) placed sh /\ 0 <= rem - sum sh /\ (J q p rem -> J q (p - padded_count d cs) (rem - sum sh)).
Proof.
  intros RP. induction cs as [|c cs IH]; intros gs len p rem placed F Hq Hr JU HZ HA E; cbn [layout_forward] in E.
  - injection E as <-. exists []. cbn. change (padded_count d []) with 0. conj; auto; try lia. intros. replace (p - 0) with p by lia. replace (rem - 0) with rem by lia. auto.
  - apply Forall_inv in F as F1. apply Forall_inv_tail in F as F2. destruct F1 as (Q1&Q3&Q4&Q5).
    assert (RL : run_length d (c :: cs) = v_space_before c + clen d c + run_length d cs) by reflexivity.
    assert (RN : 0 <= run_length d cs). { clear - F2. induction F2 as [|x l (?&?&?&?)]; cbn; [lia|]. unfold run_length in *. lia. }
    rewrite (quiet_list_fwd d c Q1) in E. cbn [length skipn] in E.
    assert (JU' : J q p rem \/ unpadded d cs). { destruct JU as [|U]; auto. right. apply Forall_inv_tail in U. exact U. }
    assert (PAD : is_padded (align d c) = true -> p <> 0 -> let s := Z.quot rem p in (s = q \/ s = q + 1) /\ J q (p - 1) (rem - s) /\ 0 <= s <= rem).
    { intros HP P0. apply J_step; auto. destruct JU as [|U]; auto. exfalso. apply Forall_inv in U. rewrite HP in U. discriminate. }
    assert (FIN : forall l x s p1, (is_padded (align d c) = false -> s = 0 /\ p1 = p) -> (is_padded (align d c) = true -> (s = q \/ s = q + 1) /\ p1 = p - 1 /\ J q p1 (rem - s)) -> 0 <= s <= rem ->
       to_reverse (align d c) = false -> vin_block d (put d l x c) (len + v_space_before c) s ->
       forall done, layout_forward rp d zero avail cs gs (len + v_space_before c + clen d c + s) p1 (rem - s) = Some done ->
       exists sh, Forall (fun c => to_reverse (align d c) = false) (c :: cs) /\ Forall2 (fun c c' => rest d c = rest d c') (c :: cs) (put d l x c :: done) /\
       vtiles d len (put d l x c :: done) sh (len + run_length d (c :: cs) + sum sh) /\ Forall2 (vfair q d) (put d l x c :: done) sh /\ 0 <= rem - sum sh /\ (J q p rem -> J q (p - padded_count d (c :: cs)) (rem - sum sh))).
    { intros l x s p1 HP0 HP1 Hs TR VB done ED.
      assert (JU1 : J q p1 (rem - s) \/ unpadded d cs). { destruct (is_padded (align d c)); [left; tauto|]. destruct (HP0 eq_refl) as [-> ->]. replace (rem - 0) with rem by lia. auto. }
      assert (Hrs : 0 <= rem - s) by lia. assert (HZ1 : zero <= len + v_space_before c + clen d c + s) by lia.
      assert (HA1 : len + v_space_before c + clen d c + s + run_length d cs + (rem - s) <= zero + avail) by (rewrite RL in HA; lia).
      destruct (IH _ _ _ _ _ F2 Hq Hrs JU1 HZ1 HA1 ED) as (sh&Y1&Y2&Y3&Y4&Y5&Y6).
      exists (s :: sh). cbn [sum fold_right]. destruct (rest_key_align _ _ _ (rest_put d l x c)) as (P1&P2&P3).
      split; [constructor; auto|]. split; [constructor; auto; symmetry; apply rest_put|]. split; [|split; [|split]].
      - cbn [vtiles]. rewrite P2, P3. split; auto. fold (sum sh). rewrite RL. replace (len + (v_space_before c + clen d c + run_length d cs) + (s + sum sh)) with (len + v_space_before c + clen d c + s + run_length d cs + sum sh) by lia. exact Y3.
      - constructor; auto. unfold vfair. rewrite P1. destruct (is_padded (align d c)); [apply HP1|apply HP0]; auto.
      - fold (sum sh). lia.
      - fold (sum sh). intros JJ. rewrite padded_count_cons. replace (rem - (s + sum sh)) with (rem - s - sum sh) by lia. destruct (is_padded (align d c)).
        + destruct (HP1 eq_refl) as (_&->&JX). replace (p - (1 + padded_count d cs)) with (p - 1 - padded_count d cs) by lia. auto.
        + destruct (HP0 eq_refl) as (->&->). replace (p - (0 + padded_count d cs)) with (p - padded_count d cs) by lia. apply Y6. replace (rem - 0) with rem by lia. exact JJ. }
    assert (VB : forall l x s, vin_block d (put d l x c) (len + v_space_before c) s <-> match align d c with
       | align_forward_fill | align_reverse_fill => x = len + v_space_before c /\ l = clen d c + s | align_forward | align_reverse => x = len + v_space_before c /\ l = clen d c /\ s = 0
       | align_center => x = len + v_space_before c + s / 2 /\ l = clen d c | align_proportional => len + v_space_before c <= x <= len + v_space_before c + s /\ l = clen d c | align_default => False end).
    { intros l x s. unfold vin_block. destruct (rest_key_align _ _ _ (rest_put d l x c)) as (P1&P2&P3). rewrite P1, P2, ppos_put, plen_put. reflexivity. }
    destruct (align d c) eqn:A; cbn [is_padded andb] in E; cbn [is_padded to_reverse] in FIN, PAD; try discriminate; try congruence.
    + (* forward *)
      destruct (layout_forward rp d zero avail cs gs _ p _) as [done|] eqn:E1; try discriminate. cbn [option_map] in E. injection E as <-.
      apply (FIN _ _ 0 p); auto; try (intros; discriminate); try lia.
      * apply VB. repeat split; lia.
      * replace (len + v_space_before c + clen d c + 0) with (len + v_space_before c + clen d c) by lia. exact E1.
    + (* center *)
      destruct (p =? 0) eqn:P0; try discriminate. apply Z.eqb_neq in P0. destruct (PAD eq_refl P0) as (S1&S2&S3). set (s := Z.quot rem p) in *. clearbody s.
      destruct (layout_forward rp d zero avail cs gs _ _ _) as [done|] eqn:E1; try discriminate. cbn [option_map] in E. injection E as <-.
      apply (FIN _ _ s (p - 1)); auto; try (intros; discriminate).
      * apply VB. split; auto. replace (clen d c + s - clen d c) with s by lia. rewrite Z.quot_div_nonneg by lia. reflexivity.
      * replace (len + v_space_before c + clen d c + s) with (len + v_space_before c + s + clen d c) by lia. exact E1.
    + (* proportional *)
      destruct (p =? 0) eqn:P0; try discriminate. apply Z.eqb_neq in P0. destruct (PAD eq_refl P0) as (S1&S2&S3). set (s := Z.quot rem p) in *. clearbody s.
      destruct (rp _ _ _) as [o|] eqn:RO; try discriminate. apply RP in RO; [|lia|lia].
      destruct (layout_forward rp d zero avail cs gs _ _ _) as [done|] eqn:E1; try discriminate. cbn [option_map] in E. injection E as <-.
      apply (FIN _ _ s (p - 1)); auto; try (intros; discriminate).
      * apply VB. split; auto. lia.
      * replace (len + v_space_before c + clen d c + s) with (len + v_space_before c + s + clen d c) by lia. exact E1.
    + (* forward fill *)
      destruct (p =? 0) eqn:P0; try discriminate. apply Z.eqb_neq in P0. destruct (PAD eq_refl P0) as (S1&S2&S3). set (s := Z.quot rem p) in *. clearbody s.
      destruct (layout_forward rp d zero avail cs gs _ _ _) as [done|] eqn:E1; try discriminate. cbn [option_map] in E. injection E as <-.
      apply (FIN _ _ s (p - 1)); auto; try (intros; discriminate).
      * apply VB. split; lia.
      * replace (len + v_space_before c + clen d c + s) with (len + v_space_before c + (clen d c + s)) by lia. exact E1.
    + destruct (p =? 0); discriminate.
Qed.

Lemma unpadded_count d cs : padded_count d cs = 0 -> unpadded d cs.
Proof. induction cs as [|c cs IH]; intros H; constructor; rewrite padded_count_cons in H; pose proof (padded_count_nonneg d cs); destruct (is_padded (align d c)); try lia; auto; apply IH; lia. Qed.
Lemma count_unpadded d cs : unpadded d cs -> padded_count d cs = 0.
Proof. induction 1 as [|c cs H U IH]; auto. rewrite padded_count_cons, H. lia. Qed.
Lemma exists_count d cs : Exists (fun c => is_padded (align d c) = true) cs -> 0 < padded_count d cs.
Proof. induction 1 as [c cs H|c cs H IH]; rewrite padded_count_cons; [rewrite H|]; pose proof (padded_count_nonneg d cs); destruct (is_padded (align d c)); lia. Qed.
Lemma rest_count d cs cs' : Forall2 (fun c c' => rest d c = rest d c') cs cs' -> padded_count d cs' = padded_count d cs /\ run_length d cs' = run_length d cs.
Proof. induction 1 as [|c c' cs cs' H F IH]; auto. destruct (rest_key_align _ _ _ H) as (A&B&C). rewrite !padded_count_cons. unfold run_length in *. cbn [fold_right]. rewrite A, B, C. destruct IH as [-> ->]. auto. Qed.
Lemma unpadded_sum d q cs sh : unpadded d cs -> Forall2 (vfair q d) cs sh -> sum sh = 0.
Proof. intros U F. induction F as [|c s cs sh H F IH]; auto. cbn. apply Forall_inv in U as U1. apply Forall_inv_tail in U. unfold vfair in H. rewrite U1 in H. fold (sum sh). rewrite IH; auto. lia. Qed.

Lemma Forall2_rev' {A B} (R : A -> B -> Prop) l l' : Forall2 R l l' -> Forall2 R (rev l) (rev l').
Proof. induction 1; cbn; auto. apply Forall2_app; auto. Qed.

Lemma layout_with_quiet rp d v cs placed : sensible_rounding rp ->
  Forall (fun c => quiet d c /\ align d c <> align_default /\ 0 <= v_space_before c /\ 0 <= clen d c) cs ->
  s_measured_length (slc d v) = near d v + far d v + run_length d cs -> s_measured_length (slc d v) <= plen d v ->
  layout_with rp d v cs = Some placed ->
  Forall2 (fun c c' => rest d c = rest d c') cs placed /\
  exists fs rs fsh rsh mid slack q, placed = fs ++ rs /\
    Forall (fun c => to_reverse (align d c) = false) fs /\ Forall (fun c => to_reverse (align d c) = true) rs /\
    vtiles d (near d v) fs fsh mid /\ vtiles d (mid + slack) rs rsh (plen d v - far d v) /\
    Forall2 (vfair q d) fs fsh /\ Forall2 (vfair q d) rs rsh /\ 0 <= q /\ 0 <= slack /\ sum fsh + sum rsh + slack = plen d v - s_measured_length (slc d v) /\
    (Exists (fun c => is_padded (align d c) = true) placed -> slack = 0).
Proof.
  intros RP F M L E. unfold layout_with in E. set (rem := plen d v - s_measured_length (slc d v)) in *. set (P := padded_count d cs) in *.
  set (q := rem / P). assert (P0 : 0 <= P) by apply padded_count_nonneg. assert (R0 : 0 <= rem) by lia.
  assert (Hq : 0 <= q). { subst q. assert (P = 0 \/ 0 < P) as [-> | ?] by lia; [rewrite Zdiv_0_r; lia|]. apply Z.div_pos; lia. }
  assert (HJ : J q P rem \/ P = 0). { assert (P = 0 \/ 0 < P) as [? | ?] by lia; auto. left. subst q. unfold J. pose proof (Z.div_mod rem P ltac:(lia)). pose proof (Z.mod_pos_bound rem P ltac:(lia)). set (x := rem / P) in *. clearbody x. nia. }
  clearbody q. assert (JU : J q P rem \/ unpadded d (rev cs)). { destruct HJ as [|H]; auto. right. apply unpadded_count. rewrite padded_count_rev. exact H. }
  destruct (layout_reverse d (rev cs) (rev_g d v) _ P rem) as [[[[done others] p'] rem']|] eqn:E1; try discriminate.
  assert (QR : Forall (quiet d) (rev cs)). { apply Forall_rev. eapply Forall_impl; [|exact F]. cbn; tauto. }
  destruct (layout_reverse_quiet d q (rev cs) _ _ _ _ _ _ _ _ QR Hq R0 JU E1) as (pre&sh&X1&X2&X3&X4&X5&X6&X7&X8&X9&X10&X11).
  assert (CS : cs = rev others ++ rev pre) by (rewrite <- rev_app_distr, <- X1, rev_involutive; reflexivity).
  destruct (layout_forward rp d _ _ (rev others) _ _ p' rem') as [pl|] eqn:E2; try discriminate. injection E as <-.
  assert (F' := F). rewrite CS in F'. apply Forall_app in F' as [Fo Fp].
  assert (JU2 : J q p' rem' \/ unpadded d (rev others)). { destruct X9; auto. right. apply Forall_rev. exact H. }
  assert (RLP : 0 <= run_length d (rev pre)). { clear - Fp. induction Fp as [|x l (?&?&?&?)]; cbn; [lia|]. unfold run_length in *. lia. }
  assert (RLE : run_length d cs = run_length d (rev others) + run_length d (rev pre)) by (rewrite CS at 1; apply run_length_app).
  assert (PCE : P = padded_count d (rev others) + padded_count d (rev pre)) by (subst P; rewrite CS at 1; apply padded_count_app).
  assert (SHN : 0 <= sum sh).
  { clear - X6 Hq. induction X6 as [|c s cs sh H X IH]; cbn; [lia|]. fold (sum sh). unfold vfair in H. destruct (is_padded _); lia. }
  assert (AV : near d v + run_length d (rev others) + rem' <= near d v + (plen d v - near d v - far d v)) by lia.
  destruct (layout_forward_quiet rp d q _ _ (rev others) RP _ _ _ _ _ Fo Hq X10 JU2 (Z.le_refl _) AV E2) as (fsh&Y1&Y2&Y3&Y4&Y5&Y6).
  assert (RS : Forall2 (fun c c' => rest d c = rest d c') (rev pre) (rev done)) by (apply Forall2_rev'; exact X4).
  split. { rewrite CS. apply Forall2_app; auto. }
  exists pl, (rev done), fsh, sh, (near d v + run_length d (rev others) + sum fsh), (rem' - sum fsh), q.
  split; auto. split; [|split; [|split; [|split; [|split; [|split; [|split; [|split; [|split]]]]]]]]; auto.
  - clear - Y1 Y2. induction Y2 as [|c c' cs cs' H Y IH]; constructor; apply Forall_inv in Y1 as Y3; apply Forall_inv_tail in Y1; auto. destruct (rest_key_align _ _ _ H) as (<-&_). exact Y3.
  - apply Forall_rev. clear - X2 X4. induction X4 as [|c c' cs cs' H Y IH]; constructor; apply Forall_inv in X2 as Y3; apply Forall_inv_tail in X2; auto. destruct (rest_key_align _ _ _ H) as (<-&_). exact Y3.
  - replace (near d v + run_length d (rev others) + sum fsh + (rem' - sum fsh)) with (plen d v - far d v - run_length d pre - sum sh) by (rewrite (run_length_rev d pre) in RLE; lia). exact X5.
  - lia.
  - intros EX. destruct (rest_count d (rev others) pl Y2) as [C1 _]. destruct (rest_count d (rev pre) (rev done) RS) as [C2 _].
    apply exists_count in EX. rewrite padded_count_app in EX. destruct HJ as [HJ | HJ]; [|lia]. specialize (Y6 (X11 HJ)). rewrite X8 in Y6. rewrite <- (padded_count_rev d pre) in Y6. unfold J in Y6. nia.
Qed.

(** ** Across *)
Definition vcross (d : slice_select) (c : view) (lo hi : Z) : Prop :=
  match align d c with
  | align_forward => ppos d c = lo + v_indent c /\ plen d c = clen d c
  | align_forward_fill => ppos d c = lo + v_indent c /\ ppos d c + plen d c = hi
  | align_reverse => ppos d c + plen d c = hi - v_indent c /\ plen d c = clen d c
  | align_reverse_fill => False
  | align_center | align_proportional => plen d c = clen d c /\ lo <= ppos d c /\ ppos d c + plen d c <= hi /\ Z.abs ((ppos d c - lo) - (hi - (ppos d c + plen d c))) <= 1
  | align_default => False
  end.
Lemma rest_indent d c c' : rest d c = rest d c' -> v_indent c = v_indent c'.
Proof. intros E. apply rest_inv in E as (K&_). apply key_inv in K as (C&_). apply core_inv in C. tauto. Qed.
Lemma layout_cross_child_quiet d v c c' : quiet d c -> align d c <> align_default -> align d c <> align_reverse_fill -> 0 <= near d v -> 0 <= clen d c -> 0 <= v_indent c ->
  near d v + far d v + clen d c + (if to_forward (align d c) || to_reverse (align d c) then v_indent c else 0) <= plen d v ->
  layout_cross_child d v c = Some c' -> rest d c = rest d c' /\ vcross d c' (near d v) (plen d v - far d v) /\ clen d c <= plen d c'.
Proof.
  intros Q A1 A2 N C I L E. unfold layout_cross_child in E. rewrite (quiet_list_fwd d c Q), (quiet_list_rev d c Q) in E. unfold near_of, far_of in E.
  unfold vcross. destruct (align d c) eqn:A; try congruence; cbn [to_forward to_reverse orb option_map] in *; injection E as <-;
    match goal with |- context [put d ?l ?x c] => pose proof (rest_put d l x c) as R; destruct (rest_key_align _ _ _ R) as (P1&P2&P3); pose proof (rest_indent _ _ _ R) as P4; rewrite P1, ?P2, ?P4, A, !plen_put, !ppos_put end;
    (split; [congruence|]).
  - split; lia.
  - split; lia.
  - rewrite Z.quot_div_nonneg by lia. set (X := plen d v - (far d v + 0) + (near d v + 0) - clen d c).
    pose proof (Z.div_mod X 2 ltac:(lia)) as D. pose proof (Z.mod_pos_bound X 2 ltac:(lia)). subst X. set (y := (plen d v - (far d v + 0) + (near d v + 0) - clen d c) / 2) in *. clearbody y. split; [|lia]. repeat split; lia.
  - rewrite Z.quot_div_nonneg by lia. set (X := plen d v - (far d v + 0) + (near d v + 0) - clen d c).
    pose proof (Z.div_mod X 2 ltac:(lia)) as D. pose proof (Z.mod_pos_bound X 2 ltac:(lia)). subst X. set (y := (plen d v - (far d v + 0) + (near d v + 0) - clen d c) / 2) in *. clearbody y. split; [|lia]. repeat split; lia.
  - split; lia.
Qed.
Lemma all_some_Forall2 {A B} (f : A -> option B) l l' : all_some (map f l) = Some l' -> Forall2 (fun a b => f a = Some b) l l'.
Proof. revert l'. induction l as [|a l IH]; intros l' E; cbn in E; [injection E as <-; constructor|]. destruct (f a) eqn:Fa; try discriminate. destruct (all_some (map f l)); try discriminate. cbn in E. injection E as <-. constructor; auto. Qed.
