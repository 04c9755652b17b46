(** When the engine does not throw; containment. *)
From Verif Require Import Prelude Eve_Model Eve_Spec Eve_Base Eve_Adjust Eve_Solve Eve_Layout Eve_Place Eve_Run Eve_Total Eve_Whole Eve_Session.
From Coq Require Import List ZArith Lia Bool.
Import ListNotations.
Open Scope Z_scope.
Ltac Zify.zify_post_hook ::= idtac.

Definition line_ok (d : slice_select) (v : view) (ts : list (tree view)) : Prop := right_last d v ts /\ no_proportional d v ts.

Lemma root_alignments d v t : root (alignments d (s_child_alignment (slc d v)) t) = alignment_in d v (root t).
Proof. destruct t. reflexivity. Qed.
Lemma line_ok_alignments d t : forall t' a, alike (fun v => (v_placement v, s_child_alignment (slc d v))) t t' -> alignments d a t = alignments d a t' -> every (line_ok d) t -> every (line_ok d) t'.
Proof.
  induction t as [v ts IH] using tree_ind'. intros [v' ts'] a P A E. apply alike_node in P as [P PF]. apply pair_equal_spec in P as [P CA]. cbn [alignments] in A. apply Node_inj in A as [_ A]. apply every_node in E as [[E1 E2] E3]. apply every_node.
  assert (F : Forall2 (fun t t' => alignment_in d v' (root t') = alignment_in d v (root t)) ts ts').
  { clear - A. revert ts' A. induction ts as [|t ts IH]; intros [|t' ts'] A; try discriminate; constructor; cbn [map] in A; apply cons_inj in A as [A1 A2]; auto. rewrite <- !root_alignments. congruence. }
  split.
  - unfold line_ok, right_last, no_proportional, is_leaf in *. rewrite <- P. split; intros LF W.
    + destruct (E1 LF W) as (fs&rs&->&Ff&Fr). apply Forall2_app_inv_l in F as (fs'&rs'&Af&Ar&->). exists fs', rs'. split; auto. split.
      * clear - Af Ff. induction Af as [|x y l l' H F IHF]; constructor; apply Forall_inv in Ff as H1; apply Forall_inv_tail in Ff; auto. congruence.
      * clear - Ar Fr. induction Ar as [|x y l l' H F IHF]; constructor; apply Forall_inv in Fr as H1; apply Forall_inv_tail in Fr; auto. congruence.
    + specialize (E2 LF W). clear - F E2. induction F as [|x y l l' H F IHF]; constructor; apply Forall_inv in E2 as H1; apply Forall_inv_tail in E2; auto. congruence.
  - rewrite <- CA in A. clear - IH PF A E3. revert IH A E3. induction PF as [|t t' ts ts' P PF IHF]; intros IH A E3; constructor; cbn [map] in A; apply cons_inj in A as [A1 A2].
    + apply Forall_inv in IH, E3. eapply IH; eauto.
    + apply Forall_inv_tail in IH, E3. auto.
Qed.

Lemma layout_reverse_some' d rcs : Forall (quiet d) rcs -> forall gs r p rem, p = padded_count d rcs ->
  exists done others p' rem', layout_reverse d rcs gs r p rem = Some (done, others, p', rem') /\ p' = padded_count d others.
Proof.
  induction 1 as [|c rcs Q F IH]; intros gs r p rem Hp; cbn [layout_reverse]; [exists [], [], p, rem; auto|].
  destruct (to_reverse (align d c)) eqn:RV; cbn [negb]; [|exists [], (c :: rcs), p, rem; auto].
  rewrite (quiet_list_rev d c Q). cbn [length skipn]. rewrite padded_count_cons in Hp. pose proof (padded_count_nonneg d rcs).
  destruct (align d c) eqn:AL; try discriminate; cbn [is_padded] in Hp.
  - destruct (IH gs (r - 0 - (clen d c + v_space_before c)) p rem ltac:(lia)) as (dn&ot&p'&r'&->&H1). exists (put d (clen d c) (r - 0 - clen d c) c :: dn), ot, p', r'. auto.
  - destruct (Z.eqb_spec p 0); [lia|]. set (a := Z.quot rem p).
    destruct (IH gs (r - 0 - (clen d c + a + v_space_before c)) (p - 1) (rem - a) ltac:(lia)) as (dn&ot&p'&r'&->&H1).
    exists (put d (clen d c + a) (r - 0 - (clen d c + a)) c :: dn), ot, p', r'. auto.
Qed.
Lemma layout_forward_some' rp d zero avail cs : Forall (fun c => quiet d c /\ to_reverse (align d c) = false /\ align d c <> align_proportional) cs -> forall gs len p rem, p = padded_count d cs ->
  exists placed, layout_forward rp d zero avail cs gs len p rem = Some placed.
Proof.
  induction 1 as [|c cs (Q&NR&PR) F IH]; intros gs len p rem Hp; cbn [layout_forward]; [eauto|].
  rewrite (quiet_list_fwd d c Q). cbn [length skipn]. rewrite padded_count_cons in Hp. pose proof (padded_count_nonneg d cs).
  destruct (align d c) eqn:AL; try discriminate; try congruence; cbn [is_padded andb] in *.
  - destruct (IH gs (len + v_space_before c + clen d c) p (rem - 0) ltac:(lia)) as (pl&->). cbn; eauto.
  - destruct (Z.eqb_spec p 0); [lia|]. set (a := Z.quot rem p) in *. destruct (IH gs (len + v_space_before c + a + clen d c) (p - 1) (rem - a) ltac:(lia)) as (pl&->). cbn; eauto.
  - destruct (Z.eqb_spec p 0); [lia|]. set (a := Z.quot rem p) in *. destruct (IH gs (len + v_space_before c + (clen d c + a)) (p - 1) (rem - a) ltac:(lia)) as (pl&->). cbn; eauto.
  - destruct (IH gs (len + v_space_before c + clen d c) p (rem - 0) ltac:(lia)) as (pl&->). cbn; eauto.
Qed.
Lemma layout_here_some' rp d r ts v : ready_here d r ts -> line_ok d r ts -> rest d v = rest d r -> exists vs, layout rp d v (map root ts) = Some vs.
Proof.
  intros R1 [OD NP] RE. apply rest_inv in RE as (K&CL&ML&FG&RG). pose proof (key_inv _ _ _ K) as (C&_&_&_). destruct (core_inv _ _ _ C) as (P&_&_&SP&_&CA&_).
  unfold layout. unfold ready_here in R1. rewrite (is_leaf_core _ _ _ C), P. destruct (is_leaf r) eqn:LF; [eauto|]. destruct R1 as (Q&_&_&_). destruct (is_with (v_placement r) d) eqn:W.
  - destruct (OD LF W) as (fs&rs&E&Of&Or). specialize (NP LF W). unfold layout_with.
    assert (QR : Forall (quiet d) (rev (map root ts))). { apply Forall_rev. rewrite Forall_map. eapply Forall_impl; [|exact Q]. cbn. tauto. }
    destruct (layout_reverse_some' d (rev (map root ts)) QR (rev_g d v) (plen d v - far d v) (padded_count d (map root ts)) (plen d v - s_measured_length (slc d v))) as (dn&ot&p'&r'&ER&HP); [symmetry; apply padded_count_rev|].
    rewrite ER. assert (OT : ot = rev (map root fs)).
    { eapply (reverse_takes _ _ _ _ _ _ _ _ _ _ ER (rev (map root rs)) (rev (map root fs))).
      - rewrite E, map_app, rev_app_distr. reflexivity.
      - apply Forall_rev. rewrite Forall_map. rewrite E in Q. apply Forall_app in Q as [_ Q]. clear - Q Or. rewrite Forall_forall in *. intros t Ht. destruct (Q t Ht) as (_&->&_). auto.
      - apply Forall_rev. rewrite Forall_map. rewrite E in Q. apply Forall_app in Q as [Q _]. clear - Q Of. rewrite Forall_forall in *. intros t Ht. destruct (Q t Ht) as (_&->&_). auto. }
    rewrite OT, rev_involutive.
    destruct (layout_forward_some' rp d (near d v) (plen d v - near d v - far d v) (map root fs)) with (gs := fwd d v) (len := near d v) (p := p') (rem := r') as (pl&->); eauto.
    + rewrite Forall_map. assert (I : forall t, In t fs -> In t ts) by (intros t Ht; rewrite E; apply in_or_app; auto). rewrite Forall_forall in *. intros t Ht. specialize (Q t (I t Ht)). specialize (NP t (I t Ht)). specialize (Of t Ht).
      destruct Q as (Q1&Q2&Q3). rewrite Q2. auto.
    + rewrite HP, OT. apply padded_count_rev.
  - unfold layout_cross. clear - Q. induction ts as [|t ts IH]; cbn; eauto. pose proof (Forall_inv Q) as (Q1&_). pose proof (Forall_inv_tail Q) as Q'. destruct (IH Q') as (vs&->).
    assert (S : exists c', layout_cross_child d v (root t) = Some c').
    { unfold layout_cross_child. rewrite (quiet_list_fwd d (root t) Q1), (quiet_list_rev d (root t) Q1). destruct (align d (root t)); cbn; eauto. }
    destruct S as (c'&->). cbn. eauto.
Qed.
Lemma layout_total' rp d t : ready d t -> every (line_ok d) t -> forall v, rest d v = rest d (root t) -> exists t', preorder_from (layout rp d) t v = Some t'.
Proof.
  induction t as [r ts IH] using tree_ind'. intros R O v RE. apply every_node in R as [R1 R2]. apply every_node in O as [O1 O2]. cbn [root] in RE.
  destruct (layout_here_some' rp d r ts v R1 O1 RE) as (vs&EL). pose proof (layout_rest rp d v (map root ts) vs EL) as K1. cbn [preorder_from]. rewrite EL.
  match goal with |- exists _, option_map _ ?g = _ => enough (X : exists us, g = Some us) by (destruct X as (us&->); cbn; eauto) end.
  clear - IH K1 R2 O2. revert vs K1. induction ts as [|t ts IHF]; intros vs K1; inversion K1 as [|? c ? vs' A F]; subst; [eauto|].
  apply Forall_inv in IH as IH1. apply Forall_inv_tail in IH. apply Forall_inv in R2 as R1, O2 as O1. apply Forall_inv_tail in R2, O2.
  destruct (IH1 R1 O1 c (eq_sym A)) as (u&->). destruct (IHF IH R2 O2 vs' F) as (us&->). eauto.
Qed.
Theorem run_succeeds rp o d n w t : fit d t -> every (line_ok d) t -> exists t' ok, run_slice rp o d n w t = Some (t', ok) /\ ok = true /\ alike (core d) t' t /\ forall a, alignments d a t' = alignments d a t.
Proof.
  intros (PL&LE&SA) OD. destruct (adjust_pass d t PL) as (R1&A1&K1&Q1).
  assert (L1 := lens_adjusted _ _ _ A1 LE). destruct (solve_plain d n _ R1 L1) as (OK&K2&R2&S2&P2&RL2).
  assert (AL : forall a, alignments d a (fst (solve d n (postorder (adjust d) t))) = alignments d a t).
  { intros a. rewrite (alignments_keys d _ _ a K2). symmetry. apply alignments_adjusted; auto. apply key_inv in K1 as (_&_&->&_). reflexivity. }
  assert (CO : alike (core d) (fst (solve d n (postorder (adjust d) t))) t).
  { eapply alike_trans; [|apply alike_sym, adjusted_core; exact A1]. apply (alike_impl (key d)); [intros x y Hx; apply key_inv in Hx; tauto | exact K2]. }
  assert (OK2 : every (line_ok d) (fst (solve d n (postorder (adjust d) t)))).
  { eapply (line_ok_alignments d t _ align_default); [| |exact OD].
    - apply alike_sym. revert CO. apply alike_impl. intros v w' C. apply core_inv in C as (C1&_&_&_&_&C2&_). congruence.
    - symmetry. apply AL. }
  unfold run_slice. set (r := solve d n (postorder (adjust d) t)) in *. clearbody r. destruct r as [t2 pr]. cbn [fst snd] in *. subst pr. unfold layout_pass.
  destruct (layout_total' rp d t2 R2 OK2 (upd d (upd_place (place_length (if w =? 0 then clen d (root t2) else w))) (root t2)) (rest_upd _ _ _)) as (t3&E3). rewrite E3.
  eexists. eexists. split; [reflexivity|]. split; [reflexivity|]. apply layout_pass_rest in E3; [|apply rest_upd].
  assert (AR : alike (rest d) (flatten o d (postorder (adjust_outsets d) t3)) t2).
  { eapply alike_trans; [apply flatten_rest|]. eapply alike_trans; [|exact E3]. apply (alike_impl (spot d)); [intros v w' H; apply spot_inv in H; tauto | apply outsets_spot]. }
  assert (KR : same_keys d (flatten o d (postorder (adjust_outsets d) t3)) t2) by (revert AR; apply alike_impl; intros v w' H; apply rest_inv in H; tauto). split.
  - eapply alike_trans; [|exact CO]. revert KR. apply alike_impl. intros v w' H. apply key_inv in H. tauto.
  - intros a. rewrite (alignments_keys d _ _ a KR). apply AL.
Qed.
Lemma line_ok_half d t t' : alike (half d) t t' -> every (line_ok d) t -> every (line_ok d) t'.
Proof.
  intros H. apply (line_ok_alignments d t t' align_default); [|apply alignments_half; auto]. revert H. apply alike_impl. intros v w K. apply half_inv in K as (_&_&P&_&_&_&S). rewrite P, S. reflexivity.
Qed.
Theorem adjust_succeeds rp o n w h t : fit horizontal t -> every good_vertical t -> every (line_ok horizontal) t -> every (line_ok vertical) t -> exists t', adjust_layout rp o n w h t = Some (t', true).
Proof.
  intros FH GV LH LV. unfold adjust_layout. destruct (run_succeeds rp o horizontal n w t FH LH) as (t1&ok&->&->&C1&A1).
  assert (HV : alike (half vertical) t t1) by (apply alike_sym, (alike_impl (core horizontal)); [apply (core_half horizontal) | exact C1]).
  assert (GV1 := good_vertical_half _ _ HV GV). assert (LV1 := line_ok_half vertical _ _ HV LV).
  assert (LV2 : every (line_ok vertical) (map_tree calculate_vertical t1)).
  { assert (CV : forall v, align vertical (calculate_vertical v) = align vertical v /\ s_child_alignment (slc vertical (calculate_vertical v)) = s_child_alignment (slc vertical v) /\ v_placement (calculate_vertical v) = v_placement v) by (intros v; unfold calculate_vertical; destruct (measure_vertical _); auto).
    apply (line_ok_alignments vertical t1 _ align_default); auto.
    - apply alike_sym, map_tree_alike. intros v. destruct (CV v) as (_&->&->). reflexivity.
    - apply alignments_alike, alike_sym, map_tree_alike. intros v. destruct (CV v) as (->&->&_). reflexivity. }
  destruct (run_succeeds rp o vertical n h _ (fit_calculate_vertical _ GV1) LV2) as (t2&ok&->&->&_). exists t2. reflexivity.
Qed.
Theorem evaluate_succeeds rp o w h t : every good_form t -> every (line_ok horizontal) (visible_part t) -> every (line_ok vertical) (visible_part t) -> exists t', evaluate rp o w h t = Some (t', true).
Proof.
  intros G LH LV. unfold evaluate, evaluate_visible. apply good_visible in G.
  assert (CL : forall d, every (line_ok d) (visible_part t) -> every (line_ok d) (map_tree calculate (visible_part t))).
  { intros d. apply (line_ok_alignments d _ _ align_default); [apply alike_sym, map_tree_alike; destruct d; reflexivity | symmetry; apply calculate_alignments]. }
  destruct (adjust_succeeds rp o (tree_size t) w h _ (fit_calculate _ G) (good_vertical_calculate _ G) (CL _ LH) (CL _ LV)) as (n&->). cbn. eauto.
Qed.
Theorem resize_succeeds rp o w h t : fit horizontal (visible_part t) -> every good_vertical (visible_part t) -> every (line_ok horizontal) (visible_part t) -> every (line_ok vertical) (visible_part t) ->
  exists t', resize rp o w h t = Some (t', true).
Proof. intros F G LH LV. unfold resize. destruct (adjust_succeeds rp o (tree_size t) w h _ F G LH LV) as (n&->). cbn. eauto. Qed.

(** ** Laid out implies contained and in order *)
Lemma in_order_tiles d v q ts : forall sp lo sh stop hi, tiles d v sp lo ts sh stop -> Forall2 (fair q d v) ts sh -> 0 <= q -> stop <= hi -> in_order d sp (last_gap v) lo hi ts.
Proof.
  induction ts as [|t ts IH]; intros sp lo [|s sh] stop hi T F Q S; cbn in *; try contradiction; [lia|]. destruct T as [B T]. inversion F as [|? ? ? ? F1 F2]; subst.
  unfold in_block in B. unfold fair in F1. set (b := lo + gap sp (last_gap v)) in *.
  assert (X : b <= ppos d (root t) /\ natural d t <= plen d (root t) /\ ppos d (root t) + plen d (root t) <= b + natural d t + s).
  { destruct (alignment_in d v (root t)); cbn [is_padded] in F1; try lia; try contradiction. }
  destruct X as (X1&X2&X3). split; [lia|]. split; [lia|]. specialize (IH _ _ _ _ hi T F2 Q S). clear - X3 IH.
  assert (M : forall ts sp a b, a <= b -> in_order d sp (last_gap v) b hi ts -> in_order d sp (last_gap v) a hi ts).
  { clear. intros [|t ts] sp a b AB H; cbn in *; [lia|]. destruct H as (H1&H2). split; auto. lia. }
  eapply M; [|exact IH]. lia.
Qed.
Lemma in_order_app d fin fs rs : forall sp lo mid hi, in_order d sp fin lo mid fs -> in_order d (drop (length fs) sp) fin mid hi rs -> in_order d sp fin lo hi (fs ++ rs).
Proof.
  induction fs as [|t fs IH]; intros sp lo mid hi A B; cbn [in_order length drop app] in *.
  - destruct rs as [|t rs]; cbn in *; [lia|]. destruct B as (B1&B2). split; auto. lia.
  - destruct A as (A1&A2&A3). split; auto. split; auto. eapply IH; eauto.
Qed.
Lemma laid_contained o d v ts : formed d v ts -> Forall (fun t => 0 <= v_indent (root t)) ts -> (is_leaf v = false -> content_of d v ts <= plen d v) -> laid_out o d v ts -> contained o d v ts.
Proof.
  intros FO FI CT. unfold laid_out, contained. destruct (is_leaf v) eqn:LF; auto. specialize (CT eq_refl). destruct (is_with (v_placement v) d) eqn:W.
  - intros (fs&rs&fsh&rsh&mid&slack&q&->&H1&H2&H3&H4&H5&H6&H7&H8&H9&H10). apply (in_order_app d (last_gap v) fs rs) with (mid := mid).
    + eapply in_order_tiles; eauto. lia.
    + assert (IO := in_order_tiles d v q rs _ _ _ _ (origin o d v + plen d v - far d v) H4 H6 H7 ltac:(lia)). clear - IO H8.
      destruct rs as [|t rs]; cbn in *; [lia|]. destruct IO as (I1&I2). split; auto. lia.
  - destruct FO as (_&_&_&_&_&NR). specialize (NR LF W). intros H.
    assert (B : Forall (fun t => near d v + far d v + natural d t + indent_in d v (root t) <= content_of d v ts) ts).
    { unfold content_of, content. rewrite W. clear. set (a := near d v + far d v). clearbody a. induction ts as [|t ts IH]; constructor; cbn; [lia|].
      eapply Forall_impl; [|exact IH]. cbn. intros. lia. }
    clear W. rewrite Forall_forall in *. intros t Ht. specialize (H t Ht). specialize (B t Ht). specialize (NR t Ht). specialize (FI t Ht). unfold cross_laid in H. unfold indent_in in B.
    destruct (alignment_in d v (root t)); cbn in B; try lia; try contradiction; congruence.
Qed.
(** rounding without doubles *)
Lemma exact_sensible : sensible_rounding exact_rounding.
Proof.
  intros num den a o [H1 H2] H3. unfold exact_rounding. destruct (Z.eqb_spec den 0); try discriminate. intros E. apply (f_equal (fun x => match x with Some y => y | None => o end)) in E. subst o. assert (0 < den) by lia. assert (0 <= num * a) by nia. assert (num * a <= den * a) by nia. split.
  - apply Z.div_pos; lia.
  - apply Z.lt_succ_r. apply Z.div_lt_upper_bound; lia.
Qed.
Lemma exact_defined : defined_rounding exact_rounding.
Proof. intros num den a _ H _. unfold exact_rounding. destruct (Z.eqb_spec den 0); [lia|]. eauto. Qed.
