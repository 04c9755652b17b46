(** The layout pass succeeds. *)
From Verif Require Import Prelude Eve_Model Eve_Spec Eve_Base Eve_Adjust Eve_Solve Eve_Layout Eve_Place Eve_Run.
From Coq Require Import List ZArith Lia Bool.
Import ListNotations.
Open Scope Z_scope.
Ltac Zify.zify_post_hook ::= idtac.

Lemma quot_between a b : 0 <= a -> 0 < b -> 0 <= Z.quot a b <= a.
Proof. intros. rewrite Z.quot_div_nonneg by lia. split; [apply Z.div_pos; lia|]. apply Z.div_le_upper_bound; nia. Qed.

Lemma layout_reverse_some d rcs : Forall (quiet d) rcs -> forall gs r p rem, p = padded_count d rcs -> 0 <= rem ->
  exists done others p' rem', layout_reverse d rcs gs r p rem = Some (done, others, p', rem') /\ p' = padded_count d others /\ 0 <= rem' <= rem.
Proof.
  induction 1 as [|c rcs Q F IH]; intros gs r p rem Hp Hr; cbn [layout_reverse]; [exists [], [], p, rem; split; auto; split; auto; lia|].
  destruct (to_reverse (align d c)) eqn:RV; cbn [negb]; [|exists [], (c :: rcs), p, rem; split; auto; split; auto; lia].
  rewrite (quiet_list_rev d c Q). cbn [length skipn]. rewrite padded_count_cons in Hp. pose proof (padded_count_nonneg d rcs).
  destruct (align d c) eqn:AL; try discriminate; cbn [is_padded] in Hp.
  - destruct (IH gs (r - 0 - (clen d c + v_space_before c)) p rem ltac:(lia) Hr) as (dn&ot&p'&r'&->&H1&H2). exists (put d (clen d c) (r - 0 - clen d c) c :: dn), ot, p', r'. auto.
  - destruct (Z.eqb_spec p 0); [lia|]. set (a := Z.quot rem p). assert (B : 0 <= a <= rem) by (subst a; apply quot_between; lia).
    destruct (IH gs (r - 0 - (clen d c + a + v_space_before c)) (p - 1) (rem - a) ltac:(lia) ltac:(lia)) as (dn&ot&p'&r'&->&H1&H2).
    exists (put d (clen d c + a) (r - 0 - (clen d c + a)) c :: dn), ot, p', r'. split; auto. split; auto. lia.
Qed.

Lemma layout_forward_some rp d zero avail extra cs : defined_rounding rp ->
  Forall (fun c => quiet d c /\ to_reverse (align d c) = false /\ 0 <= v_space_before c /\ 0 <= clen d c /\ (align d c = align_proportional -> clen d c + extra < avail)) cs ->
  forall gs len p rem, p = padded_count d cs -> 0 <= rem <= extra -> zero <= len -> len + run_length d cs + rem <= zero + avail ->
  (forall num den a o, 0 <= num <= den -> 0 <= a -> rp num den a = Some o -> 0 <= o <= a) ->
  exists placed, layout_forward rp d zero avail cs gs len p rem = Some placed.
Proof.
  intros DR. induction 1 as [|c cs (Q&NR&SB&CL&PR) F IH]; intros gs len p rem Hp Hr Hz Hb SR; cbn [layout_forward]; [eauto|].
  rewrite (quiet_list_fwd d c Q). cbn [length skipn]. rewrite padded_count_cons in Hp. pose proof (padded_count_nonneg d cs).
  assert (RL : 0 <= run_length d cs). { clear - F. unfold run_length. induction F as [|x l (_&_&H1&H2&_) F IH]; cbn; lia. }
  change (run_length d (c :: cs)) with (v_space_before c + clen d c + run_length d cs) in Hb.
  destruct (align d c) eqn:AL; try discriminate; cbn [is_padded andb] in *.
  - destruct (IH gs (len + v_space_before c + clen d c) p (rem - 0) ltac:(lia) ltac:(lia) ltac:(lia) ltac:(lia) SR) as (pl&->). cbn; eauto.
  - destruct (Z.eqb_spec p 0); [lia|]. assert (B : 0 <= Z.quot rem p <= rem) by (apply quot_between; lia). set (a := Z.quot rem p) in *.
    destruct (IH gs (len + v_space_before c + a + clen d c) (p - 1) (rem - a) ltac:(lia) ltac:(lia) ltac:(lia) ltac:(lia) SR) as (pl&->). cbn; eauto.
  - destruct (Z.eqb_spec p 0); [lia|]. assert (B : 0 <= Z.quot rem p <= rem) by (apply quot_between; lia). set (a := Z.quot rem p) in *. specialize (PR eq_refl).
    destruct (DR (len + v_space_before c - zero) (avail - (clen d c + a)) a ltac:(lia) ltac:(lia) ltac:(lia)) as (o&->).
    destruct (IH gs (len + v_space_before c + a + clen d c) (p - 1) (rem - a) ltac:(lia) ltac:(lia) ltac:(lia) ltac:(lia) SR) as (pl&->). cbn; eauto.
  - destruct (Z.eqb_spec p 0); [lia|]. assert (B : 0 <= Z.quot rem p <= rem) by (apply quot_between; lia). set (a := Z.quot rem p) in *.
    destruct (IH gs (len + v_space_before c + (clen d c + a)) (p - 1) (rem - a) ltac:(lia) ltac:(lia) ltac:(lia) ltac:(lia) SR) as (pl&->). cbn; eauto.
  - destruct (IH gs (len + v_space_before c + clen d c) p (rem - 0) ltac:(lia) ltac:(lia) ltac:(lia) ltac:(lia) SR) as (pl&->). cbn; eauto.
Qed.

(** the right aligned ones are taken off, and no more *)
Lemma reverse_takes d rcs : forall gs r p rem done others p' rem', layout_reverse d rcs gs r p rem = Some (done, others, p', rem') ->
  forall rs fs, rcs = rs ++ fs -> Forall (fun c => to_reverse (align d c) = true) rs -> Forall (fun c => to_reverse (align d c) = false) fs -> others = fs.
Proof.
  induction rcs as [|c rcs IH]; intros gs r p rem done others p' rem' E rs fs EQ R F; cbn [layout_reverse] in E.
  - destruct rs; try discriminate. destruct fs; try discriminate. injection E as <- <- _ _. reflexivity.
  - destruct rs as [|c' rs]; cbn in EQ.
    + subst fs. apply Forall_inv in F. rewrite F in E. cbn in E. injection E as <- <- _ _. reflexivity.
    + apply cons_inj in EQ as [<- EQ]. apply Forall_inv in R as R1. apply Forall_inv_tail in R. rewrite R1 in E. cbn [negb] in E.
      destruct (match (if suppressed d c then [] else rev_g d c) with [] => _ | _ :: _ => _ end) as [o|]; try discriminate.
      destruct (align d c); try discriminate.
      * match type of E with context [layout_reverse d rcs ?a ?b ?x ?y] => destruct (layout_reverse d rcs a b x y) as [[[[dn ot] p1] r1]|] eqn:E1; try discriminate end. injection E as <- <- _ _. eapply IH; eauto.
      * destruct (p =? 0); try discriminate. match type of E with context [layout_reverse d rcs ?a ?b ?x ?y] => destruct (layout_reverse d rcs a b x y) as [[[[dn ot] p1] r1]|] eqn:E1; try discriminate end. injection E as <- <- _ _. eapply IH; eauto.
Qed.

Lemma layout_here_some rp d r ts v : sensible_rounding rp -> defined_rounding rp -> ready_here d r ts -> solved_here d r ts -> Forall (solved d) ts -> sane_here d r ts -> Forall (every (sane_here d)) ts ->
  orderly d r ts -> rest d v = rest d r -> natural d (Node r ts) <= plen d v -> exists vs, layout rp d v (map root ts) = Some vs.
Proof.
  intros RP DR R1 S1 S2 N1 N2 OD RE PL.
  apply rest_inv in RE as (K&CL&ML&FG&RG). pose proof (key_inv _ _ _ K) as (C&_&_&_). destruct (core_inv _ _ _ C) as (P&_&_&SP&_&CA&_).
  assert (NF : near d v = near d r /\ far d v = far d r) by (split; [apply near_core | apply far_core]; auto). destruct NF as [NE FA].
  unfold layout. unfold ready_here in R1. rewrite (is_leaf_core _ _ _ C), P. destruct (is_leaf r) eqn:LF; [eauto|].
  destruct R1 as (Q&F0&R0&G). destruct S1 as [S1a S1b]. specialize (S1b LF). rewrite natural_node, LF in *. destruct (is_with (v_placement r) d) eqn:W.
  - specialize (G eq_refl). destruct (OD LF W) as ((fs&rs&E&Of&Or)&PR). destruct N1 as [(M1&M2&M3&M4&M5&M6&M7) NR].
    assert (CN : Forall (fun t => clen d (root t) = natural d t /\ 0 <= clen d (root t)) ts).
    { rewrite Forall_forall in *. intros t Ht. rewrite (solved_clen d t (S2 t Ht)). split; auto. apply natural_nonneg; auto. }
    assert (SB : Forall (fun t => 0 <= v_space_before (root t)) ts).
    { apply Forall_map with (f := fun t => v_space_before (root t)) (P := fun x => 0 <= x). rewrite G. apply gaps_nonneg; auto. apply last_nonneg; auto. }
    assert (CT : content_of d r ts = near d r + far d r + run_length d (map root ts)).
    { unfold content_of, content. rewrite W. rewrite (run_length_content d r ts); auto. { rewrite map_map. reflexivity. } eapply Forall_impl; [|exact CN]. cbn. tauto. }
    unfold layout_with. set (ex := plen d v - s_measured_length (slc d v)). assert (EX : 0 <= ex) by (subst ex; rewrite ML; lia).
    assert (QR : Forall (quiet d) (rev (map root ts))). { apply Forall_rev. rewrite Forall_map. eapply Forall_impl; [|exact Q]. cbn. tauto. }
    destruct (layout_reverse_some d (rev (map root ts)) QR (rev_g d v) (plen d v - far d v) (padded_count d (map root ts)) ex) as (dn&ot&p'&r'&ER&HP&HR); [symmetry; apply padded_count_rev | exact EX |].
    rewrite ER. assert (OT : ot = rev (map root fs)).
    { eapply (reverse_takes _ _ _ _ _ _ _ _ _ _ ER (rev (map root rs)) (rev (map root fs))).
      - rewrite E, map_app, rev_app_distr. reflexivity.
      - apply Forall_rev. rewrite Forall_map. rewrite E in Q. apply Forall_app in Q as [_ Q]. clear - Q Or. rewrite Forall_forall in *. intros t Ht. destruct (Q t Ht) as (_&->&_). auto.
      - apply Forall_rev. rewrite Forall_map. rewrite E in Q. apply Forall_app in Q as [Q _]. clear - Q Of. rewrite Forall_forall in *. intros t Ht. destruct (Q t Ht) as (_&->&_). auto. }
    rewrite OT, rev_involutive. set (zero := near d v). set (avail := plen d v - zero - far d v).
    assert (AV : avail = run_length d (map root ts) + ex). { subst avail ex zero. rewrite ML, S1b, CT, NE, FA. lia. }
    assert (RT : run_length d (map root ts) = run_length d (map root fs) + run_length d (map root rs)). { rewrite E, map_app. apply run_length_app. }
    assert (RRS : 0 <= run_length d (map root rs)).
    { rewrite E in CN, SB. apply Forall_app in CN as [_ CN], SB as [_ SB]. clear - CN SB. unfold run_length. induction rs as [|t rs IH]; cbn; [lia|]. apply Forall_inv in CN as A, SB as B. apply Forall_inv_tail in CN, SB. specialize (IH CN SB). lia. }
    destruct (layout_forward_some rp d zero avail ex (map root fs) DR) with (gs := fwd d v) (len := zero) (p := p') (rem := r') as (pl&->); eauto.
    + rewrite Forall_map. assert (I : forall t, In t fs -> In t ts) by (intros t Ht; rewrite E; apply in_or_app; auto). rewrite Forall_forall in *. intros t Ht. specialize (Q t (I t Ht)). specialize (CN t (I t Ht)). specialize (SB t (I t Ht)). specialize (PR t (I t Ht)). specialize (Of t Ht).
      destruct Q as (Q1&Q2&Q3). rewrite <- Q2 in PR, Of. conj; try tauto; try lia.
    + rewrite HP, OT. apply padded_count_rev.
    + lia.
    + lia.
  - unfold layout_cross. clear - Q. induction ts as [|t ts IH]; cbn; eauto. pose proof (Forall_inv Q) as (Q1&_). pose proof (Forall_inv_tail Q) as Q'. destruct (IH Q') as (vs&->).
    assert (S : exists c', layout_cross_child d v (root t) = Some c').
    { unfold layout_cross_child. rewrite (quiet_list_fwd d (root t) Q1), (quiet_list_rev d (root t) Q1). destruct (align d (root t)); cbn; eauto. }
    destruct S as (c'&->). cbn. eauto.
Qed.

Theorem layout_total rp d t : sensible_rounding rp -> defined_rounding rp -> ready d t -> solved d t -> every (sane_here d) t -> every (orderly d) t -> forall v,
  rest d v = rest d (root t) -> natural d t <= plen d v -> exists t', preorder_from (layout rp d) t v = Some t'.
Proof.
  intros RP DR. induction t as [r ts IH] using tree_ind'. intros R S N O v RE PL.
  apply every_node in R as [R1 R2]. apply every_node in S as [S1 S2]. apply every_node in N as [N1 N2]. apply every_node in O as [O1 O2]. cbn [root] in RE.
  destruct (layout_here_some rp d r ts v RP DR R1 S1 S2 N1 N2 O1 RE PL) as (vs&EL). destruct (layout_here rp d r ts v vs RP R1 S1 S2 N1 N2 RE PL EL) as (K1&K2&_).
  cbn [preorder_from]. rewrite EL.
  assert (LF : is_leaf v = is_leaf r) by (apply rest_inv in RE as (K&_); apply key_inv in K as (C&_); apply (is_leaf_core _ _ _ C)).
  assert (ALL : Forall2 (fun t c => rest d c = rest d (root t) /\ natural d t <= plen d c) ts vs).
  { destruct (is_leaf r) eqn:LR.
    - unfold ready_here in R1. rewrite LR in R1. subst ts. inversion K1. constructor.
    - specialize (K2 LF). clear - K1 K2 S2. revert vs K1 K2. induction ts as [|t ts IH]; intros vs K1 K2; inversion K1 as [|? c ? vs' E1 E2]; subst; constructor.
      + apply Forall_inv in S2, K2. split; auto. rewrite <- (solved_clen d t S2). destruct (rest_key_align _ _ _ E1) as (_&->&_). exact K2.
      + apply Forall_inv_tail in S2, K2. auto. }
  clear - IH ALL R2 S2 N2 O2. match goal with |- exists _, option_map _ ?g = _ => enough (X : exists us, g = Some us) by (destruct X as (us&->); cbn; eauto) end.
  revert IH R2 S2 N2 O2. induction ALL as [|t c ts vs (A&B) F IHF]; intros IH R2 S2 N2 O2; [eauto|].
  apply Forall_inv in IH as IH1. apply Forall_inv_tail in IH. apply Forall_inv in R2 as R1, S2 as S1, N2 as N1, O2 as O1. apply Forall_inv_tail in R2, S2, N2, O2.
  destruct (IH1 R1 S1 N1 O1 c A B) as (u&->). destruct (IHF IH R2 S2 N2 O2) as (us&->). eauto.
Qed.

Lemma orderly_adjusted d t t' : adjusted d t t' -> every (orderly d) t -> every (orderly d) t'.
Proof.
  intros A. revert t' A. induction t as [v ts IH] using tree_ind'. intros t' A. inversion A as [? ? v' ts' C L PP SU F]; subst. rewrite !every_node. intros [K E]. split.
  - unfold orderly in *. rewrite <- (is_leaf_core _ _ _ C). destruct (core_inv _ _ _ C) as (P&I&_&SP&M&CA&X). rewrite <- P. intros LF W. destruct (K LF W) as ((fs&rs&->&Ff&Fr)&PR).
    assert (AL : Forall2 (fun t t' => alignment_in d v' (root t') = alignment_in d v (root t) /\ natural d t' = natural d t) (fs ++ rs) ts').
    { eapply Forall2_impl; [|exact F]. cbn. intros a b [A1 D]. split; [apply alignment_in_settled; auto | apply natural_adjusted; auto]. }
    assert (CT : content_of d v' ts' = content_of d v (fs ++ rs)).
    { apply content_ext; auto. clear - F CA. induction F as [|a b l l' [A1 A2] F IHF]; cbn; constructor; auto. cbn. split; [apply natural_adjusted; auto|]. split; [|apply alignment_in_settled; auto]. apply adjusted_root, core_inv in A1 as (_&H&_). auto. }
    rewrite CT, <- (near_core _ _ _ C), <- (far_core _ _ _ C). split.
    + apply Forall2_app_inv_l in AL as (fs'&rs'&Af&Ar&->). exists fs', rs'. split; auto. split.
      * clear - Af Ff. induction Af as [|a b l l' [H _] F IHF]; constructor; apply Forall_inv in Ff as H1; apply Forall_inv_tail in Ff; auto. congruence.
      * clear - Ar Fr. induction Ar as [|a b l l' [H _] F IHF]; constructor; apply Forall_inv in Fr as H1; apply Forall_inv_tail in Fr; auto. congruence.
    + clear - AL PR. set (ct := content_of d v (fs ++ rs)) in *. clearbody ct. induction AL as [|a b l l' [H1 H2] F IHF]; constructor; apply Forall_inv in PR as H; apply Forall_inv_tail in PR; auto. rewrite H1, H2. exact H.
  - clear - IH F E. revert IH E. induction F as [|t t' ts ts' [S1 S2] F IHF]; intros IH E; constructor.
    + apply Forall_inv in IH, E. eauto.
    + apply Forall_inv_tail in IH, E. auto.
Qed.
Lemma orderly_keys d t t' : same_keys d t t' -> every (orderly d) t -> every (orderly d) t'.
Proof.
  apply (every_alike (key d)). intros v ts v' ts' K F O. apply key_inv in K as (C&_). unfold orderly in *. rewrite <- (is_leaf_core _ _ _ C). destruct (core_inv _ _ _ C) as (P&I&_&SP&M&CA&X). rewrite <- P. intros LF W.
  destruct (O LF W) as ((fs&rs&->&Ff&Fr)&PR). rewrite <- (content_of_keys d v v' (fs ++ rs) ts' C F), <- (near_core _ _ _ C), <- (far_core _ _ _ C).
  assert (AL : Forall2 (fun t t' => alignment_in d v' (root t') = alignment_in d v (root t) /\ natural d t' = natural d t) (fs ++ rs) ts').
  { eapply Forall2_impl; [|exact F]. cbn. intros a b E. split; [|symmetry; apply natural_keys; auto]. apply alike_root, key_inv in E as (_&_&E&_). symmetry. apply alignment_in_key; auto. }
  split.
  + apply Forall2_app_inv_l in AL as (fs'&rs'&Af&Ar&->). exists fs', rs'. split; auto. split.
    * clear - Af Ff. induction Af as [|a b l l' [H _] F IHF]; constructor; apply Forall_inv in Ff as H1; apply Forall_inv_tail in Ff; auto. congruence.
    * clear - Ar Fr. induction Ar as [|a b l l' [H _] F IHF]; constructor; apply Forall_inv in Fr as H1; apply Forall_inv_tail in Fr; auto. congruence.
  + clear - AL PR. set (ct := content_of d v (fs ++ rs)) in *. clearbody ct. induction AL as [|a b l l' [H1 H2] F IHF]; constructor; apply Forall_inv in PR as H; apply Forall_inv_tail in PR; auto. rewrite H1, H2. exact H.
Qed.

Theorem run_total rp o d n w t : sensible_rounding rp -> defined_rounding rp -> plain d t -> every (lens_here d) t -> every (sane_here d) t -> every (orderly d) t -> w = 0 \/ natural d t <= w ->
  exists r, run_slice rp o d n w t = Some r.
Proof.
  intros RP DR PL LE SA OD W. unfold run_slice. destruct (adjust_pass d t PL) as (R1&A1&K1&Q1). set (t1 := postorder (adjust d) t) in *. clearbody t1.
  assert (L1 := lens_adjusted _ _ _ A1 LE). assert (S1 := sane_adjusted _ _ _ A1 SA). pose proof (natural_adjusted _ _ _ A1) as N1. apply (orderly_adjusted _ _ _ A1) in OD.
  destruct (solve_plain d n t1 R1 L1) as (OK&K2&R2&S2&P2&RL2). set (r := solve d n t1) in *. clearbody r. destruct r as [t2 pr]. cbn [fst snd] in *. subst pr.
  assert (N2 : natural d t2 = natural d t1) by (apply natural_keys; auto).
  unfold layout_pass. set (l := if w =? 0 then _ else _) in *. set (v0 := upd d (upd_place (place_length l)) (root t2)) in *.
  assert (LN : natural d t2 <= l). { subst l. destruct (Z.eqb_spec w 0); [rewrite (solved_clen d t2 S2); lia|]. destruct W; lia. }
  assert (PV1 : plen d v0 = l) by (subst v0; unfold plen; rewrite slc_upd; auto).
  destruct (layout_total rp d t2 RP DR R2 S2) with (v := v0) as (t3&->); eauto.
  - eapply sane_keys; [apply same_keys_sym; exact K2 | exact S1].
  - eapply orderly_keys; [apply same_keys_sym; exact K2 | exact OD].
  - apply rest_upd.
  - lia.
Qed.
