(** The layout pass, the outsets, the coordinates: a whole run in one direction. *)
From Verif Require Import Prelude Eve_Model Eve_Spec Eve_Base Eve_Adjust Eve_Solve Eve_Layout.
From Coq Require Import List ZArith Lia Bool.
Import ListNotations.
Open Scope Z_scope.
Ltac Zify.zify_post_hook ::= idtac.

(** what the specification looks at, except places *)
Definition look (d : slice_select) (v : view) :=
  (v_placement v, v_indent v, v_create v, v_spacing v, s_margin (slc d v), s_child_alignment (slc d v), s_extents (slc d v), s_alignment (slc d v)).
Lemma look_inv d v w : look d v = look d w -> v_placement v = v_placement w /\ v_indent v = v_indent w /\ v_create v = v_create w /\ v_spacing v = v_spacing w /\
  s_margin (slc d v) = s_margin (slc d w) /\ s_child_alignment (slc d v) = s_child_alignment (slc d w) /\ s_extents (slc d v) = s_extents (slc d w) /\ align d v = align d w.
Proof. unfold look, align. intros E. injection E as ????????. conj; auto. Qed.
Lemma key_look d v w : key d v = key d w -> look d v = look d w.
Proof. intros K. apply key_inv in K as (C&_&A&_). apply core_inv in C as (C1&C2&C3&C4&C5&C6&C7). unfold look. unfold align, margin in *. congruence. Qed.
Definition looks (d : slice_select) (t t' : tree view) : Prop := map_tree (look d) t = map_tree (look d) t'.
Lemma looks_node d v ts v' ts' : looks d (Node v ts) (Node v' ts') <-> look d v = look d v' /\ Forall2 (looks d) ts ts'.
Proof.
  unfold looks. cbn [map_tree]. split.
  - intros E. apply Node_inj in E as [K E]. split; auto. revert ts' E. induction ts as [|t ts IH]; intros [|t' ts'] E; try discriminate; constructor.
    + cbn in E. apply cons_inj in E. tauto.
    + apply IH. cbn in E. apply cons_inj in E. tauto.
  - intros [K E]. f_equal; auto. induction E; cbn; f_equal; auto.
Qed.
Lemma looks_root d t t' : looks d t t' -> look d (root t) = look d (root t').
Proof. destruct t, t'. intros H. apply looks_node in H. cbn. tauto. Qed.
Lemma keys_looks d t : forall t', same_keys d t t' -> looks d t t'.
Proof.
  induction t as [v ts IH] using tree_ind'. intros [v' ts'] S. apply same_keys_node in S as [K F]. apply looks_node. split; [apply key_look; auto|].
  clear - IH F. revert IH. induction F; intros IH; constructor; [apply Forall_inv in IH; auto | apply Forall_inv_tail in IH; auto].
Qed.
Lemma near_look d v w : look d v = look d w -> near d v = near d w /\ far d v = far d w /\ is_leaf v = is_leaf w.
Proof. intros E. apply look_inv in E as (P&_&_&_&M&_&X&_). unfold near, far, frame, margin, is_leaf. rewrite M, X, P. auto. Qed.
Lemma content_look d v v' cs cs' : look d v = look d v' ->
  Forall2 (fun x y => snd x = snd y /\ look d (fst x) = look d (fst y)) cs cs' -> content d v cs = content d v' cs'.
Proof.
  intros C F. unfold content. destruct (near_look _ _ _ C) as (->&->&_). f_equal. apply look_inv in C as (P&I&_&S&M&CA&X&_). rewrite P. unfold last_gap. rewrite S.
  destruct (is_with _ _).
  - f_equal. induction F as [|? ? ? ? [H _]]; cbn; congruence.
  - apply fold_max_ext. eapply Forall2_impl; [|exact F]. intros x y (A&B). apply look_inv in B as (_&I2&_&_&_&_&_&AL). unfold indent_in. rewrite (alignment_in_key d v (fst x) v' (fst y) CA AL). rewrite A, I2. reflexivity.
Qed.
Lemma natural_looks d t : forall t', looks d t t' -> natural d t = natural d t'.
Proof.
  induction t as [v ts IH] using tree_ind'. intros [v' ts'] S. apply looks_node in S as [K F]. cbn [natural].
  destruct (near_look _ _ _ K) as (_&_&->). destruct (look_inv _ _ _ K) as (_&_&_&_&_&_&->&_). destruct (is_leaf v'); auto. f_equal. apply content_look; auto.
  clear - IH F. revert IH. induction F as [|t t' ts ts' S F IHF]; intros IH; cbn; constructor; [|apply IHF; apply Forall_inv_tail in IH; auto].
  cbn. apply Forall_inv in IH. split; auto. apply looks_root; auto.
Qed.

(** ** The specification is about looks and places *)
Definition laid_at (x : Z) (d : slice_select) (v : view) (ts : list (tree view)) : Prop :=
  if is_leaf v then True else
  if is_with (v_placement v) d then line_laid d v ts (x + near d v) (x + plen d v - far d v) (plen d v - content_of d v ts)
  else Forall (fun t => cross_laid d v t (x + near d v) (x + plen d v - far d v)) ts.
Definition moved (d : slice_select) (y : Z) (t t' : tree view) : Prop :=
  looks d t t' /\ ppos d (root t') = ppos d (root t) + y /\ plen d (root t') = plen d (root t).

Lemma moved_align d v v' t t' y : look d v = look d v' -> moved d y t t' -> alignment_in d v' (root t') = alignment_in d v (root t).
Proof. intros L (M&_). apply looks_root in M. apply look_inv in L as (_&_&_&_&_&L&_). apply look_inv in M as (_&_&_&_&_&_&_&M). apply alignment_in_key; auto. Qed.
Lemma in_block_moved d a t t' b s y : moved d y t t' -> in_block d a t b s -> in_block d a t' (b + y) s.
Proof. intros (L&P&N). unfold in_block. rewrite <- (natural_looks _ _ _ L), P, N. destruct a; intros; intuition lia. Qed.
Lemma tiles_moved d v v' y ts ts' : look d v = look d v' -> Forall2 (moved d y) ts ts' -> forall sp start sh stop, tiles d v sp start ts sh stop -> tiles d v' sp (start + y) ts' sh (stop + y).
Proof.
  intros L F. assert (G : last_gap v' = last_gap v) by (unfold last_gap; apply look_inv in L as (_&_&_&->&_); reflexivity).
  induction F as [|t t' ts ts' M F IH]; intros sp start [|s sh] stop H; cbn in *; try contradiction; [lia|]. destruct H as [H1 H2]. rewrite G.
  rewrite (moved_align _ _ _ _ _ _ L M). destruct M as (M1&M2&M3). rewrite <- (natural_looks _ _ _ M1). split.
  - replace (start + y + gap sp (last_gap v)) with (start + gap sp (last_gap v) + y) by lia. eapply in_block_moved; eauto. split; auto.
  - replace (start + y + gap sp (last_gap v) + natural d t + s) with (start + gap sp (last_gap v) + natural d t + s + y) by lia. auto.
Qed.
Lemma content_of_look d v v' ts ts' : look d v = look d v' -> Forall2 (looks d) ts ts' -> content_of d v ts = content_of d v' ts'.
Proof. intros L F. apply content_look; auto. clear - F. induction F as [|t t' ts ts' S F IH]; cbn; constructor; auto. cbn. split; [apply natural_looks; auto | apply looks_root; auto]. Qed.
Lemma Forall2_app_inv_l' {A B} (R : A -> B -> Prop) l1 l2 l' : Forall2 R (l1 ++ l2) l' -> exists l1' l2', l' = l1' ++ l2' /\ Forall2 R l1 l1' /\ Forall2 R l2 l2'.
Proof. intros H. apply Forall2_app_inv_l in H as (a&b&H1&H2&->). eauto. Qed.
Lemma laid_moved d y x v v' ts ts' : look d v = look d v' -> plen d v' = plen d v -> Forall2 (moved d y) ts ts' -> laid_at x d v ts -> laid_at (x + y) d v' ts'.
Proof.
  intros L PL F. unfold laid_at. destruct (near_look _ _ _ L) as (NE&FA&LF). rewrite <- LF, <- NE, <- FA, PL. destruct (is_leaf v); auto.
  destruct (look_inv _ _ _ L) as (P&_&_&SP&_&CA&_). rewrite <- P.
  assert (FL : Forall2 (looks d) ts ts') by (eapply Forall2_impl; [|exact F]; intros a b (M&_); exact M).
  rewrite <- (content_of_look d v v' ts ts' L FL). destruct (is_with _ _).
  - unfold line_laid. intros (fs&rs&fsh&rsh&mid&slack&q&E&H1&H2&H3&H4&H5&H6&H7&H8&H9&H10). subst ts. apply Forall2_app_inv_l' in F as (fs'&rs'&->&Ff&Fr).
    assert (AF : forall l l' (Q : alignment -> Prop), Forall2 (moved d y) l l' -> Forall (fun t => Q (alignment_in d v (root t))) l -> Forall (fun t => Q (alignment_in d v' (root t))) l').
    { intros l l' Q M. induction M as [|a b l l' M1 M IH]; intros H; constructor; apply Forall_inv in H as H'; apply Forall_inv_tail in H; auto. rewrite (moved_align _ _ _ _ _ _ L M1). exact H'. }
    assert (FF : forall l l' sh, Forall2 (moved d y) l l' -> Forall2 (fair q d v) l sh -> Forall2 (fair q d v') l' sh).
    { intros l l' sh M. revert sh. induction M as [|a b l l' M1 M IH]; intros sh H; inversion H; subst; constructor; auto. unfold fair. rewrite (moved_align _ _ _ _ _ _ L M1). assumption. }
    exists fs', rs', fsh, rsh, (mid + y), slack, q. rewrite <- SP. pose proof (Forall2_length _ _ _ Ff) as LEN. rewrite <- LEN.
    conj; auto.
    + apply (AF fs fs' (fun a => to_reverse a = false)); auto.
    + apply (AF rs rs' (fun a => to_reverse a = true)); auto.
    + replace (x + y + near d v) with (x + near d v + y) by lia. eapply tiles_moved; eauto.
    + replace (x + y + plen d v - far d v) with (x + plen d v - far d v + y) by lia. replace (mid + y + slack) with (mid + slack + y) by lia. eapply tiles_moved; eauto.
    + eapply FF; eauto.
    + eapply FF; eauto.
    + intros EX. apply H10. assert (FA2 : Forall2 (moved d y) (fs ++ rs) (fs' ++ rs')) by (apply Forall2_app; auto). clear - EX FA2 L.
      induction FA2 as [|a b l l' M1 M IH]; inversion EX; subst; [left; rewrite <- (moved_align _ _ _ _ _ _ L M1); auto | right; auto].
  - intros H. clear - L F H. induction F as [|t t' ts ts' M F IH]; constructor; apply Forall_inv in H as H'; apply Forall_inv_tail in H; auto.
    unfold cross_laid in *. rewrite (moved_align _ _ _ _ _ _ L M). destruct M as (M1&M2&M3). rewrite <- (natural_looks _ _ _ M1), M2, M3.
    apply looks_root, look_inv in M1 as (_&I&_). rewrite <- I. destruct (alignment_in d v (root t)); intuition lia.
Qed.

(** ** The layout pass *)
Lemma gaps_app sp fin n m : gaps sp fin (n + m) = gaps sp fin n ++ gaps (drop n sp) fin m.
Proof. revert sp. induction n; intros sp; cbn; f_equal; auto. Qed.
Lemma app_inj_len {A} (a b c e : list A) : length a = length c -> a ++ b = c ++ e -> a = c /\ b = e.
Proof. revert c. induction a as [|x a IH]; intros [|y c] L E; try discriminate; auto. cbn in L, E. apply cons_inj in E as [-> E]. injection L as L. destruct (IH c L E) as [-> ->]. auto. Qed.
Lemma gaps_length sp fin n : length (gaps sp fin n) = n.
Proof. revert sp. induction n; intros; cbn; auto. Qed.

Definition matches (d : slice_select) (v : view) (t : tree view) : Prop := clen d (root t) = natural d t /\ alignment_in d v (root t) = align d (root t).
Lemma tiles_of d v ts : Forall (matches d v) ts -> forall sp s sh e, map (fun t => v_space_before (root t)) ts = gaps sp (last_gap v) (length ts) ->
  vtiles d s (map root ts) sh e -> tiles d v sp s ts sh e.
Proof.
  induction 1 as [|t ts (M1&M2) F IH]; intros sp s [|x sh] e G H; cbn in *; try contradiction; auto.
  apply cons_inj in G as [G1 G2]. destruct H as [H1 H2]. rewrite <- G1, <- M1. split.
  - unfold in_block. unfold vin_block in H1. rewrite M2, <- M1. exact H1.
  - apply IH; auto.
Qed.
Lemma fair_of q d v ts sh : Forall (matches d v) ts -> Forall2 (vfair q d) (map root ts) sh -> Forall2 (fair q d v) ts sh.
Proof. intros F. revert sh. induction F as [|t ts (M1&M2) F IH]; intros sh H; inversion H; subst; constructor; auto. unfold fair. rewrite M2. assumption. Qed.

Lemma gaps_nonneg sp fin n : Forall (fun x => 0 <= x) sp -> 0 <= fin -> Forall (fun x => 0 <= x) (gaps sp fin n).
Proof. intros F K. revert sp F. induction n; intros sp F; cbn; constructor; [destruct F; auto|]. apply IHn. destruct F; cbn; auto. Qed.
Lemma last_nonneg sp : Forall (fun x => 0 <= x) sp -> 0 <= last sp 0.
Proof. induction 1 as [|x [|y l] H F IH]; cbn in *; try lia. Qed.

Definition sane_here (d : slice_select) (v : view) (ts : list (tree view)) : Prop := non_negative d v /\ no_reverse_fill d v ts.
Lemma natural_nonneg d t : every (sane_here d) t -> 0 <= natural d t.
Proof. destruct t as [v ts]. intros H. apply every_node in H as [[(_&_&_&_&_&_&H) _] _]. rewrite natural_node. destruct (is_leaf v); lia. Qed.

Lemma go_layout f ts : (forall t, In t ts -> forall v t', preorder_from f t v = Some t' -> root t' = v) -> forall vs us,
  (fix go (ts : list (tree view)) (vs : list view) {struct ts} : option (list (tree view)) :=
     match ts, vs with t :: ts', v :: vs' => match preorder_from f t v, go ts' vs' with Some x, Some y => Some (x :: y) | _, _ => None end | _, _ => Some [] end) ts vs = Some us ->
  length ts = length vs -> Forall2 (fun t u => preorder_from f t (root u) = Some u) ts us /\ map root us = vs.
Proof.
  induction ts as [|t ts IH]; intros R [|v vs] us E LEN; try discriminate; [injection E as <-; split; auto|].
  destruct (preorder_from f t v) as [u|] eqn:E1; try discriminate. destruct (_ ts vs) as [us'|] eqn:E2; try discriminate. injection E as <-.
  assert (RV : root u = v) by (eapply R; [left; reflexivity | exact E1]).
  destruct (IH (fun t H => R t (or_intror H)) vs us' E2) as [I1 I2]; [cbn in LEN; lia|]. split.
  - constructor; auto. rewrite RV. exact E1.
  - cbn. congruence.
Qed.
Lemma preorder_root f t v t' : preorder_from f t v = Some t' -> root t' = v.
Proof. destruct t as [a ts]. cbn [preorder_from]. destruct (f v (map root ts)); try discriminate. destruct (_ ts l); try discriminate. intros E. injection E as <-. reflexivity. Qed.

(** one container and its children *)
Lemma layout_here rp d r ts v vs : sensible_rounding rp -> ready_here d r ts -> solved_here d r ts -> Forall (solved d) ts -> sane_here d r ts -> Forall (every (sane_here d)) ts ->
  rest d v = rest d r -> natural d (Node r ts) <= plen d v -> layout rp d v (map root ts) = Some vs ->
  Forall2 (fun c c' => rest d c = rest d c') (map root ts) vs /\
    (is_leaf v = false -> Forall (fun c' => clen d c' <= plen d c') vs) /\
    forall us, map root us = vs -> Forall (matches d v) us -> content_of d v us = content_of d r ts ->
      (is_leaf v = false -> is_with (v_placement v) d = true -> map (fun t => v_space_before (root t)) us = gaps (v_spacing v) (last_gap v) (length us)) -> laid_at 0 d v us.
Proof.
  intros RP R1 S1 S2 N1 N2 RE PL EL.
  pose proof (natural_nonneg d (Node r ts) ltac:(apply every_node; auto)) as NN.
  apply rest_inv in RE as (K&CL&ML&FG&RG). pose proof (key_inv _ _ _ K) as (C&_&_&_). destruct (core_inv _ _ _ C) as (P&_&_&SP&_&CA&_).
  assert (NF : near d v = near d r /\ far d v = far d r) by (split; [apply near_core | apply far_core]; auto). destruct NF as [NE FA].
  unfold layout in EL. unfold ready_here in R1. rewrite (is_leaf_core _ _ _ C) in *. destruct (is_leaf r) eqn:LF.
    { injection EL as <-. split; [apply Forall2_self, Forall_forall; auto|]. split; [discriminate|]. intros. unfold laid_at. rewrite (is_leaf_core _ _ _ C), LF. exact I. }
    destruct R1 as (Q&F0&R0&G). destruct S1 as [S1a S1b]. specialize (S1b LF). rewrite natural_node, LF in *.
    destruct N1 as [(M1&M2&M3&M4&M5&M6&M7) NR].
    assert (CN : Forall (fun t => clen d (root t) = natural d t /\ 0 <= clen d (root t)) ts).
    { rewrite Forall_forall in *. intros t Ht. rewrite (solved_clen d t (S2 t Ht)). split; auto. apply natural_nonneg; auto. }
    rewrite P in EL |- *. destruct (is_with (v_placement r) d) eqn:W.
    - (* with *)
      specialize (G eq_refl). assert (SB : Forall (fun t => 0 <= v_space_before (root t)) ts).
      { apply Forall_map with (f := fun t => v_space_before (root t)) (P := fun x => 0 <= x). rewrite G. apply gaps_nonneg; auto. apply last_nonneg; auto. }
      assert (FQ : Forall (fun c => quiet d c /\ align d c <> align_default /\ 0 <= v_space_before c /\ 0 <= clen d c) (map root ts)).
      { apply Forall_map. rewrite Forall_forall in *. intros t Ht. specialize (Q t Ht). specialize (SB t Ht). specialize (CN t Ht). tauto. }
      assert (CT : content_of d r ts = near d r + far d r + run_length d (map root ts)).
      { unfold content_of, content. rewrite W. rewrite (run_length_content d r ts); auto. { rewrite map_map. reflexivity. } eapply Forall_impl; [|exact CN]. cbn. tauto. }
      assert (ME : s_measured_length (slc d v) = near d v + far d v + run_length d (map root ts)) by (rewrite ML, NE, FA; congruence).
      destruct (layout_with_quiet rp d v (map root ts) vs RP FQ ME ltac:(rewrite ME, NE, FA, <- CT; lia) EL) as (X0&fs&rs&fsh&rsh&mid&slack&q&X1&X2&X3&X4&X5&X6&X7&X8&X9&X10&X11).
      split; auto. split.
      + intros _. rewrite X1. apply Forall_app.
        assert (TT : forall cs sh s e, vtiles d s cs sh e -> Forall2 (vfair q d) cs sh -> Forall (fun c' => clen d c' <= plen d c') cs).
        { clear - X8. induction cs as [|c cs IH]; intros [|x sh] s e H1 H2; try (destruct H1; fail); constructor; inversion H2; subst; cbn in H1; destruct H1 as [H1 H1']; eauto.
          unfold vin_block in H1. unfold vfair in *. destruct (align d c); cbn in *; try lia; contradiction. }
        split; eapply TT; eauto.
      + intros us0 U1 U2 U3 U4. unfold laid_at. rewrite (is_leaf_core _ _ _ C), LF, P, W. unfold line_laid.
        assert (SPL : exists ufs urs, us0 = ufs ++ urs /\ map root ufs = fs /\ map root urs = rs).
        { exists (firstn (length fs) us0), (skipn (length fs) us0). split; [symmetry; apply firstn_skipn|]. rewrite <- firstn_map, <- skipn_map, U1, X1. rewrite firstn_app, skipn_app, firstn_all, skipn_all, Nat.sub_diag. cbn. rewrite app_nil_r. auto. }
        destruct SPL as (ufs&urs&->&Hf&Hr). apply Forall_app in U2 as [Uf Ur]. specialize (U4 eq_refl eq_refl).
        rewrite map_app, app_length, gaps_app in U4.
        assert (LE : length (map (fun t => v_space_before (root t)) ufs) = length (gaps (v_spacing v) (last_gap v) (length ufs))) by (rewrite map_length, gaps_length; auto).
        apply app_inj_len in U4 as [U4a U4b]; auto.
        exists ufs, urs, fsh, rsh, mid, slack, q. rewrite U3. conj; auto.
        * clear - X2 Hf Uf. subst fs. apply Forall_map in X2. rewrite Forall_forall in *. intros t Ht. destruct (Uf t Ht) as (_&->). auto.
        * clear - X3 Hr Ur. subst rs. apply Forall_map in X3. rewrite Forall_forall in *. intros t Ht. destruct (Ur t Ht) as (_&->). auto.
        * apply tiles_of; auto. rewrite Hf. replace (0 + near d v) with (near d v) by lia. exact X4.
        * apply tiles_of; auto. rewrite Hr. replace (0 + plen d v - far d v) with (plen d v - far d v) by lia. exact X5.
        * apply fair_of; auto. congruence.
        * apply fair_of; auto. congruence.
        * rewrite X10, ME, NE, FA, CT. lia.
        * intros EX. apply X11. rewrite <- U1. clear - EX Uf Ur. assert (U : Forall (matches d v) (ufs ++ urs)) by (apply Forall_app; auto). clear Uf Ur. induction U as [|t l (_&M) U IH]; inversion EX; subst; cbn; [left; congruence | right; auto].
    - (* cross *)
      specialize (NR LF W). unfold layout_cross in EL. apply all_some_Forall2 in EL.
      assert (CB : Forall (fun t => near d r + far d r + clen d (root t) + (if to_forward (align d (root t)) || to_reverse (align d (root t)) then v_indent (root t) else 0) <= plen d v) ts).
      { assert (B : Forall (fun t => near d r + far d r + clen d (root t) + (if to_forward (align d (root t)) || to_reverse (align d (root t)) then v_indent (root t) else 0) <= content_of d r ts) ts).
        { unfold content_of, content. rewrite W. clear - CN Q. set (a := near d r + far d r). clearbody a.
          assert (H : forall m, 0 <= m -> Forall (fun t => a + clen d (root t) + (if to_forward (align d (root t)) || to_reverse (align d (root t)) then v_indent (root t) else 0) <= a + Z.max m (fold_right (fun c m => Z.max (snd c + indent_in d r (fst c)) m) 0 (map (fun t => (root t, natural d t)) ts))) ts).
          { revert CN Q. induction ts as [|t ts IH]; intros CN Q m Hm; constructor.
            - cbn. apply Forall_inv in CN as [CN _]. apply Forall_inv in Q as (_&Q&_). unfold indent_in. rewrite <- Q, <- CN. lia.
            - apply Forall_inv_tail in CN, Q. specialize (IH CN Q (Z.max m (natural d t + indent_in d r (root t))) ltac:(lia)). eapply Forall_impl; [|exact IH]. cbn. intros. lia. }
          assert (FN : forall l, 0 <= fold_right (fun c m => Z.max (snd c + indent_in d r (fst c)) m) 0 l) by (induction l; cbn; lia).
          eapply Forall_impl; [|exact (H 0 ltac:(lia))]. cbn. intros x Hx. rewrite Z.max_r in Hx by apply FN. exact Hx. }
        eapply Forall_impl; [|exact B]. cbn. intros. lia. }
      assert (IN : Forall (fun t => 0 <= v_indent (root t)) ts). { rewrite Forall_forall in *. intros t Ht. specialize (N2 t Ht). destruct t. apply every_node in N2 as [[(_&_&_&_&H&_) _] _]. exact H. }
      assert (STEP : Forall2 (fun t c' => rest d (root t) = rest d c' /\ vcross d c' (near d v) (plen d v - far d v) /\ clen d (root t) <= plen d c') ts vs).
      { assert (EL' : Forall2 (fun t c' => layout_cross_child d v (root t) = Some c') ts vs). { clear - EL. remember (map root ts) as l eqn:HL. revert ts HL. induction EL; intros [|t ts] HL; try discriminate; constructor; cbn in HL; apply cons_inj in HL as [H1 H2]; subst; auto. }
        clear EL. assert (NV : 0 <= near d v) by (rewrite NE; unfold near; lia).
        revert Q CN CB IN NR. rewrite <- NE, <- FA. clear - EL' NV CA. induction EL' as [|t c ts vs H F IH]; intros Q CN CB IN NR; constructor.
        - apply Forall_inv in Q as (Q1&Q2&Q3). apply Forall_inv in CN as (CN1&CN2). apply Forall_inv in CB, IN, NR. apply layout_cross_child_quiet; auto. congruence.
        - apply Forall_inv_tail in Q, CN, CB, IN, NR. auto. }
      split; [|split].
      + clear - STEP. induction STEP; cbn; constructor; tauto.
      + intros _. clear - STEP. induction STEP as [|t c ts vs (H&_&H2) F IH]; constructor; auto. destruct (rest_key_align _ _ _ H) as (_&<-&_). exact H2.
      + intros us0 U1 U2 _ _. unfold laid_at. rewrite (is_leaf_core _ _ _ C), LF, P, W. replace (0 + near d v) with (near d v) by lia. replace (0 + plen d v - far d v) with (plen d v - far d v) by lia.
        assert (VC : Forall (fun c => vcross d c (near d v) (plen d v - far d v)) vs) by (clear - STEP; induction STEP; constructor; tauto).
        rewrite <- U1 in VC. apply Forall_map in VC. clear - VC U2. rewrite Forall_forall in *. intros t Ht. specialize (VC t Ht). destruct (U2 t Ht) as [M1 M2]. unfold cross_laid. unfold vcross in VC. rewrite M2, <- M1.
        destruct (align d (root t)); auto. destruct VC.
Qed.

Theorem layout_lays rp d t : sensible_rounding rp -> ready d t -> solved d t -> every (sane_here d) t -> forall v t',
  rest d v = rest d (root t) -> natural d t <= plen d v -> preorder_from (layout rp d) t v = Some t' ->
  root t' = v /\ same_keys d t' t /\ every (laid_at 0 d) t'.
Proof.
  intros RP. induction t as [r ts IH] using tree_ind'. intros R S N v t' RE PL E. split; [eapply preorder_root; eauto|].
  apply every_node in R as [R1 R2]. apply every_node in S as [S1 S2]. pose proof (natural_nonneg d _ N) as NN. apply every_node in N as [N1 N2]. cbn [root] in RE.
  cbn [preorder_from] in E. destruct (layout rp d v (map root ts)) as [vs|] eqn:EL; try discriminate. cbn [option_map] in E.
  destruct (_ ts vs) as [us|] eqn:EG; try discriminate. injection E as <-.
  pose proof RE as RE'. apply rest_inv in RE' as (K&CL&ML&FG&RG). pose proof (key_inv _ _ _ K) as (C&_&_&_). destruct (core_inv _ _ _ C) as (P&_&_&SP&_&CA&_).
  pose proof (layout_here rp d r ts v vs RP R1 S1 S2 N1 N2 RE PL EL) as KEY.
  destruct KEY as (K1&K2&K3).
  assert (LEN : length ts = length vs) by (apply Forall2_length in K1; rewrite map_length in K1; exact K1).
  destruct (go_layout (layout rp d) ts (fun t _ v t' => preorder_root _ t v t') vs us EG LEN) as [G1 G2]. subst vs.
  assert (PLEN : Forall2 (fun t u => natural d t <= plen d (root u) /\ rest d (root u) = rest d (root t)) ts us).
  { assert (RR : Forall2 (fun t u => rest d (root u) = rest d (root t)) ts us).
    { clear - K1 G1. revert K1. induction G1; cbn; intros K; constructor; inversion K; subst; auto. }
    destruct (is_leaf v) eqn:LF.
    { unfold ready_here in R1. rewrite <- (is_leaf_core _ _ _ C), LF in R1. subst ts. inversion G1. constructor. }
    specialize (K2 eq_refl). rewrite Forall_map in K2. clear - RR K2 S2. induction RR as [|t u ts us H F IH]; constructor; [|apply IH; [apply Forall_inv_tail in S2; auto | apply Forall_inv_tail in K2; auto]].
    split; auto. apply Forall_inv in K2. apply Forall_inv in S2. rewrite <- (solved_clen d t S2). destruct (rest_key_align _ _ _ H) as (_&<-&_). exact K2. }
  assert (BELOW : Forall2 (fun t u => same_keys d u t /\ every (laid_at 0 d) u) ts us).
  { clear - G1 PLEN IH R2 S2 N2. revert PLEN IH R2 S2 N2. induction G1 as [|t u ts us H F IHF]; intros PLEN IH R2 S2 N2; constructor.
    - inversion PLEN as [|? ? ? ? (P1&P2)]; subst. apply Forall_inv in IH, R2, S2, N2. destruct (IH R2 S2 N2 _ _ P2 P1 H) as (_&A&B). auto.
    - inversion PLEN; subst. apply Forall_inv_tail in IH, R2, S2, N2. auto. }
  assert (KU : Forall2 (same_keys d) us ts). { clear - BELOW. induction BELOW; constructor; tauto. }
  split.
  - apply same_keys_node. auto.
  - apply every_node. split.
    + unfold ready_here in R1. rewrite <- (is_leaf_core _ _ _ C) in R1. destruct (is_leaf v) eqn:LF.
      { unfold laid_at. rewrite LF. exact I. }
      destruct R1 as (Q&_&_&G). apply K3; auto.
      * clear - BELOW Q S2 CA PLEN. revert Q S2 PLEN. induction BELOW as [|t u ts us (H&_) F IH]; intros Q S2 PLEN; constructor.
        -- apply Forall_inv in Q as (_&Q&_). apply Forall_inv in S2. inversion PLEN as [|? ? ? ? (_&RR)]; subst. destruct (rest_key_align _ _ _ RR) as (A&CL&_). split.
           ++ rewrite CL, (solved_clen d t S2). symmetry. apply natural_keys; auto.
           ++ rewrite A, Q. apply alignment_in_key; auto.
        -- inversion PLEN; subst. apply Forall_inv_tail in Q, S2. auto.
      * apply content_of_keys; auto.
      * intros _ W. rewrite P in W. specialize (G W). unfold last_gap in *. rewrite SP. apply Forall2_length in KU as LK. rewrite LK, <- G. clear - KU. induction KU as [|u t us ts S F IH]; cbn; f_equal; auto. apply same_keys_root, key_inv in S. tauto.
    + clear - BELOW. induction BELOW; constructor; tauto.
Qed.
