(** Both directions: evaluate and adjust. *)
From Verif Require Import Prelude Eve_Model Eve_Spec Eve_Base Eve_Adjust Eve_Solve Eve_Layout Eve_Place Eve_Run Eve_Total.
From Coq Require Import List ZArith Lia Bool.
Import ListNotations.
Open Scope Z_scope.
Ltac Zify.zify_post_hook ::= idtac.

Lemma run_keeps rp o d n w t t' ok : plain d t -> every (lens_here d) t -> run_slice rp o d n w t = Some (t', ok) -> natural d t' = natural d t /\ alike (core d) t' t.
Proof.
  intros PL LE E. unfold run_slice in E. destruct (adjust_pass d t PL) as (R1&A1&K1&Q1). set (t1 := postorder (adjust d) t) in *. clearbody t1.
  assert (L1 := lens_adjusted _ _ _ A1 LE). pose proof (natural_adjusted _ _ _ A1) as N1.
  destruct (solve_plain d n t1 R1 L1) as (OK&K2&R2&S2&P2&RL2). set (r := solve d n t1) in *. clearbody r. destruct r as [t2 pr]. cbn [fst snd] in *. subst pr.
  destruct (layout_pass rp d w t2) as [t3|] eqn:EL; try discriminate. apply (f_equal (fun x => match x with Some y => y | None => (t', ok) end)) in E.
  pose proof (f_equal fst E) as E1. cbn [fst] in E1. clear E. unfold layout_pass in EL. apply layout_pass_rest in EL; [|apply rest_upd].
  assert (KR : forall x y, alike (rest d) x y -> same_keys d x y) by (intros x y; apply alike_impl; intros v w' H; apply rest_inv in H; tauto).
  assert (RR : forall x y, alike (spot d) x y -> alike (rest d) x y) by (intros x y; apply alike_impl; intros v w' H; apply spot_inv in H; tauto).
  assert (KK : same_keys d t' t1); [|split; [rewrite <- N1; apply natural_keys; exact KK | eapply alike_trans; [|apply alike_sym, adjusted_core; exact A1]; apply (alike_impl (key d)); [intros x y Hx; apply key_inv in Hx; tauto | exact KK]]].
  rewrite <- E1. eapply same_keys_trans; [|exact K2]. apply KR. eapply alike_trans; [apply flatten_rest|]. eapply alike_trans; [apply RR, outsets_spot | exact EL].
Qed.

(** ** What the other direction leaves alone *)
Definition half (d : slice_select) (v : view) := (v_placeable v, v_visible v, v_placement v, v_indent v, v_create v, v_spacing v, slc d v).
Lemma half_inv d v w : half d v = half d w -> v_placeable v = v_placeable w /\ v_visible v = v_visible w /\ v_placement v = v_placement w /\ v_indent v = v_indent w /\ v_create v = v_create w /\ v_spacing v = v_spacing w /\ slc d v = slc d w.
Proof.
  unfold half. intros E. generalize (f_equal (fun x => fst (fst (fst (fst (fst (fst x)))))) E) (f_equal (fun x => snd (fst (fst (fst (fst (fst x)))))) E) (f_equal (fun x => snd (fst (fst (fst (fst x))))) E)
    (f_equal (fun x => snd (fst (fst (fst x)))) E) (f_equal (fun x => snd (fst (fst x))) E) (f_equal (fun x => snd (fst x)) E) (f_equal snd E). cbn [fst snd]. auto 10.
Qed.
Lemma core_half d v w : core d v = core d w -> half (other d) v = half (other d) w.
Proof. unfold core, half. intros E. set (a := slc (other d) v) in *. set (b := slc (other d) w) in *. clearbody a b. injection E as ???????????. congruence. Qed.
Lemma half_look d v w : half d v = half d w -> look d v = look d w.
Proof. intros H. apply half_inv in H as (H1&H2&H3&H4&H5&H6&H7). unfold look. congruence. Qed.
Lemma laid_half o d t t' : alike (half d) t t' -> every (laid_out o d) t -> every (laid_out o d) t'.
Proof.
  apply every_alike. intros v ts v' ts' H F L. pose proof (half_inv _ _ _ H) as (_&_&_&_&CR&_&SL).
  assert (PP : ppos d v = ppos d v' /\ plen d v = plen d v') by (unfold ppos, plen; rewrite SL; auto). destruct PP as [PP1 PP2].
  change (laid_at (origin o d v') d v' ts'). replace (origin o d v') with (origin o d v + 0) by (unfold origin, stops; rewrite CR, PP1; lia).
  apply (laid_moved d 0 (origin o d v) v v' ts ts'); [apply half_look; auto | auto | | exact L]. eapply Forall2_impl; [|exact F]. intros a b A. split.
  - apply (alike_impl _ (look d)) in A; auto. apply half_look.
  - apply alike_root, half_inv in A as (_&_&_&_&_&_&A). unfold ppos, plen. rewrite A. split; [lia | reflexivity].
Qed.
Lemma natural_half d t t' : alike (half d) t t' -> natural d t = natural d t'.
Proof. intros H. apply natural_looks. apply (alike_impl _ (look d)) in H; auto. apply half_look. Qed.
Lemma alignments_alike d t : forall t' a, alike (fun v => (align d v, s_child_alignment (slc d v))) t t' -> alignments d a t = alignments d a t'.
Proof.
  induction t as [v ts IH] using tree_ind'. intros [v' ts'] a S. apply alike_node in S as [K F]. apply pair_equal_spec in K as [K1 K2]. cbn [alignments]. rewrite K1, K2. f_equal.
  clear - IH F. revert IH. induction F; intros IH; cbn [map]; [reflexivity|]. apply Forall_inv in IH as H1. apply Forall_inv_tail in IH. f_equal; auto.
Qed.
Lemma alignments_half d t t' a : alike (half d) t t' -> alignments d a t = alignments d a t'.
Proof. intros H. apply alignments_alike. revert H. apply alike_impl. intros v w H. apply half_inv in H as (_&_&_&_&_&_&H). unfold align. rewrite H. reflexivity. Qed.
Lemma map_tree_alike {B} (g : view -> B) f t : (forall v, g (f v) = g v) -> alike g (map_tree f t) t.
Proof.
  intros H. induction t as [v ts IH] using tree_ind'. cbn [map_tree]. apply alike_node. split; auto. clear - IH. induction IH; cbn; constructor; auto.
Qed.
Lemma every_map {A B} (f : A -> B) (P : B -> list (tree B) -> Prop) (Q : A -> list (tree A) -> Prop) t :
  (forall a ts, Q a ts -> P (f a) (map (map_tree f) ts)) -> every Q t -> every P (map_tree f t).
Proof.
  intros H. induction t as [v ts IH] using tree_ind'. intros E. apply every_node in E as [E1 E2]. cbn [map_tree]. apply every_node. split; auto.
  clear - IH E2. revert IH. induction E2; intros IH; cbn; constructor; [apply Forall_inv in IH; auto | apply Forall_inv_tail in IH; auto].
Qed.
Lemma half_calculate_vertical v : half horizontal (calculate_vertical v) = half horizontal v.
Proof. unfold calculate_vertical. destruct (measure_vertical _); reflexivity. Qed.
Lemma half_calculate v : attributes (calculate v) = attributes v /\ s_alignment (v_horizontal (calculate v)) = s_alignment (v_horizontal v) /\ s_alignment (v_vertical (calculate v)) = s_alignment (v_vertical v).
Proof. unfold calculate. auto. Qed.

(** ** The premises of a run *)
Lemma root_map {A B} (f : A -> B) t : root (map_tree f t) = f (root t). Proof. destruct t; reflexivity. Qed.
Lemma formed_plain d v ts : formed d v ts -> measured_well d v (s_extents (slc d v)) -> plain_here d v ts /\ sane_here d v ts.
Proof.
  intros (F1&F2&F3&F4&F5&F6) (M1&M2&M3&M4). unfold plain_here, sane_here, non_negative, frame. split.
  - destruct (is_leaf v); auto. specialize (M4 eq_refl). destruct F5 as [-> F5]. split; auto. unfold unguided. tauto.
  - conj; auto.
Qed.
Lemma formed_map d f v ts : (forall v, v_placement (f v) = v_placement v /\ v_indent (f v) = v_indent v /\ v_spacing (f v) = v_spacing v /\ margin d (f v) = margin d v /\ s_child_alignment (slc d (f v)) = s_child_alignment (slc d v) /\
    align d (f v) = align d v /\ suppressed d (f v) = suppressed d v /\ fwd d (f v) = fwd d v /\ rev_g d (f v) = rev_g d v) ->
  formed d v ts -> formed d (f v) (map (map_tree f) ts).
Proof.
  intros H (F1&F2&F3&F4&F5&F6). destruct (H v) as (P&I&SP&M&CA&AL&SU&FG&RG). unfold formed, is_leaf, aligned, no_reverse_fill. rewrite P, I, SP, M, CA, SU, FG, RG. conj; auto.
  - unfold is_leaf in F5. destruct (v_placement v); auto. destruct F5 as [-> F5]. auto.
  - intros A B. unfold is_leaf in A. rewrite P in A. specialize (F6 A B). rewrite Forall_map. eapply Forall_impl; [|exact F6]. cbn. intros t. rewrite root_map. destruct (H (root t)) as (_&_&_&_&_&AL'&_).
    rewrite (alignment_in_key d (f v) (f (root t)) v (root t)); auto.
Qed.
Ltac nine := repeat match goal with |- _ /\ _ => split end; reflexivity.
Lemma formed_calculate d v ts : formed d v ts -> formed d (calculate v) (map (map_tree calculate) ts).
Proof. apply formed_map. clear. intros v. destruct d; nine. Qed.
Lemma formed_calculate_vertical d v ts : formed d v ts -> formed d (calculate_vertical v) (map (map_tree calculate_vertical) ts).
Proof. apply formed_map. clear. intros v. unfold calculate_vertical. destruct d, (measure_vertical _); nine. Qed.

Lemma lens_leafy d v ts : clen d v = e_length (s_extents (slc d v)) -> lens_here d v ts.
Proof. intros E. unfold lens_here. rewrite E, natural_node. destruct (is_leaf v); lia. Qed.

(** [ready_for d t]: all that a run in the direction d asks for *)
Definition fit (d : slice_select) (t : tree view) : Prop := plain d t /\ every (lens_here d) t /\ every (sane_here d) t.
Lemma fit_calculate t : every good_form t -> fit horizontal (map_tree calculate t).
Proof.
  intros G. unfold fit, plain.
  assert (H : every (fun v ts => plain_here horizontal v ts /\ sane_here horizontal v ts) (map_tree calculate t)).
  { eapply every_map; [|exact G]. cbn beta. intros v ts (F1&F2&M1&M2&M3). apply formed_plain; [apply formed_calculate; auto | exact M1]. }
  split; [|split].
  - eapply every_impl; [|exact H]. cbn. tauto.
  - eapply every_map; [|exact G]. intros v ts _. apply lens_leafy. reflexivity.
  - eapply every_impl; [|exact H]. cbn. tauto.
Qed.

(** a form in between: the horizontal direction is done (or about to be done again), the vertical one is to come *)
Definition good_vertical (v : view) (ts : list (tree view)) : Prop :=
  formed vertical v ts /\ (forall f, measure_vertical (v_placeable v) = Some f -> forall e p, measured_well vertical v (f e p)) /\
  (measure_vertical (v_placeable v) = None -> measured_well vertical v (s_extents (slc vertical v))).
Lemma fit_calculate_vertical t : every good_vertical t -> fit vertical (map_tree calculate_vertical t).
Proof.
  intros G. unfold fit, plain.
  assert (H : every (fun v ts => plain_here vertical v ts /\ sane_here vertical v ts) (map_tree calculate_vertical t)).
  { eapply every_map; [|exact G]. cbn beta. intros v ts (F1&M1&M2). apply formed_plain; [apply formed_calculate_vertical; auto|].
    unfold calculate_vertical. destruct (measure_vertical (v_placeable v)) as [f|] eqn:E; [apply (M1 f eq_refl) | apply (M2 eq_refl)]. }
  split; [|split].
  - eapply every_impl; [|exact H]. cbn. tauto.
  - eapply every_map; [|exact G]. intros v ts _. apply lens_leafy. reflexivity.
  - eapply every_impl; [|exact H]. cbn. tauto.
Qed.
Lemma formed_half d v ts v' ts' : half d v = half d v' -> Forall2 (alike (half d)) ts ts' -> formed d v ts -> formed d v' ts'.
Proof.
  intros H F. pose proof (half_inv _ _ _ H) as (_&_&P&I&_&SP&SL). unfold formed, is_leaf, aligned, no_reverse_fill, is_leaf, margin, suppressed, fwd, rev_g. rewrite <- P, <- I, <- SP, <- SL.
  intros (F1&F2&F3&F4&F5&F6). conj; auto.
  - destruct (v_placement v); auto. destruct F5 as [-> F5]. inversion F. auto.
  - intros A B. specialize (F6 A B). clear - F F6 SL. induction F as [|t t' ts ts' E F IH]; constructor; apply Forall_inv in F6 as H; apply Forall_inv_tail in F6; auto.
    apply alike_root, half_inv in E as (_&_&_&_&_&_&E). unfold alignment_in, align in *. rewrite <- SL, <- E. auto.
Qed.
Lemma good_vertical_half t t' : alike (half vertical) t t' -> every good_vertical t -> every good_vertical t'.
Proof.
  apply every_alike. intros v ts v' ts' H F (G1&G2&G3). pose proof (half_inv _ _ _ H) as (P&_&PL&_&_&_&SL). unfold good_vertical. rewrite <- P.
  assert (MW : forall e, measured_well vertical v e -> measured_well vertical v' e) by (intros e; unfold measured_well, is_leaf, suppressed; rewrite PL, SL; auto).
  conj; [eapply formed_half; eauto | eauto | intros N; rewrite <- SL; auto].
Qed.

(** ** adjust *)
(** the extents of v', laid out from v *)
Definition remeasured (v v' : view) : Prop :=
  s_extents (v_horizontal v') = s_extents (v_horizontal v) /\
  match measure_vertical (v_placeable v) with
  | None => s_extents (v_vertical v') = s_extents (v_vertical v)
  | Some f => exists p, s_extents (v_vertical v') = f (s_extents (v_horizontal v), s_extents (v_vertical v)) (s_place (v_horizontal v'), p)
  end.
Lemma related_map (R : view -> view -> Prop) f t : (forall v, R v (f v)) -> related R t (map_tree f t).
Proof. intros H. induction t as [v ts IH] using tree_ind'. cbn [map_tree]. constructor; auto. clear - IH. induction IH; cbn; constructor; auto. Qed.
Record adjust_result (o : options) (w h : Z) (t t' : tree view) : Prop := {
  ar_laid_h : every (laid_out o horizontal) t';
  ar_laid_v : every (laid_out o vertical) t';
  ar_length_h : plen horizontal (root t') = if w =? 0 then natural horizontal t' else w;
  ar_length_v : plen vertical (root t') = if h =? 0 then natural vertical t' else h;
  ar_position_h : ppos horizontal (root t') = ppos horizontal (root t);
  ar_position_v : ppos vertical (root t') = ppos vertical (root t);
  ar_natural_h : natural horizontal t' = natural horizontal t;
  ar_attributes : alike attributes t' t;
  ar_alignments : forall d a, alignments d a t' = alignments d a t;
  ar_extents : related remeasured t t';
  ar_suppressed_h : related (kept_suppressed horizontal) t t';
  ar_suppressed_v : related (kept_suppressed vertical) t t';
  ar_fit_h : fit horizontal t';
  ar_fit_v : fit vertical t' }.

Lemma core_attributes d v w : core d v = core d w -> attributes v = attributes w.
Proof. intros H. pose proof (core_half d v w H) as H2. apply half_inv in H2 as (A&B&C&D&E&F&G). unfold core in H. assert (K : (s_balance (slc d v), s_margin (slc d v), s_child_alignment (slc d v), s_extents (slc d v)) = (s_balance (slc d w), s_margin (slc d w), s_child_alignment (slc d w), s_extents (slc d w))) by (apply (f_equal (fun x => snd (fst x))) in H; exact H).
  clear H. unfold attributes. destruct d; cbn [slc other] in *; injection K as ????; congruence. Qed.
Lemma core_ext d v w : core d v = core d w -> s_extents (slc d v) = s_extents (slc d w).
Proof. intros H. apply core_inv in H. tauto. Qed.
Lemma fit_half d t t' : alike (half d) t t' -> fit d t -> fit d t'.
Proof.
  intros H (F1&F2&F3). unfold fit, plain in *. conj.
  - revert F1. apply (every_alike (half d)); auto. intros v ts v' ts' K F. pose proof (half_inv _ _ _ K) as (_&_&P&_&_&_&SL). unfold plain_here, is_leaf, unguided, aligned, suppressed, fwd, rev_g. rewrite <- P, <- SL.
    destruct (v_placement v); auto. intros [? ->]. inversion F. auto.
  - revert F2. apply (every_alike (half d)); auto. intros v ts v' ts' K F. pose proof (half_inv _ _ _ K) as (_&_&P&_&_&_&SL). unfold lens_here. rewrite (natural_half d (Node v ts) (Node v' ts')) by (apply alike_node; auto).
    unfold clen. rewrite SL. auto.
  - revert F3. apply (every_alike (half d)); auto. intros v ts v' ts' K F. pose proof (half_inv _ _ _ K) as (_&_&P&I&_&SP&SL). unfold sane_here, non_negative, no_reverse_fill, frame, margin, is_leaf. rewrite <- P, <- I, <- SP, <- SL.
    intros [H1 H2]. split; auto. intros A B. specialize (H2 A B). clear - F H2 SL. induction F as [|t t' ts ts' E F IH]; constructor; apply Forall_inv in H2 as H; apply Forall_inv_tail in H2; auto.
    apply alike_root, half_inv in E as (_&_&_&_&_&_&E). unfold alignment_in, align in *. rewrite <- SL, <- E. auto.
Qed.

Theorem adjust_lays rp o n w h t t' ok : sensible_rounding rp -> fit horizontal t -> every good_vertical t -> w = 0 \/ natural horizontal t <= w -> h = 0 \/ natural vertical t' <= h ->
  adjust_layout rp o n w h t = Some (t', ok) -> ok = true /\ adjust_result o w h t t'.
Proof.
  intros RP (F1&F2&F3) GV W H E. unfold adjust_layout in E. destruct (run_slice rp o horizontal n w t) as [[t1 ok1]|] eqn:E1; try discriminate.
  destruct (run_lays _ _ _ _ _ _ _ _ RP F1 F2 F3 W E1) as (->&R1). destruct R1 as [L1 N1 P1 NA1 C1 A1 S1 PL1 LE1 SA1].
  assert (HV1 : alike (half vertical) t1 t) by (revert C1; apply alike_impl; apply (core_half horizontal)).
  assert (GV1 : every good_vertical t1) by (eapply good_vertical_half; [apply alike_sym; exact HV1 | exact GV]).
  assert (X : exists t2, t2 = map_tree calculate_vertical t1) by eauto. destruct X as (t2&E2). rewrite <- E2 in E.
  assert (FV : fit vertical t2) by (subst t2; apply fit_calculate_vertical; auto). destruct FV as (G1&G2&G3).
  destruct (run_slice rp o vertical n h t2) as [[t3 ok2]|] eqn:E3; try discriminate. apply (f_equal (fun x => match x with Some y => y | None => (t', ok) end)) in E.
  pose proof (f_equal fst E) as EA. pose proof (f_equal snd E) as EB. cbn [fst snd] in EA, EB. subst t3. clear E.
  pose proof (run_keeps _ _ _ _ _ _ _ _ G1 G2 E3) as [NV _]. rewrite NV in H.
  destruct (run_lays _ _ _ _ _ _ _ _ RP G1 G2 G3 H E3) as (->&R2). split; [rewrite <- EB; reflexivity|]. destruct R2 as [L2 N2 P2 NA2 C2 A2 S2 PL2 LE2 SA2].
  assert (HH2 : alike (half horizontal) t2 t1) by (subst t2; apply map_tree_alike; apply half_calculate_vertical).
  assert (HH : alike (half horizontal) t' t1) by (eapply alike_trans; [|exact HH2]; revert C2; apply alike_impl; apply (core_half vertical)).
  assert (RH : half horizontal (root t') = half horizontal (root t1)) by (apply alike_root; auto). apply half_inv in RH as (_&_&_&_&_&_&RH). cbn [slc] in RH.
  assert (RV : half vertical (root t1) = half vertical (root t)) by (apply alike_root; auto). apply half_inv in RV as (_&_&_&_&_&_&RV). cbn [slc] in RV.
  constructor; auto.
  - eapply laid_half; [apply alike_sym; exact HH | exact L1].
  - rewrite (natural_half horizontal t' t1 HH), <- N1. unfold plen. cbn [slc]. rewrite RH. reflexivity.
  - unfold ppos in *. cbn [slc] in *. rewrite RH. exact P1.
  - rewrite P2, E2, root_map. unfold ppos. cbn [slc]. rewrite <- RV. unfold calculate_vertical. destruct (measure_vertical _); reflexivity.
  - rewrite (natural_half horizontal t' t1 HH). exact NA1.
  - eapply alike_trans; [apply (alike_impl (core vertical)); [apply core_attributes | exact C2]|]. eapply alike_trans; [|apply (alike_impl (core horizontal)); [apply core_attributes | exact C1]].
    subst t2. apply map_tree_alike. intros v. unfold calculate_vertical. destruct (measure_vertical _); reflexivity.
  - intros [|] a.
    + rewrite (alignments_half horizontal t' t1 a HH). apply A1.
    + rewrite A2. transitivity (alignments vertical a t1); [|apply alignments_half; auto]. apply alignments_alike. subst t2. apply map_tree_alike. intros v. unfold calculate_vertical. destruct (measure_vertical _); reflexivity.
  - eapply (related_trans (fun v v1 => v_placeable v = v_placeable v1 /\ s_extents (v_horizontal v) = s_extents (v_horizontal v1) /\ v_vertical v = v_vertical v1)
             (fun v1 v' => s_extents (v_horizontal v') = s_extents (v_horizontal v1) /\ match measure_vertical (v_placeable v1) with None => s_extents (v_vertical v') = s_extents (v_vertical v1)
                           | Some f => exists p, s_extents (v_vertical v') = f (s_extents (v_horizontal v1), s_extents (v_vertical v1)) (s_place (v_horizontal v'), p) end)).
    + intros v v1 v' (K1&K2&K3) (K4&K5). unfold remeasured. rewrite K1, K2, K3. auto.
    + apply (alike_related (core horizontal)); [|apply alike_sym; exact C1]. intros v v1 K. pose proof (core_ext _ _ _ K). apply core_half, half_inv in K as (K1&_&_&_&_&_&K2). auto.
    + eapply (related_trans (fun v1 v2 => v2 = calculate_vertical v1) (fun v2 v' => v_horizontal v' = v_horizontal v2 /\ s_extents (v_vertical v') = s_extents (v_vertical v2))).
      * intros v1 v2 v' -> (K1&K2). rewrite K1, K2. unfold calculate_vertical. destruct (measure_vertical (v_placeable v1)); split; try reflexivity. eexists. reflexivity.
      * subst t2. apply related_map. reflexivity.
      * rewrite <- E2. apply (alike_related (core vertical)); [|apply alike_sym; exact C2]. intros v v1 K. pose proof (core_ext _ _ _ K). apply core_half, half_inv in K as (K1&_&_&_&_&_&K2). cbn [slc other] in *. auto.
  - eapply related_trans; [|exact S1 | apply (alike_related (half horizontal) (kept_suppressed horizontal)); [|apply alike_sym; exact HH]].
    + intros a b c H1 H2 H3. auto.
    + intros v v' K. apply half_inv in K as (_&_&_&_&_&_&K). unfold kept_suppressed, suppressed. rewrite K. auto.
  - assert (TR : forall a b c, kept_suppressed vertical a b -> kept_suppressed vertical b c -> kept_suppressed vertical a c) by (intros a b c H1 H2 H3; exact (H2 (H1 H3))).
    assert (S12 : related (kept_suppressed vertical) t1 t2) by (subst t2; apply related_map; intros v; unfold kept_suppressed, calculate_vertical; destruct (measure_vertical _); auto).
    assert (S01 : related (kept_suppressed vertical) t t1).
    { apply (alike_related (half vertical)); [|apply alike_sym; exact HV1]. intros v v' K. apply half_inv in K as (_&_&_&_&_&_&K). unfold kept_suppressed, suppressed. rewrite K. auto. }
    exact (related_trans _ _ _ TR _ _ _ S01 (related_trans _ _ _ TR _ _ _ S12 S2)).
  - eapply fit_half; [apply alike_sym; exact HH|]. split; auto.
  - split; auto.
Qed.
