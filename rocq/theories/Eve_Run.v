(** The outsets, the coordinates, a whole run in one direction. *)
From Verif Require Import Prelude Eve_Model Eve_Spec Eve_Base Eve_Adjust Eve_Solve Eve_Layout Eve_Place.
From Coq Require Import List ZArith Lia Bool.
Import ListNotations.
Open Scope Z_scope.
Ltac Zify.zify_post_hook ::= idtac.

Lemma alike_node {B} (g : view -> B) v ts v' ts' : alike g (Node v ts) (Node v' ts') <-> g v = g v' /\ Forall2 (alike g) ts ts'.
Proof.
  unfold alike. cbn [map_tree]. split.
  - intros E. apply Node_inj in E as [K E]. split; auto. revert ts' E. induction ts as [|t ts IH]; intros [|t' ts'] E; try discriminate; constructor.
    + cbn in E. apply cons_inj in E. tauto.
    + apply IH. cbn in E. apply cons_inj in E. tauto.
  - intros [K E]. f_equal; auto. induction E; cbn; f_equal; auto.
Qed.
Lemma alike_root {B} (g : view -> B) t t' : alike g t t' -> g (root t) = g (root t').
Proof. destruct t, t'. intros H. apply alike_node in H. cbn. tauto. Qed.
Lemma alike_impl {B C} (g : view -> B) (h : view -> C) t : (forall v w, g v = g w -> h v = h w) -> forall t', alike g t t' -> alike h t t'.
Proof.
  intros I. induction t as [v ts IH] using tree_ind'. intros [v' ts'] H. apply alike_node in H as [K F]. apply alike_node. split; auto.
  clear - IH F. revert IH. induction F; intros IH; constructor; [apply Forall_inv in IH; auto | apply Forall_inv_tail in IH; auto].
Qed.
Lemma alike_trans {B} (g : view -> B) a b c : alike g a b -> alike g b c -> alike g a c. Proof. unfold alike. congruence. Qed.
Lemma alike_sym {B} (g : view -> B) a b : alike g a b -> alike g b a. Proof. unfold alike. congruence. Qed.
Lemma every_alike {B} (g : view -> B) (P : view -> list (tree view) -> Prop) t :
  (forall v ts v' ts', g v = g v' -> Forall2 (alike g) ts ts' -> P v ts -> P v' ts') -> forall t', alike g t t' -> every P t -> every P t'.
Proof.
  intros I. induction t as [v ts IH] using tree_ind'. intros [v' ts'] H. apply alike_node in H as [K F]. rewrite !every_node. intros [H1 H2]. split; [eauto|].
  clear - IH F H2. revert IH H2. induction F; intros IH H2; constructor; [apply Forall_inv in IH, H2; auto | apply Forall_inv_tail in IH, H2; auto].
Qed.

Lemma alike_related {B} (g : view -> B) (R : view -> view -> Prop) t : (forall v w, g v = g w -> R v w) -> forall t', alike g t t' -> related R t t'.
Proof.
  intros I. induction t as [v ts IH] using tree_ind'. intros [v' ts'] H. apply alike_node in H as [K F]. constructor; auto.
  clear - IH F. revert IH. induction F; intros IH; constructor; [apply Forall_inv in IH; auto | apply Forall_inv_tail in IH; auto].
Qed.
Lemma related_alike {B} (g : view -> B) (R : view -> view -> Prop) t : (forall v w, R v w -> g v = g w) -> forall t', related R t t' -> alike g t t'.
Proof.
  intros I. induction t as [v ts IH] using tree_ind'. intros [v' ts'] H. apply related_inv in H as [K F]. apply alike_node. split; auto.
  clear - IH F. revert IH. induction F; intros IH; constructor; [apply Forall_inv in IH; auto | apply Forall_inv_tail in IH; auto].
Qed.

(** a pass that leaves the children alone *)
Lemma postorder_alike {B} (g : view -> B) f t : (forall v cs, g (fst (f v cs)) = g v /\ snd (f v cs) = cs) -> alike g (postorder f t) t.
Proof.
  intros F. induction t as [v ts IH] using tree_ind'. cbn [postorder]. destruct (F v (map root (map (postorder f) ts))) as [F1 ->]. rewrite set_roots_same.
  apply alike_node. split; auto. clear - IH. induction IH; cbn; constructor; auto.
Qed.

Definition spot (d : slice_select) (v : view) := (rest d v, (ppos d v, plen d v)).
Lemma spot_inv d v w : spot d v = spot d w -> rest d v = rest d w /\ ppos d v = ppos d w /\ plen d v = plen d w.
Proof. unfold spot. intros E. generalize (f_equal fst E) (f_equal (fun x => fst (snd x)) E) (f_equal (fun x => snd (snd x)) E). cbn [fst snd]. auto. Qed.
Lemma rest_look d v w : rest d v = rest d w -> look d v = look d w.
Proof. intros E. apply rest_inv in E as (E&_). apply key_look; auto. Qed.
Lemma laid_spots d t t' : alike (spot d) t t' -> every (laid_at 0 d) t -> every (laid_at 0 d) t'.
Proof.
  apply every_alike. intros v ts v' ts' K F H. apply spot_inv in K as (K1&K2&K3). change 0 with (0 + 0). eapply laid_moved; [apply rest_look; eauto | congruence | | exact H].
  eapply Forall2_impl; [|exact F]. intros a b A. split.
  - apply (alike_impl _ (look d)) in A; auto. intros x y S. apply spot_inv in S as (S&_). apply rest_look; auto.
  - apply alike_root, spot_inv in A as (_&A&B). split; [lia | congruence].
Qed.
Lemma outsets_spot d t : alike (spot d) (postorder (adjust_outsets d) t) t.
Proof.
  apply postorder_alike. intros v cs. unfold adjust_outsets.
  assert (U : forall f, (forall p, p_position (f p) = p_position p /\ p_length (f p) = p_length p) -> spot d (upd d (upd_place f) v) = spot d v).
  { intros f E. unfold spot. rewrite rest_upd. unfold ppos, plen. rewrite slc_upd. cbn [s_place upd_place set_place]. destruct (E (s_place (slc d v))) as (->&->). reflexivity. }
  destruct cs as [|c cs]; cbn [fst snd].
  - split; auto. unfold spot. assert (R : forall o, rest d (upd d (fun s => upd_place (place_outset (o s)) s) v) = rest d v).
    { intros o. unfold rest, key, core, align, suppressed, clen, fwd, rev_g. rewrite !slc_upd, slc_upd_other, placeable_upd, visible_upd, placement_upd, indent_upd, create_upd, spacing_upd, sb_upd. reflexivity. }
    rewrite R. unfold ppos, plen. rewrite slc_upd. reflexivity.
  - destruct (if is_with (v_placement v) d then _ else _) as [a b]. cbn [fst snd]. split; auto.
Qed.

(** ** Coordinates *)
Lemma rest_deliver d v : rest d (deliver_guides d v) = rest d v /\ ppos d (deliver_guides d v) = ppos d v /\ plen d (deliver_guides d v) = plen d v.
Proof.
  unfold deliver_guides. destruct (to_forward _); [|destruct (to_reverse _)]; auto;
  unfold rest, key, core, align, suppressed, clen, fwd, rev_g, ppos, plen; rewrite !slc_upd, slc_upd_other, placeable_upd, visible_upd, placement_upd, indent_upd, create_upd, spacing_upd, sb_upd; auto.
Qed.
Lemma shift_facts d x v : rest d (shift_by d x v) = rest d v /\ ppos d (shift_by d x v) = ppos d v + x /\ plen d (shift_by d x v) = plen d v.
Proof. unfold shift_by. rewrite rest_upd. unfold ppos, plen. rewrite slc_upd. auto. Qed.
Lemma flatten_node o d x v ts : flatten_from o d x (Node v ts) =
  let v' := deliver_guides d (shift_by d x v) in Node v' (map (flatten_from o d (origin o d v')) ts).
Proof. reflexivity. Qed.
Lemma flatten_rest o d t : forall x, alike (rest d) (flatten_from o d x t) t.
Proof.
  induction t as [v ts IH] using tree_ind'. intros x. rewrite flatten_node. cbv zeta. apply alike_node. split.
  - destruct (rest_deliver d (shift_by d x v)) as (->&_). apply shift_facts.
  - generalize (origin o d (deliver_guides d (shift_by d x v))). intros y. clear - IH. induction IH; cbn; constructor; auto.
Qed.
Lemma flatten_moved o d x t : moved d x t (flatten_from o d x t).
Proof.
  split.
  - apply alike_sym. apply (alike_impl (rest d) (look d)); [apply rest_look | apply flatten_rest].
  - destruct t as [v ts]. rewrite flatten_node. cbn [root]. destruct (rest_deliver d (shift_by d x v)) as (_&->&->). apply shift_facts.
Qed.
Lemma flatten_lays o d t : every (laid_at 0 d) t -> forall x, every (laid_out o d) (flatten_from o d x t).
Proof.
  induction t as [v ts IH] using tree_ind'. intros H x. apply every_node in H as [H1 H2]. rewrite flatten_node. cbv zeta. apply every_node. split.
  - set (v' := deliver_guides d (shift_by d x v)). destruct (rest_deliver d (shift_by d x v)) as (R1&R2&R3). destruct (shift_facts d x v) as (S1&S2&S3).
    change (laid_at (0 + origin o d v') d v' (map (flatten_from o d (origin o d v')) ts)). eapply laid_moved; [| | |exact H1].
    + apply rest_look. subst v'. congruence.
    + subst v'. congruence.
    + generalize (origin o d v'). intros y. clear. induction ts; cbn; constructor; auto. apply flatten_moved.
  - generalize (origin o d (deliver_guides d (shift_by d x v))). intros y. clear - IH H2. revert IH. induction H2; intros IH; cbn; constructor; [apply Forall_inv in IH; auto | apply Forall_inv_tail in IH; auto].
Qed.

(** ** The layout pass keeps everything but the places *)
Lemma layout_reverse_rest d rcs : forall gs r p rem done others p' rem', layout_reverse d rcs gs r p rem = Some (done, others, p', rem') ->
  exists pre, rcs = pre ++ others /\ Forall2 (fun c c' => rest d c = rest d c') pre done.
Proof.
  induction rcs as [|c rcs IH]; intros gs r p rem done others p' rem' E; cbn [layout_reverse] in E; [injection E as <- <- _ _; exists []; split; auto|].
  destruct (negb (to_reverse (align d c))); [injection E as <- <- _ _; exists []; split; auto|].
  destruct (match (if suppressed d c then [] else rev_g d c) with [] => _ | _ :: _ => _ end) as [o|]; try discriminate.
  destruct (align d c);
  try (match type of E with context [layout_reverse d rcs ?a ?b ?x ?y] => destruct (layout_reverse d rcs a b x y) as [[[[dn ot] p1] r1]|] eqn:E1; try discriminate end;
    injection E as <- <- _ _; apply IH in E1 as (pre&->&F); exists (c :: pre); split; auto; constructor; auto; symmetry; apply rest_put).
  destruct (p =? 0); try discriminate. match type of E with context [layout_reverse d rcs ?a ?b ?x ?y] => destruct (layout_reverse d rcs a b x y) as [[[[dn ot] p1] r1]|] eqn:E1; try discriminate end.
  injection E as <- <- _ _; apply IH in E1 as (pre&->&F); exists (c :: pre); split; auto; constructor; auto; symmetry; apply rest_put.
Qed.
Lemma layout_forward_rest rp d zero av cs : forall gs len p rem placed, layout_forward rp d zero av cs gs len p rem = Some placed -> Forall2 (fun c c' => rest d c = rest d c') cs placed.
Proof.
  induction cs as [|c cs IH]; intros gs len p rem placed E; cbn [layout_forward] in E; [injection E as <-; constructor|].
  destruct (is_padded (align d c) && (p =? 0)); try discriminate.
  assert (S : forall l x o, option_map (fun done => put d l x c :: done) o = Some placed -> (forall q, o = Some q -> Forall2 (fun c c' => rest d c = rest d c') cs q) -> Forall2 (fun c c' => rest d c = rest d c') (c :: cs) placed).
  { intros l x [q|] H K; cbn in H; try discriminate. injection H as <-. constructor; auto. symmetry. apply rest_put. }
  destruct (align d c); try discriminate.
  - destruct (match (if suppressed d c then [] else fwd d c) with [] => _ | _ :: _ => _ end) as [o|]; try discriminate. eapply S; [exact E | intros; eauto].
  - eapply S; [exact E | intros; eauto].
  - destruct (rp _ _ _); try discriminate. eapply S; [exact E | intros; eauto].
  - destruct (match (if suppressed d c then [] else fwd d c) with [] => _ | _ :: _ => _ end) as [o|]; try discriminate. eapply S; [exact E | intros; eauto].
  - eapply S; [exact E | intros; eauto].
Qed.
Lemma layout_rest rp d v cs vs : layout rp d v cs = Some vs -> Forall2 (fun c c' => rest d c = rest d c') cs vs.
Proof.
  unfold layout. destruct (is_leaf v); [intros E; injection E as <-; apply Forall2_self, Forall_forall; auto|]. destruct (is_with _ _).
  - unfold layout_with. destruct (layout_reverse d (rev cs) _ _ _ _) as [[[[dn ot] p1] r1]|] eqn:E1; try discriminate. apply layout_reverse_rest in E1 as (pre&E1&F1).
    destruct (layout_forward rp d _ _ _ _ _ _ _) as [pl|] eqn:E2; try discriminate. apply layout_forward_rest in E2. intros E. injection E as <-.
    replace cs with (rev ot ++ rev pre) by (rewrite <- rev_app_distr, <- E1; apply rev_involutive). apply Forall2_app; auto. apply Forall2_rev'; auto.
  - unfold layout_cross. intros E. apply all_some_Forall2 in E. eapply Forall2_impl; [|exact E]. cbn. intros c c' H. unfold layout_cross_child in H.
    destruct (align d c); try (injection H as <-; symmetry; apply rest_put);
    match type of H with option_map _ ?o = _ => destruct o; try discriminate; cbn in H; injection H as <-; symmetry; apply rest_put end.
Qed.
Lemma layout_pass_rest rp d t : forall v t', rest d v = rest d (root t) -> preorder_from (layout rp d) t v = Some t' -> alike (rest d) t' t.
Proof.
  induction t as [r ts IH] using tree_ind'. intros v t' RE E. cbn [preorder_from] in E. destruct (layout rp d v (map root ts)) as [vs|] eqn:EL; try discriminate. cbn [option_map] in E.
  destruct (_ ts vs) as [us|] eqn:EG; try discriminate. injection E as <-. apply layout_rest in EL. pose proof (Forall2_length _ _ _ EL) as LEN. rewrite map_length in LEN.
  destruct (go_layout (layout rp d) ts (fun t _ v t' => preorder_root _ t v t') vs us EG LEN) as [G1 G2]. apply alike_node. split; auto. subst vs.
  clear - IH G1 EL. revert IH EL. induction G1 as [|t u ts us H F IHF]; intros IH EL; constructor; inversion EL; subst.
  - apply Forall_inv in IH. eapply IH; [|exact H]. auto.
  - apply Forall_inv_tail in IH. auto.
Qed.

(** ** One direction *)
Lemma lens_adjusted d t t' : adjusted d t t' -> every (lens_here d) t -> every (lens_here d) t'.
Proof.
  apply every_adjusted. intros v ts v' ts' C L _ N _. unfold lens_here. destruct (core_inv _ _ _ C) as (_&_&_&_&_&_&<-). rewrite N, L. auto.
Qed.
Lemma sane_adjusted d t t' : adjusted d t t' -> every (sane_here d) t -> every (sane_here d) t'.
Proof.
  apply every_adjusted. intros v ts v' ts' C L _ N AL. unfold sane_here, non_negative, no_reverse_fill. destruct (core_inv _ _ _ C) as (P&I&_&SP&M&_&X).
  unfold frame. rewrite <- P, <- I, <- SP, <- M, <- X, <- (is_leaf_core _ _ _ C). intros [H1 H2]. split; auto. intros A B. specialize (H2 A B).
  clear - AL H2. induction AL as [|t t' ts ts' E F IH]; constructor; apply Forall_inv in H2 as H; apply Forall_inv_tail in H2; auto. congruence.
Qed.
Lemma sane_keys d t t' : same_keys d t t' -> every (sane_here d) t -> every (sane_here d) t'.
Proof.
  apply (every_alike (key d)). intros v ts v' ts' K F. apply key_inv in K as (C&_). unfold sane_here, non_negative, no_reverse_fill. destruct (core_inv _ _ _ C) as (P&I&_&SP&M&CA&X).
  unfold frame. rewrite <- P, <- I, <- SP, <- M, <- X, <- (is_leaf_core _ _ _ C). intros [H1 H2]. split; auto. intros A B. specialize (H2 A B).
  clear - F H2 CA. induction F as [|t t' ts ts' E F IH]; constructor; apply Forall_inv in H2 as H; apply Forall_inv_tail in H2; auto.
  apply alike_root, key_inv in E as (_&_&E&_). rewrite <- (alignment_in_key d v (root t) v' (root t') CA E). auto.
Qed.

(** what a run keeps: the attributes with the alignments it settles *)
Lemma alignments_adjusted d t : forall t', adjusted d t t' -> forall a b, match align d (root t) with align_default => a | x => x end = match align d (root t') with align_default => b | x => x end -> alignments d a t = alignments d b t'.
Proof.
  induction t as [v ts IH] using tree_ind'. intros t' A a b E. inversion A as [? ? v' ts' C L P SU F]; subst. cbn [alignments root] in *. rewrite E. f_equal. destruct (core_inv _ _ _ C) as (_&_&_&_&_&CA&_).
  clear - IH F CA. revert IH. induction F as [|t t' ts ts' (A1&A2) F IHF]; intros IH; cbn [map]; [reflexivity|]. f_equal; [|apply IHF; apply Forall_inv_tail in IH; auto].
  apply Forall_inv in IH. apply IH; auto. rewrite A2, <- CA. unfold alignment_in. destruct (align d (root t)); auto. destruct (s_child_alignment (slc d v)); auto.
Qed.
Lemma alignments_keys d t : forall t' a, same_keys d t t' -> alignments d a t = alignments d a t'.
Proof.
  induction t as [v ts IH] using tree_ind'. intros [v' ts'] a S. apply same_keys_node in S as [K F]. apply key_inv in K as (C&_&A&_). cbn [alignments]. rewrite A. f_equal. apply core_inv in C as (_&_&_&_&_&->&_).
  clear - IH F. revert IH. induction F; intros IH; cbn [map]; [reflexivity|]. apply Forall_inv in IH as H1. apply Forall_inv_tail in IH. f_equal; auto.
Qed.
Lemma adjusted_core d t : forall t', adjusted d t t' -> alike (core d) t t'.
Proof.
  induction t as [v ts IH] using tree_ind'. intros t' A. inversion A as [? ? v' ts' C L P SU F]; subst. apply alike_node. split; auto.
  clear - IH F. revert IH. induction F as [|t t' ts ts' (A1&A2) F IHF]; intros IH; constructor; [apply Forall_inv in IH; auto | apply Forall_inv_tail in IH; auto].
Qed.

Lemma ready_rest d v ts v' ts' : rest d v = rest d v' -> Forall2 (alike (rest d)) ts ts' -> ready_here d v ts -> ready_here d v' ts'.
Proof.
  intros R F. apply rest_inv in R as (K&_&_&FG&RG). apply key_inv in K as (C&_). unfold ready_here. rewrite <- (is_leaf_core _ _ _ C), <- FG, <- RG. destruct (core_inv _ _ _ C) as (P&_&_&SP&_&CA&_).
  destruct (is_leaf v); [intros ->; inversion F; auto|]. intros (H1&H2&H3&H4). rewrite <- P. unfold last_gap. rewrite <- SP. conj; auto.
  - clear - CA F H1. induction F as [|t t' ts ts' E F IH]; constructor; apply Forall_inv in H1 as H; apply Forall_inv_tail in H1; auto.
    apply alike_root in E. apply rest_inv in E as (K&_&_&E1&E2). apply key_inv in K as (_&_&A&S). unfold quiet in *. rewrite <- (alignment_in_key d v (root t) v' (root t') CA A), <- A, <- S, <- E1, <- E2. exact H.
  - intros W. specialize (H4 W). rewrite <- (Forall2_length _ _ _ F). unfold last_gap in H4. rewrite <- H4. clear - F. induction F as [|t t' ts ts' E F IH]; cbn; f_equal; auto.
    apply alike_root in E. apply rest_inv in E as (K&_). apply key_inv in K as (_&S&_). auto.
Qed.
Lemma plain_ready d t : forall t1 t', plain d t -> adjusted d t t1 -> same_keys d t' t1 -> (is_leaf (root t) = true -> quiet d (root t')) -> ready d t' -> plain d t'.
Proof.
  induction t as [v ts IH] using tree_ind'. intros t1 [v' ts'] P A K Q R. inversion A as [? ? v1 ts1 C L PP SU F]; subst. apply same_keys_node in K as [K KF]. apply key_inv in K as (C'&_&_&SS).
  assert (CC : core d v = core d v') by congruence. apply every_node in P as [P1 P2]. apply every_node in R as [R1 R2]. apply every_node. cbn [root] in *. split.
  - unfold plain_here in *. unfold ready_here in R1. rewrite <- (is_leaf_core _ _ _ CC) in *. destruct (core_inv _ _ _ CC) as (_&_&_&_&_&CA&X). destruct (is_leaf v).
    + split; auto. destruct P1 as [U _]. specialize (Q eq_refl). unfold unguided in *. rewrite <- X. destruct U as [U | (U&_)].
      * left. rewrite SS. auto.
      * destruct Q as [Q | [Q1 Q2]]; auto.
    + unfold aligned in *. rewrite <- CA. auto.
  - unfold ready_here in R1. rewrite <- (is_leaf_core _ _ _ CC) in R1. destruct (is_leaf v) eqn:LF; [subst; constructor|]. destruct R1 as (R1&_).
    clear - IH F KF P2 R1 R2. revert ts' KF IH P2 R1 R2. induction F as [|t t1 ts ts1 (A1&_) F IHF]; intros [|t' ts'] KF IH P2 R1 R2; inversion KF; subst; constructor.
    + apply Forall_inv in IH, P2, R1, R2. eapply IH; eauto. intros _. apply R1.
    + apply Forall_inv_tail in IH, P2, R1, R2. auto.
Qed.

Definition kept_suppressed (d : slice_select) (v v' : view) : Prop := suppressed d v = true -> suppressed d v' = true.
Lemma adjusted_suppressed d t : forall t', adjusted d t t' -> related (kept_suppressed d) t t'.
Proof.
  induction t as [v ts IH] using tree_ind'. intros t' A. inversion A as [? ? v' ts' C L P SU F]; subst. constructor; auto.
  clear - IH F. revert IH. induction F as [|t t' ts ts' (A1&A2) F IHF]; intros IH; constructor; [apply Forall_inv in IH; auto | apply Forall_inv_tail in IH; auto].
Qed.

Record run_result (o : options) (d : slice_select) (w : Z) (t t' : tree view) : Prop := {
  rr_laid : every (laid_out o d) t';
  rr_length : plen d (root t') = if w =? 0 then natural d t' else w;
  rr_position : ppos d (root t') = ppos d (root t);
  rr_natural : natural d t' = natural d t;
  rr_core : alike (core d) t' t;
  rr_alignments : forall a, alignments d a t' = alignments d a t;
  rr_suppressed : related (kept_suppressed d) t t';
  rr_plain : plain d t';
  rr_lens : every (lens_here d) t';
  rr_sane : every (sane_here d) t' }.

Theorem run_lays rp o d n w t t' ok : sensible_rounding rp -> plain d t -> every (lens_here d) t -> every (sane_here d) t -> w = 0 \/ natural d t <= w ->
  run_slice rp o d n w t = Some (t', ok) -> ok = true /\ run_result o d w t t'.
Proof.
  intros RP PL LE SA W E. unfold run_slice in E. destruct (adjust_pass d t PL) as (R1&A1&K1&Q1). set (t1 := postorder (adjust d) t) in *. clearbody t1.
  assert (L1 := lens_adjusted _ _ _ A1 LE). assert (S1 := sane_adjusted _ _ _ A1 SA). pose proof (natural_adjusted _ _ _ A1) as N1.
  destruct (solve_plain d n t1 R1 L1) as (OK&K2&R2&S2&P2&RL2). set (r := solve d n t1) in *. clearbody r. destruct r as [t2 pr]. cbn [fst snd] in *. subst pr.
  assert (N2 : natural d t2 = natural d t1) by (apply natural_keys; auto).
  destruct (layout_pass rp d w t2) as [t3|] eqn:EL; try discriminate. apply (f_equal (fun x => match x with Some y => y | None => (t', ok) end)) in E.
  pose proof (f_equal fst E) as E1. pose proof (f_equal snd E) as E2. cbn [fst snd] in E1, E2. clear E. split; [rewrite <- E2; reflexivity|].
  unfold layout_pass in EL. set (l := if w =? 0 then _ else _) in *. set (v0 := upd d (upd_place (place_length l)) (root t2)) in *.
  assert (LN : natural d t2 <= l). { subst l. destruct (Z.eqb_spec w 0); [rewrite (solved_clen d t2 S2); lia|]. destruct W; lia. }
  assert (PV : plen d v0 = l /\ ppos d v0 = ppos d (root t2)) by (subst v0; unfold plen, ppos; rewrite slc_upd; auto). destruct PV as [PV1 PV2].
  assert (SN2 : every (sane_here d) t2) by (eapply sane_keys; [apply same_keys_sym; exact K2 | exact S1]).
  destruct (layout_lays rp d t2 RP R2 S2 SN2 v0 t3 (rest_upd _ _ _) ltac:(lia) EL) as (RT&K3&LAID).
  assert (K3' := layout_pass_rest rp d t2 v0 t3 (rest_upd _ _ _) EL).
  assert (SP : alike (spot d) t3 (postorder (adjust_outsets d) t3)) by (apply alike_sym, outsets_spot).
  apply (laid_spots _ _ _ SP) in LAID. set (t4 := postorder (adjust_outsets d) t3) in *. clearbody t4.
  unfold flatten in E1. assert (FL := flatten_lays o d t4 LAID 0). destruct (flatten_moved o d 0 t4) as (_&M2&M3). pose proof (flatten_rest o d t4 0) as FR. rewrite E1 in *.
  assert (AR : alike (rest d) t3 t4) by (apply (alike_impl _ (rest d)) in SP; auto; intros x y H; apply spot_inv in H; tauto).
  pose proof (alike_root _ _ _ SP) as SPR. apply spot_inv in SPR as (_&SPP&SPL). rewrite RT in SPP, SPL.
  assert (AR2 : alike (rest d) t' t3) by (eapply alike_trans; [exact FR | apply alike_sym; exact AR]).
  assert (KK : same_keys d t' t3) by (apply (alike_impl (rest d) (key d)); [intros x y H; apply rest_inv in H; tauto | exact AR2]).
  assert (KK1 : same_keys d t' t1) by (eapply same_keys_trans; [exact KK | eapply same_keys_trans; [exact K3 | exact K2]]).
  assert (NN : natural d t' = natural d t) by (rewrite (natural_keys _ _ _ KK1); exact N1).
  assert (PW : plen d (root t') = if w =? 0 then natural d t' else w).
  { rewrite M3, <- SPL, PV1. subst l. rewrite NN, <- N1, <- N2. rewrite (solved_clen d t2 S2). reflexivity. }
  constructor; auto.
  - rewrite M2, <- SPP, PV2. unfold ppos. rewrite P2. assert (AP : s_place (slc d (root t)) = s_place (slc d (root t1))) by (clear - A1; destruct A1; assumption). rewrite AP. lia.
  - eapply alike_trans; [|apply alike_sym, adjusted_core; exact A1]. apply (alike_impl (key d) (core d)); auto. intros x y H. apply key_inv in H. tauto.
  - intros a. rewrite (alignments_keys d t' t1 a KK1). symmetry. apply alignments_adjusted; auto. apply key_inv in K1 as (_&_&->&_). reflexivity.
  - eapply related_trans; [|apply adjusted_suppressed; exact A1 | apply (alike_related (key d) (kept_suppressed d)); [|apply same_keys_sym; exact KK1]].
    + intros a b c H1 H2 H. auto.
    + intros v v' H. apply key_inv in H as (_&_&_&H). unfold kept_suppressed. congruence.
  - (* plain *)
    assert (RD : every (ready_here d) t') by (eapply (every_alike (rest d)); [|apply alike_sym; eapply alike_trans; [exact AR2 | exact K3'] | exact R2]; intros v ts v' ts'; apply ready_rest).
    eapply plain_ready; [exact PL | exact A1 | exact KK1 | | exact RD]. intros LF. rewrite LF in Q1.
    assert (RR : rest d (root t') = rest d (root t2)) by (transitivity (rest d (root t3)); [apply alike_root; auto|rewrite RT; apply rest_upd]).
    apply rest_inv in RR as (KR&_&_&RR1&RR2). apply key_inv in KR as (_&_&_&SU). rewrite (RL2 ltac:(rewrite Q1; exact LF)), Q1 in *.
    destruct t as [v ts]. apply every_node in PL as [PH _]. unfold plain_here in PH. cbn [root] in *. rewrite LF in PH. destruct PH as [[U | (_&U1&U2)] _]; [left; congruence | right; split; congruence].
  - eapply (every_alike (rest d)); [|apply alike_sym; eapply alike_trans; [exact AR2 | exact K3'] | apply solved_lens; exact S2].
    intros v ts v' ts' R F. unfold lens_here. assert (KE : same_keys d (Node v ts) (Node v' ts')).
    { apply same_keys_node. apply rest_inv in R as (R&_). split; auto. eapply Forall2_impl; [|exact F]. intros a b H. apply (alike_impl _ (key d)) in H; auto. intros x y Hx. apply rest_inv in Hx. tauto. }
    rewrite (natural_keys _ _ _ KE). apply rest_inv in R as (K&->&_). apply key_inv in K as (C&_). apply core_inv in C as (_&_&_&_&_&_&->). auto.
  - eapply sane_keys; [apply same_keys_sym; exact KK1 | exact S1].
Qed.
