(** Sessions: evaluate and adjust again and again, with views hidden and shown in between. *)
From Verif Require Import Prelude Eve_Model Eve_Spec Eve_Base Eve_Adjust Eve_Solve Eve_Layout Eve_Place Eve_Run Eve_Total Eve_Whole Eve_Session Eve_Succeeds.
From Coq Require Import List ZArith Lia Bool.
Import ListNotations.
Open Scope Z_scope.
Ltac Zify.zify_post_hook ::= idtac.

Lemma all_contained o d t : every (formed d) t -> every (laid_out o d) t -> natural d t <= plen d (root t) -> every (contained o d) t.
Proof.
  induction t as [v ts IH] using tree_ind'. rewrite !every_node. intros [F FS] [L LS] N. cbn [root] in N. cbn [natural] in N. change (content d v (map (fun t => (root t, natural d t)) ts)) with (content_of d v ts) in N.
  assert (C : contained o d v ts).
  { apply laid_contained; auto.
    - eapply Forall_impl; [|exact FS]. intros [c cs]. rewrite every_node. intros [(_&_&I&_) _]. exact I.
    - intros LF. rewrite LF in N. lia. }
  split; auto. destruct (is_leaf v) eqn:LF.
  - destruct F as (_&_&_&_&F5&_). rewrite LF in F5. destruct F5 as [-> _]. constructor.
  - assert (NS : Forall (fun t => natural d t <= plen d (root t)) ts).
    { unfold contained in C. rewrite LF in C. destruct (is_with (v_placement v) d).
      - revert C. generalize (origin o d v + near d v) (v_spacing v). clear. induction ts as [|t ts IH]; intros lo sp C; constructor; cbn [in_order] in C; destruct C as (_&C1&C2); eauto.
      - eapply Forall_impl; [|exact C]. cbn beta. tauto. }
    rewrite Forall_forall in *. intros t Ht. apply IH; auto.
Qed.

(** a good form is good whatever is shown *)
Lemma visible_inv v w : set_visible true v = set_visible true w -> v_placeable v = v_placeable w /\ v_placement v = v_placement w /\ v_indent v = v_indent w /\ v_create v = v_create w /\ v_spacing v = v_spacing w /\ forall d, slc d v = slc d w.
Proof.
  intros E. generalize (f_equal v_placeable E) (f_equal v_placement E) (f_equal v_indent E) (f_equal v_create E) (f_equal v_spacing E) (f_equal v_horizontal E) (f_equal v_vertical E). cbn. intros. conj; auto. intros [|]; auto.
Qed.
Lemma formed_shown d v ts v' ts' : set_visible true v = set_visible true v' -> Forall2 (alike (set_visible true)) ts ts' -> formed d v ts -> formed d v' ts'.
Proof.
  intros E F (F1&F2&F3&F4&F5&F6). apply visible_inv in E as (_&P&I&_&S&SL). specialize (SL d). unfold formed, margin, suppressed, fwd, rev_g, aligned, no_reverse_fill, is_leaf, alignment_in, align in *. rewrite <- P, <- I, <- S, <- SL. conj; auto.
  - destruct (v_placement v); auto. destruct F5 as [-> F5]. inversion F; subst. auto.
  - intros LF W. specialize (F6 LF W). clear - F F6. induction F as [|t t' ts ts' H F IH]; constructor; apply Forall_inv in F6 as H6; apply Forall_inv_tail in F6; auto.
    apply alike_root, visible_inv in H as (_&_&_&_&_&H). rewrite <- (H d). exact H6.
Qed.
Lemma good_shown t t' : alike (set_visible true) t t' -> every good_form t -> every good_form t'.
Proof.
  apply every_alike. intros v ts v' ts' E F (F1&F2&M1&M2&M3). split; [eapply formed_shown; eauto|]. split; [eapply formed_shown; eauto|]. apply visible_inv in E as (P1&P2&_&_&_&SL).
  unfold measurable, measured_well, is_leaf, suppressed in *. rewrite <- P1, <- P2, <- !SL. tauto.
Qed.

Lemma displayed_of o w h t : every good_form t -> every (laid_out o horizontal) t -> every (laid_out o vertical) t ->
  plen horizontal (root t) = (if w =? 0 then natural horizontal t else w) -> plen vertical (root t) = (if h =? 0 then natural vertical t else h) -> big_enough horizontal w t -> big_enough vertical h t ->
  every (fun v _ => measured_from_width v) t -> displayed o w h t.
Proof.
  intros G LH LV EW EH W H M. constructor; auto; [|intros [|]; auto].
  intros [|]; apply all_contained; auto; try (eapply every_impl; [|exact G]; unfold good_form; tauto); [rewrite EW | rewrite EH]; unfold big_enough in *; destruct (Z.eqb_spec w 0), (Z.eqb_spec h 0); lia.
Qed.
Lemma well_from_width t : every (fun v _ => well_measured v) t -> every (fun v _ => measured_from_width v) t.
Proof. apply every_impl. intros v _ [H1 H2]. split; auto. destruct (measure_vertical (v_placeable v)); auto. destruct H2 as (p&H2). exists (snd (measure (v_placeable v))), p. rewrite H2. rewrite <- surjective_pairing. reflexivity. Qed.
Lemma remeasured_from_width t t' : alike attributes t' t -> related remeasured t t' -> every (fun v _ => measured_from_width v) t -> every (fun v _ => measured_from_width v) t'.
Proof.
  intros A R M. assert (P : related (fun v v' => v_placeable v' = v_placeable v) t t') by (apply (alike_related attributes); [intros v v' K; apply attributes_inv in K; symmetry; tauto | apply alike_sym; assumption]).
  eapply related_every; [|exact (related_and _ _ _ _ P R) | exact M]. cbn beta. intros v ts v' ts' [PP [X1 X2]] [M1 M2]. unfold measured_from_width. rewrite PP, X1, M1. split; auto.
  destruct (measure_vertical (v_placeable v)); [|congruence]. destruct X2 as (p&X2). exists (s_extents (v_vertical v)), p. rewrite X2, M1. reflexivity.
Qed.

Theorem session_good rp t s : sensible_rounding rp -> session rp t s ->
  every good_form t /\ match s with None => True | Some (o, w, h) => displayed o w h (visible_part t) /\ fit horizontal (visible_part t) /\ every good_vertical (visible_part t) end.
Proof.
  intros RP S. induction S as [t G | t s t' S [IH _] V | o w h t s t' ok S [IH _] W H E | o w h t [[o0 w0] h0] t' ok S (IH&D&F&G) W H E]; auto.
  - split; auto. eapply good_shown; [apply alike_sym; exact V | exact IH].
  - destruct (evaluate_lays _ _ _ _ _ _ _ RP IH W H E) as (_&EV&_&GF&FH&GV). conj; auto. destruct EV. apply displayed_of; auto; [apply good_visible; auto | apply well_from_width; auto].
  - destruct (resize_lays _ _ _ _ _ _ _ RP IH F G W H E) as (_&AR&_&GF&FH&GV). conj; auto. destruct AR. apply displayed_of; auto; [apply good_visible; auto|]. eapply remeasured_from_width; eauto. destruct D; auto.
Qed.
(** one more step: what it keeps *)
Theorem session_step rp t s o w h t' ok : sensible_rounding rp -> session rp t s -> big_enough horizontal w (visible_part t') -> big_enough vertical h (visible_part t') ->
  evaluate rp o w h t = Some (t', ok) \/ (s <> None /\ resize rp o w h t = Some (t', ok)) ->
  ok = true /\ session rp t' (Some (o, w, h)) /\ alike attributes (visible_part t') (visible_part t) /\ (forall d a, alignments d a (visible_part t') = alignments d a (visible_part t)) /\ hidden t' = hidden t /\
  forall d, ppos d (root t') = ppos d (root t).
Proof.
  intros RP S W H E. destruct (session_good _ _ _ RP S) as [G D]. destruct E as [E | [N E]].
  - destruct (evaluate_lays _ _ _ _ _ _ _ RP G W H E) as (OK&EV&HI&_&_&_). destruct EV. conj; auto; [eapply session_evaluated; eauto|]. intros d. rewrite <- (root_visible t'), <- (root_visible t). auto.
  - destruct s as [[[o0 w0] h0]|]; [|congruence]. destruct D as (D&F&GV). destruct (resize_lays _ _ _ _ _ _ _ RP G F GV W H E) as (OK&AR&HI&_&_&_). destruct AR. conj; auto; [eapply session_resized; eauto|].
    intros d. rewrite <- (root_visible t'), <- (root_visible t). destruct d; auto.
Qed.
