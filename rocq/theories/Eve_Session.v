(** evaluate and adjust over the tree of all views, one after the other. *)
From Verif Require Import Prelude Eve_Model Eve_Spec Eve_Base Eve_Adjust Eve_Solve Eve_Layout Eve_Place Eve_Run Eve_Total Eve_Whole.
From Coq Require Import List ZArith Lia Bool.
Import ListNotations.
Open Scope Z_scope.
Ltac Zify.zify_post_hook ::= idtac.

(** ** The form stays good *)
Lemma attributes_inv v w : attributes v = attributes w -> v_placeable v = v_placeable w /\ v_visible v = v_visible w /\ v_placement v = v_placement w /\ v_indent v = v_indent w /\ v_create v = v_create w /\ v_spacing v = v_spacing w /\
  forall d, margin d v = margin d w /\ s_child_alignment (slc d v) = s_child_alignment (slc d w).
Proof.
  unfold attributes. intros E.
  generalize (f_equal (fun x => fst (fst (fst (fst (fst (fst (fst x))))))) E) (f_equal (fun x => snd (fst (fst (fst (fst (fst (fst x))))))) E) (f_equal (fun x => snd (fst (fst (fst (fst (fst x)))))) E)
    (f_equal (fun x => snd (fst (fst (fst (fst x))))) E) (f_equal (fun x => snd (fst (fst (fst x)))) E) (f_equal (fun x => snd (fst (fst x))) E) (f_equal (fun x => snd (fst x)) E) (f_equal snd E). cbn [fst snd].
  intros A B C D F G H I. conj; auto. intros d. unfold margin. destruct d; cbn [slc]; injection H as ???; injection I as ???; auto.
Qed.
Lemma fit_formed d t : fit d t -> every (formed d) t.
Proof.
  intros (F1&_&F3). eapply every_impl; [|exact (every_and _ _ _ F1 F3)]. cbn beta. intros v ts [P ((N1&N2&N3&N4&N5&N6&N7)&NR)]. unfold formed. conj; auto.
  unfold plain_here, unguided in P. destruct (is_leaf v); auto. destruct P as [P ->]. tauto.
Qed.
Definition passed (v v' : view) : Prop := attributes v' = attributes v /\ kept_suppressed horizontal v v' /\ kept_suppressed vertical v v'.
Lemma measured_kept d v v' e : attributes v' = attributes v -> kept_suppressed d v v' -> measured_well d v e -> measured_well d v' e.
Proof. intros A K (M1&M2&M3&M4). apply attributes_inv in A as (_&_&P&_). unfold measured_well, is_leaf in *. rewrite P. conj; auto. intros L. destruct (M4 L); auto. Qed.
Lemma measurable_passed v v' : passed v v' -> measurable v -> measurable v'.
Proof.
  intros (A&K1&K2) (M1&M2&M3). pose proof (attributes_inv _ _ A) as (P&_). unfold measurable. rewrite P. conj; [eapply measured_kept; eauto | eapply measured_kept; eauto|].
  intros f E e p. eapply measured_kept; eauto.
Qed.
Lemma adjust_passed o w h t t' : adjust_result o w h t t' -> related passed t t'.
Proof.
  intros []. assert (R : related (fun v v' => attributes v' = attributes v) t t') by (apply (alike_related attributes); [auto | apply alike_sym; assumption]).
  eapply related_impl; [|exact (related_and _ _ _ _ R (related_and _ _ _ _ ar_suppressed_h ar_suppressed_v))]. cbn beta. unfold passed. tauto.
Qed.

Lemma good_calculate t : every good_form t -> every good_form (map_tree calculate t).
Proof. apply every_map. intros v ts (F1&F2&M). split; [apply formed_calculate; auto|]. split; [apply formed_calculate; auto|]. exact M. Qed.
Lemma good_vertical_calculate t : every good_form t -> every good_vertical (map_tree calculate t).
Proof. apply every_map. intros v ts (F1&F2&(M1&M2&M3)). split; [apply formed_calculate; auto|]. split; auto. Qed.
Lemma good_after o w h t t' : adjust_result o w h t t' -> every good_form t -> every good_form t'.
Proof.
  intros R G. pose proof (adjust_passed _ _ _ _ _ R) as P. assert (M : every (fun v _ => measurable v) t') by (eapply related_every; [|exact P | exact G]; cbn beta; intros v ts v' ts' PA (_&_&M); eapply measurable_passed; eauto).
  destruct R. eapply every_impl; [|exact (every_and _ _ _ (fit_formed _ _ ar_fit_h) (every_and _ _ _ (fit_formed _ _ ar_fit_v) M))]. cbn beta. unfold good_form. tauto.
Qed.
Lemma good_vertical_after o w h t t' : adjust_result o w h t t' -> every good_vertical t -> every good_vertical t'.
Proof.
  intros R G. pose proof (adjust_passed _ _ _ _ _ R) as P. destruct R.
  assert (M : every (fun v _ => (forall f, measure_vertical (v_placeable v) = Some f -> forall e p, measured_well vertical v (f e p)) /\ (measure_vertical (v_placeable v) = None -> measured_well vertical v (s_extents (slc vertical v)))) t').
  { eapply related_every; [|exact (related_and _ _ _ _ P ar_extents) | exact G]. cbn beta. intros v ts v' ts' [(A&K1&K2) [_ X]] (_&M1&M2). pose proof (attributes_inv _ _ A) as (PP&_). rewrite PP. split.
    - intros f E e p. eapply measured_kept; eauto.
    - intros E. rewrite E in X. cbn [slc]. rewrite X. eapply measured_kept; eauto. }
  eapply every_impl; [|exact (every_and _ _ _ (fit_formed _ _ ar_fit_v) M)]. cbn beta. unfold good_vertical. tauto.
Qed.

(** ** evaluate on the visible part *)

Lemma calculate_attributes t : alike attributes (map_tree calculate t) t.
Proof. apply map_tree_alike. reflexivity. Qed.
Lemma calculate_alignments d a t : alignments d a (map_tree calculate t) = alignments d a t.
Proof. apply alignments_alike. apply map_tree_alike. destruct d; reflexivity. Qed.
Lemma adjust_attributes rp o n w h c t' ok : fit horizontal c -> every good_vertical c -> adjust_layout rp o n w h c = Some (t', ok) -> alike attributes t' c /\ natural horizontal t' = natural horizontal c.
Proof.
  intros (F1&F2&F3) GV E. unfold adjust_layout in E. destruct (run_slice rp o horizontal n w c) as [[t1 ok1]|] eqn:E1; try discriminate. destruct (run_keeps _ _ _ _ _ _ _ _ F1 F2 E1) as [N1 C1].
  assert (GV1 : every good_vertical t1) by (apply (good_vertical_half c t1); [apply alike_sym, (alike_impl (core horizontal)); [apply (core_half horizontal) | exact C1] | exact GV]). destruct (fit_calculate_vertical _ GV1) as (V1&V2&V3).
  destruct (run_slice rp o vertical n h (map_tree calculate_vertical t1)) as [[t3 ok2]|] eqn:E3; try discriminate. apply (f_equal (fun x => match x with Some y => fst y | None => t' end)) in E. cbn [fst] in E. subst t3.
  destruct (run_keeps _ _ _ _ _ _ _ _ V1 V2 E3) as [_ C2]. split.
  - eapply alike_trans; [apply (alike_impl (core vertical)); [apply core_attributes | exact C2]|]. eapply alike_trans; [|apply (alike_impl (core horizontal)); [apply core_attributes | exact C1]].
    apply map_tree_alike. intros v. unfold calculate_vertical. destruct (measure_vertical _); reflexivity.
  - rewrite <- N1. rewrite <- (natural_half horizontal (map_tree calculate_vertical t1) t1) by (apply map_tree_alike; apply half_calculate_vertical).
    apply natural_half. revert C2. apply alike_impl. apply (core_half vertical).
Qed.
Lemma evaluate_attributes rp o n w h t t' ok : every good_form t -> evaluate_visible rp o n w h t = Some (t', ok) -> alike attributes t' (map_tree calculate t).
Proof. intros G E. unfold evaluate_visible in E. apply adjust_attributes in E; [tauto | apply fit_calculate; auto | apply good_vertical_calculate; auto]. Qed.
Theorem evaluate_visible_lays rp o n w h t t' ok : sensible_rounding rp -> every good_form t -> w = 0 \/ natural horizontal t' <= w -> h = 0 \/ natural vertical t' <= h ->
  evaluate_visible rp o n w h t = Some (t', ok) -> ok = true /\ evaluated o w h t t' /\ every good_form t' /\ fit horizontal t' /\ every good_vertical t'.
Proof.
  intros RP G W H E. unfold evaluate_visible in E. pose proof (fit_calculate t G) as FC. pose proof (good_vertical_calculate t G) as GV. pose proof (good_calculate t G) as GC.
  pose proof (calculate_attributes t) as CA. pose proof (fun d a => calculate_alignments d a t) as CL.
  assert (CM : every (fun v _ => (s_extents (v_horizontal v), s_extents (v_vertical v)) = measure (v_placeable v)) (map_tree calculate t)).
  { eapply (every_map _ _ (fun _ _ => True)); [|clear; induction t as [v ts IH] using tree_ind'; apply every_node; auto]. intros v ts _. cbn. destruct (measure (v_placeable v)); reflexivity. }
  assert (CP : forall d, ppos d (root (map_tree calculate t)) = ppos d (root t)) by (intros d; rewrite root_map; destruct d; reflexivity).
  set (c := map_tree calculate t) in *. clearbody c.
  assert (WH : w = 0 \/ natural horizontal c <= w).
  { destruct (adjust_attributes _ _ _ _ _ _ _ _ FC GV E) as [_ <-]. exact W. }
  destruct (adjust_lays _ _ _ _ _ _ _ _ RP FC GV WH H E) as (OK&R). split; auto. pose proof (good_after _ _ _ _ _ R GC). pose proof (good_vertical_after _ _ _ _ _ R GV). destruct R. split; [|auto]. constructor; auto.
  - intros [|]; [rewrite ar_position_h | rewrite ar_position_v]; apply CP.
  - eapply alike_trans; eauto.
  - intros d a. rewrite ar_alignments. apply CL.
  - assert (P : related (fun v v' => v_placeable v' = v_placeable v) c t') by (apply (alike_related attributes); [intros v v' K; apply attributes_inv in K; symmetry; tauto | apply alike_sym; assumption]).
    eapply related_every; [|exact (related_and _ _ _ _ P ar_extents) | exact CM]. cbn beta. intros v ts v' ts' [PP [X1 X2]] M. unfold well_measured. rewrite PP, X1, <- M. split; [reflexivity|].
    destruct (measure_vertical (v_placeable v)); [|rewrite X2; reflexivity]. destruct X2 as (p&X2). exists p. rewrite X2. reflexivity.
Qed.

(** ** All views *)
Lemma visible_node v ts : visible_part (Node v ts) = Node v (map visible_part (filter (fun t => v_visible (root t)) ts)).
Proof. cbn [visible_part]. f_equal. induction ts as [|t ts IH]; auto. cbn [map filter]. cbn [fst]. destruct (v_visible (root t)); cbn [map snd]; rewrite IH; reflexivity. Qed.
Fixpoint merges (ts ns : list (tree view)) : list (tree view) :=
  match ts with
  | [] => []
  | t :: ts' => if v_visible (root t) then match ns with n :: ns' => merge_visible t n :: merges ts' ns' | [] => t :: merges ts' [] end else t :: merges ts' ns
  end.
Lemma merge_node v ts n : merge_visible (Node v ts) n = Node (root n) (merges ts (kids n)).
Proof. reflexivity. Qed.
Lemma root_merge t n : root (merge_visible t n) = root n.
Proof. destruct t. rewrite merge_node. reflexivity. Qed.
Lemma attributes_visible v w : attributes v = attributes w -> v_visible v = v_visible w.
Proof. intros H. apply attributes_inv in H. tauto. Qed.
Lemma root_visible t : root (visible_part t) = root t.
Proof. destruct t. rewrite visible_node. reflexivity. Qed.

Lemma merge_visible_part t : forall n, alike attributes n (visible_part t) -> visible_part (merge_visible t n) = n.
Proof.
  induction t as [v ts IH] using tree_ind'. intros [w ns] A. rewrite visible_node in A. apply alike_node in A as [_ F]. rewrite merge_node, visible_node. cbn [root kids]. f_equal.
  revert ns F. induction ts as [|t ts IHts]; intros ns F; cbn [filter map merges] in *; [inversion F; reflexivity|].
  apply Forall_inv in IH as IH1. apply Forall_inv_tail in IH. destruct (v_visible (root t)) eqn:V.
  - cbn [map] in F. inversion F as [|n ? ns' ? A F']; subst. cbn [filter]. rewrite root_merge.
    assert (VN : v_visible (root n) = true) by (rewrite <- V, <- (root_visible t); apply attributes_visible, alike_root; exact A). rewrite VN. cbn [map]. rewrite (IH1 n A), (IHts IH ns' F'). reflexivity.
  - cbn [filter]. rewrite V. apply IHts; auto.
Qed.
Lemma merge_hidden t : forall n, alike attributes n (visible_part t) -> hidden (merge_visible t n) = hidden t.
Proof.
  induction t as [v ts IH] using tree_ind'. intros [w ns] A. rewrite visible_node in A. apply alike_node in A as [_ F]. rewrite merge_node. cbn [hidden kids].
  revert ns F. induction ts as [|t ts IHts]; intros ns F; cbn [filter map merges flat_map] in *; auto.
  apply Forall_inv in IH as IH1. apply Forall_inv_tail in IH. destruct (v_visible (root t)) eqn:V.
  - cbn [map] in F. inversion F as [|n ? ns' ? A F']; subst. cbn [flat_map]. rewrite root_merge.
    assert (VN : v_visible (root n) = true) by (rewrite <- V, <- (root_visible t); apply attributes_visible, alike_root; exact A). rewrite VN. rewrite (IH1 n A), (IHts IH ns' F'). reflexivity.
  - cbn [flat_map]. rewrite V. f_equal. apply IHts; auto.
Qed.
Lemma every_visible (P : view -> list (tree view) -> Prop) t : (forall v ts, P v ts -> P v (map visible_part (filter (fun t => v_visible (root t)) ts))) -> every P t -> every P (visible_part t).
Proof.
  intros H. induction t as [v ts IH] using tree_ind'. intros E. apply every_node in E as [E1 E2]. rewrite visible_node. apply every_node. split; auto.
  clear - IH E2. revert IH. induction E2 as [|t ts E E2 IHts]; intros IH; cbn [filter]; [constructor|]. apply Forall_inv in IH as IH1. apply Forall_inv_tail in IH. destruct (v_visible (root t)); cbn [map]; auto.
Qed.
Lemma formed_visible d v ts : formed d v ts -> formed d v (map visible_part (filter (fun t => v_visible (root t)) ts)).
Proof.
  intros (F1&F2&F3&F4&F5&F6). unfold formed. conj; auto.
  - destruct (is_leaf v); auto. destruct F5 as [-> F5]. auto.
  - intros A B. specialize (F6 A B). rewrite Forall_map. clear - F6. induction F6 as [|t ts H F IH]; cbn [filter]; [constructor|]. destruct (v_visible (root t)); auto. constructor; auto. rewrite root_visible. exact H.
Qed.
Lemma good_visible t : every good_form t -> every good_form (visible_part t).
Proof. apply every_visible. intros v ts (F1&F2&M). split; [apply formed_visible; auto|]. split; [apply formed_visible; auto|auto]. Qed.
Lemma formed_merge d v ts w ns : attributes w = attributes v -> Forall2 (alike attributes) ns (map visible_part (filter (fun t => v_visible (root t)) ts)) -> formed d v ts -> formed d w ns -> formed d w (merges ts ns).
Proof.
  intros A F (F1&F2&F3&F4&F5&F6) (G1&G2&G3&G4&G5&G6). pose proof (attributes_inv _ _ A) as (_&_&P&_&_&_&AD). destruct (AD d) as [_ CA]. unfold formed. conj; auto.
  - unfold is_leaf in *. rewrite P in *. destruct (v_placement v); auto. destruct F5 as [-> F5]. destruct G5 as [-> G5]. auto.
  - intros LW W. specialize (G6 LW W). assert (LV : is_leaf v = false) by (unfold is_leaf in *; rewrite <- P; auto). rewrite P in W. specialize (F6 LV W). clear - F F6 G6 CA. revert ns F G6. induction ts as [|t ts IH]; intros ns F G6; cbn [merges filter map] in *; [constructor|].
    apply Forall_inv in F6 as H1. apply Forall_inv_tail in F6. destruct (v_visible (root t)) eqn:V.
    + cbn [map] in F. inversion F as [|n ? ns' ? A F']; subst. apply Forall_inv in G6 as G. apply Forall_inv_tail in G6. constructor; auto. rewrite root_merge. exact G.
    + constructor; auto. unfold alignment_in. rewrite CA. exact H1.
Qed.
Lemma good_merge t : forall n, alike attributes n (visible_part t) -> every good_form t -> every good_form n -> every good_form (merge_visible t n).
Proof.
  induction t as [v ts IH] using tree_ind'. intros [w ns] A G H. rewrite visible_node in A. apply alike_node in A as [AV F]. rewrite merge_node. cbn [root kids]. apply every_node in G as [(G1&G2&G3) GS]. apply every_node in H as [(H1&H2&H3) HS]. apply every_node. split.
  - split; [eapply formed_merge; eauto|]. split; [eapply formed_merge; eauto|auto].
  - clear - IH F GS HS. revert ns F HS. induction ts as [|t ts IHts]; intros ns F HS; cbn [filter map merges] in *; [constructor|].
    apply Forall_inv in IH as IH1. apply Forall_inv_tail in IH. apply Forall_inv in GS as GS1. apply Forall_inv_tail in GS. destruct (v_visible (root t)).
    + cbn [map] in F. inversion F as [|n ? ns' ? A F']; subst. apply Forall_inv in HS as HS1. apply Forall_inv_tail in HS. constructor; auto.
    + constructor; auto.
Qed.

Theorem evaluate_lays rp o w h t t' ok : sensible_rounding rp -> every good_form t -> let v' := visible_part t' in w = 0 \/ natural horizontal v' <= w -> h = 0 \/ natural vertical v' <= h ->
  evaluate rp o w h t = Some (t', ok) ->
  ok = true /\ evaluated o w h (visible_part t) v' /\ hidden t' = hidden t /\ every good_form t' /\ fit horizontal v' /\ every good_vertical v'.
Proof.
  intros RP G v' W H E. subst v'. unfold evaluate in E. destruct (evaluate_visible rp o (tree_size t) w h (visible_part t)) as [[n ok1]|] eqn:E1; try discriminate. cbn in E.
  apply (f_equal (fun x => match x with Some y => y | None => (t', ok) end)) in E. pose proof (f_equal fst E) as EA. pose proof (f_equal snd E) as EB. cbn [fst snd] in EA, EB. clear E. subst ok1.
  assert (AN : alike attributes n (visible_part t)).
  { eapply alike_trans; [|apply calculate_attributes]. eapply evaluate_attributes; [|exact E1]. apply good_visible; auto. }
  assert (VN : visible_part t' = n) by (rewrite <- EA; apply merge_visible_part; auto). rewrite VN in *.
  destruct (evaluate_visible_lays rp o _ w h (visible_part t) n ok RP (good_visible t G) W H E1) as (OK&EV&GN&FN&GVN). conj; auto.
  - rewrite <- EA. apply merge_hidden; auto.
  - rewrite <- EA. apply good_merge; auto.
Qed.
Theorem resize_lays rp o w h t t' ok : sensible_rounding rp -> every good_form t -> fit horizontal (visible_part t) -> every good_vertical (visible_part t) ->
  let v' := visible_part t' in w = 0 \/ natural horizontal v' <= w -> h = 0 \/ natural vertical v' <= h -> resize rp o w h t = Some (t', ok) ->
  ok = true /\ adjust_result o w h (visible_part t) v' /\ hidden t' = hidden t /\ every good_form t' /\ fit horizontal v' /\ every good_vertical v'.
Proof.
  intros RP G FH GV v' W H E. subst v'. unfold resize in E. destruct (adjust_layout rp o (tree_size t) w h (visible_part t)) as [[n ok1]|] eqn:E1; try discriminate. cbn in E.
  apply (f_equal (fun x => match x with Some y => y | None => (t', ok) end)) in E. pose proof (f_equal fst E) as EA. pose proof (f_equal snd E) as EB. cbn [fst snd] in EA, EB. clear E. subst ok1.
  destruct (adjust_attributes rp o _ w h _ n ok FH GV E1) as [AN NN].
  assert (VN : visible_part t' = n) by (rewrite <- EA; apply merge_visible_part; auto). rewrite VN in *. rewrite NN in W.
  destruct (adjust_lays rp o _ w h (visible_part t) n ok RP FH GV W H E1) as (OK&R). pose proof (good_after _ _ _ _ _ R (good_visible t G)) as GN. conj; auto.
  - rewrite <- EA. apply merge_hidden; auto.
  - rewrite <- EA. apply good_merge; auto.
  - destruct R. auto.
  - eapply good_vertical_after; eauto.
Qed.
