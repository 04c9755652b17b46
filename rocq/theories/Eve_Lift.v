(** Guides over the tree of all views, in both directions. *)
From Verif Require Import Prelude Eve_Model Eve_Spec Eve_Base Eve_Adjust Eve_Solve Eve_Layout Eve_Place Eve_Run Eve_Total Eve_Whole Eve_Session Eve_Guides Eve_Lines Eve_Aligned.
From Coq Require Import List ZArith Lia Bool.
Import ListNotations.
Open Scope Z_scope.
Ltac Zify.zify_post_hook ::= idtac.

(** ** A run leaves the attributes and the other direction alone *)
Lemma adjust_core d t : alike (core d) (postorder (adjust d) t) t.
Proof.
  induction t as [v ts IH] using tree_ind'. cbn [postorder]. set (us := map (postorder (adjust d)) ts). assert (U : Forall2 (alike (core d)) us ts) by (subst us; clear - IH; induction IH; cbn; constructor; auto). clearbody us. clear IH.
  destruct (is_leaf v) eqn:LV.
  - unfold adjust. rewrite LV. cbn [fst snd]. rewrite set_roots_same. apply alike_node. auto.
  - destruct (adjust_step d v (map root us) LV) as (K&_&_&S&_). cbv zeta in *. apply alike_node. split; [apply key_inv in K; tauto|].
    set (vs := snd (adjust d v (map root us))) in *. clearbody vs. clear - U S. revert vs S. induction U as [|u t us ts A U IH]; intros vs S; inversion S as [|? c ? vs' S1 S2]; subst; unfold set_roots; cbn; constructor.
    + destruct u as [a as']. change (set_root (Node a as') c) with (Node c as'). destruct t as [b bs]. apply alike_node in A as [A1 A2]. apply alike_node. split; auto. destruct S1 as (C&_). cbn [root] in *. congruence.
    + apply IH; auto.
Qed.
Lemma solve_loop_gkey d lim : forall t, alike (gkey d) (fst (solve_loop d lim t)) t.
Proof.
  induction lim as [|lim IH]; intros t; cbn [solve_loop]; assert (A : alike (gkey d) (up_pass d (fst (down_pass d t))) t) by (eapply alike_trans; [apply up_pass_gkey | apply down_from_gkey; reflexivity]).
  - destruct (snd (down_pass d t)); exact A.
  - destruct (snd (down_pass d t)); [|exact A]. eapply alike_trans; [apply IH | exact A].
Qed.
Lemma gkey_core d t t' : alike (gkey d) t t' -> alike (core d) t t'.
Proof. apply alike_impl. intros v w H. apply gkey_inv in H as (K&_). apply key_inv in K. tauto. Qed.
Lemma rest_core d t t' : alike (rest d) t t' -> alike (core d) t t'.
Proof. apply alike_impl. intros v w H. apply rest_inv in H as (K&_). apply key_inv in K. tauto. Qed.
Lemma run_core rp o d n w t t' ok : run_slice rp o d n w t = Some (t', ok) -> alike (core d) t' t.
Proof.
  intros E. unfold run_slice in E. pose proof (solve_loop_gkey d n (up_pass d (postorder (adjust d) t))) as S. fold (solve d n (postorder (adjust d) t)) in S. destruct (solve d n (postorder (adjust d) t)) as [s pr]. cbn [fst snd] in *.
  destruct (layout_pass rp d w s) as [l|] eqn:EL; try discriminate. apply (f_equal (fun x => match x with Some y => fst y | None => t' end)) in E. cbn [fst] in E. subst t'.
  unfold layout_pass in EL. apply layout_pass_rest in EL; [|apply rest_upd].
  assert (RR : forall x y, alike (spot d) x y -> alike (rest d) x y) by (intros x y; apply alike_impl; intros v w' H; apply spot_inv in H; tauto).
  eapply alike_trans; [apply rest_core, flatten_rest|]. eapply alike_trans; [apply rest_core, RR, outsets_spot|]. eapply alike_trans; [apply rest_core; exact EL|].
  eapply alike_trans; [apply gkey_core; exact S|]. eapply alike_trans; [apply gkey_core, up_pass_gkey | apply adjust_core].
Qed.
Lemma core_balance d v w : core d v = core d w -> s_balance (slc d v) = s_balance (slc d w).
Proof. intros C. unfold core in C. injection C as ????????? ?. congruence. Qed.
Lemma unbalanced_core d t t' : alike (core d) t t' -> every (fun v _ => unbalanced d v) t -> every (fun v _ => unbalanced d v) t'.
Proof. apply every_alike. intros v ts v' ts' C _. apply core_balance in C. unfold unbalanced. congruence. Qed.
Lemma unbalanced_attributes d t t' : alike attributes t t' -> every (fun v _ => unbalanced d v) t -> every (fun v _ => unbalanced d v) t'.
Proof.
  apply every_alike. intros v ts v' ts' C _. unfold unbalanced, attributes in *. pose proof (f_equal (fun x => fst (fst (snd (fst x)))) C) as H1. pose proof (f_equal (fun x => fst (fst (snd x))) C) as H2. cbn [fst snd] in *. destruct d; cbn [slc]; congruence.
Qed.
Definition guided_at (o : options) (d : slice_select) (v : view) (ts : list (tree view)) : Prop := guided (origin o d v) d v (map root ts) /\ delivered d v.
Lemma guided_half o d t t' : alike (half d) t t' -> every (guided_at o d) t -> every (guided_at o d) t'.
Proof.
  apply every_alike. intros v ts v' ts' H F [G D]. pose proof (half_inv _ _ _ H) as (_&_&P&_&CR&_&SL). unfold guided_at. split.
  - assert (O : origin o d v' = origin o d v) by (unfold origin, stops, ppos; rewrite CR, SL; reflexivity). rewrite O. clear O.
    assert (FF : Forall2 (fun c c' => half d c = half d c') (map root ts) (map root ts')) by (clear - F; induction F; cbn; constructor; auto; apply alike_root; auto).
    set (cs := map root ts) in *. set (cs' := map root ts') in *. clearbody cs cs'. set (x := origin o d v) in *. clearbody x. clear - P SL FF G.
    intros LF. unfold is_leaf in LF. rewrite <- P in LF. specialize (G LF). rewrite <- P. destruct (is_with (v_placement v) d).
    + intros before' c' after' E S A LC NB k g K. rewrite E in FF. apply Forall2_app_inv_r in FF as (before&rest0&F1&F2&->). inversion F2 as [|c ? after ? HC F3]; subst. apply half_inv in HC as (_&_&PC&_&_&_&SC).
      replace (offset d before') with (offset d before).
      * unfold fwd, ppos, suppressed, align, is_leaf in *. rewrite <- SL, <- SC in *. rewrite <- PC in LC. eapply G; eauto. clear - F1 NB. induction F1 as [|a b l l' H F IH]; constructor; apply Forall_inv in NB as N1; apply Forall_inv_tail in NB; auto. apply half_inv in H as (_&_&_&_&_&_&H). unfold align. rewrite H. exact N1.
      * clear - F1. induction F1 as [|a b l l' H F IH]; auto. apply half_inv in H as (_&_&_&_&_&_&H). unfold offset in *. cbn [fold_right]. rewrite IH. unfold fwd_of, suppressed, align, fwd. rewrite H. reflexivity.
    + clear - FF G SL. induction FF as [|c c' cs cs' H F IH]; constructor; apply Forall_inv in G as G1; apply Forall_inv_tail in G; auto. apply half_inv in H as (_&_&_&_&_&_&H). unfold child_guided, suppressed, align, fwd, rev_g, ppos, plen in *. rewrite <- H, <- SL. exact G1.
  - unfold delivered, guides_of, align, fwd, rev_g, plen in *. rewrite <- SL. exact D.
Qed.
Theorem adjust_layout_guided rp o n w h t t' : (forall d, every (fun v _ => unbalanced d v) t) -> adjust_layout rp o n w h t = Some (t', true) -> (forall d, every (guided_at o d) t') /\ alike attributes t' t.
Proof.
  intros U E. unfold adjust_layout in E. destruct (run_slice rp o horizontal n w t) as [[t1 ok1]|] eqn:E1; try discriminate.
  destruct (run_slice rp o vertical n h (map_tree calculate_vertical t1)) as [[t2 ok2]|] eqn:E2; try discriminate. apply (f_equal (fun x => match x with Some y => y | None => (t', true) end)) in E.
  pose proof (f_equal fst E) as EA. pose proof (f_equal snd E) as EB. cbn [fst snd] in EA, EB. clear E. subst t2. apply andb_true_iff in EB as [-> ->].
  pose proof (run_core _ _ _ _ _ _ _ _ E1) as C1. pose proof (run_core _ _ _ _ _ _ _ _ E2) as C2.
  assert (A1 : alike attributes t1 t) by (eapply alike_impl; [|exact C1]; apply core_attributes).
  assert (AV : alike attributes (map_tree calculate_vertical t1) t1) by (apply map_tree_alike; intros v; unfold calculate_vertical; destruct (measure_vertical _); reflexivity).
  assert (A2 : alike attributes t' (map_tree calculate_vertical t1)) by (eapply alike_impl; [|exact C2]; apply core_attributes).
  split; [|eapply alike_trans; [exact A2|]; eapply alike_trans; [exact AV | exact A1]]. intros [|].
  - apply (guided_half o horizontal t1 t').
    + apply alike_sym. eapply alike_trans; [apply (alike_impl (core vertical)); [apply (core_half vertical) | exact C2]|]. apply map_tree_alike. apply half_calculate_vertical.
    + eapply run_guided; [|exact E1]. eapply unbalanced_core; [apply alike_sym, adjust_core | apply U].
  - eapply run_guided; [|exact E2]. eapply unbalanced_core; [apply alike_sym, adjust_core|]. eapply unbalanced_attributes; [apply alike_sym; eapply alike_trans; [exact AV | exact A1] | apply U].
Qed.
Theorem evaluate_guided rp o w h t t' : (forall d, every (fun v _ => unbalanced d v) (visible_part t)) -> evaluate rp o w h t = Some (t', true) \/ resize rp o w h t = Some (t', true) ->
  forall d, every (guided_at o d) (visible_part t').
Proof.
  intros U E.
  assert (X : exists c n, alike attributes c (visible_part t) /\ adjust_layout rp o (tree_size t) w h c = Some (n, true) /\ t' = merge_visible t n).
  { destruct E as [E | E]; unfold evaluate, evaluate_visible, resize in E.
    - exists (map_tree calculate (visible_part t)). destruct (adjust_layout _ _ _ _ _ _) as [[n ok]|]; try discriminate. apply (f_equal (fun x => match x with Some y => y | None => (t', true) end)) in E. pose proof (f_equal fst E) as EA. pose proof (f_equal snd E) as EB. cbn [option_map fst snd] in EA, EB. subst. exists n.
      conj; auto. apply calculate_attributes.
    - exists (visible_part t). destruct (adjust_layout _ _ _ _ _ _) as [[n ok]|]; try discriminate. apply (f_equal (fun x => match x with Some y => y | None => (t', true) end)) in E. pose proof (f_equal fst E) as EA. pose proof (f_equal snd E) as EB. cbn [option_map fst snd] in EA, EB. subst. exists n.
      conj; auto. reflexivity. }
  destruct X as (c&n&A&EL&->). apply adjust_layout_guided in EL as [G AT].
  - rewrite merge_visible_part; auto. eapply alike_trans; eauto.
  - intros d. eapply unbalanced_attributes; [apply alike_sym; exact A | apply U].
Qed.
