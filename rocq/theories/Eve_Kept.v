(** The first guide of a leaf stays where it was measured. *)
From Verif Require Import Prelude Eve_Model Eve_Spec Eve_Base Eve_Adjust Eve_Solve Eve_Layout Eve_Place Eve_Run Eve_Total Eve_Whole Eve_Session Eve_Guides Eve_Lines Eve_Aligned Eve_Lift.
From Coq Require Import List ZArith Lia Bool.
Import ListNotations.
Open Scope Z_scope.
Ltac Zify.zify_post_hook ::= idtac.

Definition heads (d : slice_select) (v : view) := (gkey d v, if is_leaf v then (hd_error (fwd d v), hd_error (rev_g d v)) else (None, None)).
Lemma heads_inv d v w : heads d v = heads d w -> gkey d v = gkey d w /\ (is_leaf w = true -> hd_error (fwd d v) = hd_error (fwd d w) /\ hd_error (rev_g d v) = hd_error (rev_g d w)).
Proof.
  unfold heads. intros E. pose proof (f_equal fst E) as G. pose proof (f_equal snd E) as H. cbn [fst snd] in G, H. split; auto. intros L. apply gkey_inv in G as (K&_). apply key_inv in K as (C&_). rewrite (is_leaf_core _ _ _ C), L in H.
  pose proof (f_equal fst H). pose proof (f_equal snd H). auto.
Qed.
Lemma up_pass_heads d t : alike (heads d) (up_pass d t) t.
Proof.
  apply postorder_alike. intros v cs. split; [|reflexivity]. pose proof (solve_up_gkey d v cs) as G. unfold heads. rewrite G. f_equal. apply gkey_inv in G as (K&_). apply key_inv in K as (C&_). rewrite (is_leaf_core _ _ _ C).
  unfold solve_up. cbn [fst]. destruct (is_leaf v); reflexivity.
Qed.
Lemma pull_child_head c b m gs : is_leaf c = true -> hd_error (fst (fst (pull_child c b m gs))) = hd_error m.
Proof. intros L. unfold pull_child. destruct m as [|g m]; auto. destruct gs as [|x gs]; auto. rewrite L. reflexivity. Qed.
Lemma heads_set_fwd d m c : length m = length (fwd d c) -> (is_leaf c = true -> hd_error m = hd_error (fwd d c)) -> heads d (set_fwd d m c) = heads d c.
Proof.
  intros L H. pose proof (gkey_set_fwd d m c L) as G. unfold heads. rewrite G. f_equal. apply gkey_inv in G as (K&_). apply key_inv in K as (C&_). rewrite (is_leaf_core _ _ _ C). destruct (is_leaf c); auto. destruct (fwd_set_rev d m c) as [_ ->]. rewrite <- H by auto. unfold fwd, set_fwd. rewrite slc_upd. reflexivity.
Qed.
Lemma heads_set_rev d m c : length m = length (rev_g d c) -> (is_leaf c = true -> hd_error m = hd_error (rev_g d c)) -> heads d (set_rev d m c) = heads d c.
Proof.
  intros L H. pose proof (gkey_set_rev d m c L) as G. unfold heads. rewrite G. f_equal. apply gkey_inv in G as (K&_). apply key_inv in K as (C&_). rewrite (is_leaf_core _ _ _ C). destruct (is_leaf c); auto. destruct (fwd_set_rev d m c) as [-> _]. rewrite <- H by auto. unfold rev_g, set_rev. rewrite slc_upd. reflexivity.
Qed.
Lemma pulled_forward d c b gs m x : pull_child c b (fwd_of d c) gs = (m, true, x) -> length m = length (fwd d c) /\ (is_leaf c = true -> hd_error m = hd_error (fwd d c)).
Proof.
  intros E. pose proof (pull_child_length c b (fwd_of d c) gs) as PL. pose proof (pull_child_head c b (fwd_of d c) gs) as PH. rewrite E in PL, PH. cbn [fst] in *.
  assert (F : fwd_of d c = fwd d c) by (destruct (fwd_of d c) as [|g m0] eqn:EF; [cbn in E; discriminate|]; rewrite <- EF; unfold fwd_of in *; destruct (suppressed d c); try discriminate; destruct (has_forward _); try discriminate; reflexivity). rewrite F in *. auto.
Qed.
Lemma pulled_reverse d c b gs m x : pull_child c b (rev_of d c) gs = (m, true, x) -> length m = length (rev_g d c) /\ (is_leaf c = true -> hd_error m = hd_error (rev_g d c)).
Proof.
  intros E. pose proof (pull_child_length c b (rev_of d c) gs) as PL. pose proof (pull_child_head c b (rev_of d c) gs) as PH. rewrite E in PL, PH. cbn [fst] in *.
  assert (F : rev_of d c = rev_g d c) by (destruct (rev_of d c) as [|g m0] eqn:EF; [cbn in E; discriminate|]; rewrite <- EF; unfold rev_of in *; destruct (suppressed d c); try discriminate; destruct (has_reverse _); try discriminate; reflexivity). rewrite F in *. auto.
Qed.
Lemma down_forward_heads d cs : forall gs l, Forall2 (fun c c' => heads d c' = heads d c) cs (fst (down_forward d cs gs l)).
Proof.
  assert (S : forall l, Forall2 (fun c c' => heads d c' = heads d c) l l) by (intros l; apply Forall2_self, Forall_forall; auto).
  induction cs as [|c cs IH]; intros gs l; cbn [down_forward]; [constructor|]. destruct (pull_child c (l + v_space_before c) (fwd_of d c) gs) as [[m ch] b] eqn:EP.
  destruct ch; cbn [fst]; constructor; auto. apply pulled_forward in EP as [? ?]. apply heads_set_fwd; auto.
Qed.
Lemma down_reverse_heads d cs : forall gs l, Forall2 (fun c c' => heads d c' = heads d c) cs (fst (down_reverse d cs gs l)).
Proof.
  assert (S : forall l, Forall2 (fun c c' => heads d c' = heads d c) l l) by (intros l; apply Forall2_self, Forall_forall; auto).
  induction cs as [|c cs IH]; intros gs l; cbn [down_reverse]; [constructor|]. destruct (pull_child c l (rev_of d c) gs) as [[m ch] b] eqn:EP.
  destruct ch; cbn [fst]; constructor; auto. apply pulled_reverse in EP as [? ?]. apply heads_set_rev; auto.
Qed.
Lemma is_leaf_set_fwd d m c : is_leaf (set_fwd d m c) = is_leaf c.
Proof. unfold is_leaf, set_fwd. rewrite placement_upd. reflexivity. Qed.
Lemma down_cross_heads d v c : heads d (fst (down_cross_child d v c)) = heads d c.
Proof.
  unfold down_cross_child. destruct (pull_child c (near_of d v c) (fwd_of d c) (fwd d v)) as [[m ch] b] eqn:EF. destruct (pull_child c (far_of d v c) (rev_of d c) (rev_g d v)) as [[m' ch'] b'] eqn:ER. cbn [fst].
  destruct ch, ch'; auto; try apply pulled_forward in EF as [? ?]; try apply pulled_reverse in ER as [? ?]; try (apply heads_set_fwd; auto; fail); try (apply heads_set_rev; auto; fail).
  rewrite heads_set_rev; [apply heads_set_fwd; auto | |]; destruct (fwd_set_rev d m c) as [_ ->]; auto. rewrite is_leaf_set_fwd. auto.
Qed.
Lemma solve_down_heads d v cs : Forall2 (fun c c' => heads d c' = heads d c) cs (fst (solve_down d v cs)).
Proof.
  assert (S : forall l, Forall2 (fun c c' => heads d c' = heads d c) l l) by (intros l; apply Forall2_self, Forall_forall; auto).
  unfold solve_down. destruct (is_leaf v); [apply S|]. destruct (is_with _ _).
  - unfold solve_down_with. destruct (snd (down_reverse _ _ _ _)); cbn [fst]; [|apply down_forward_heads]. rewrite <- (rev_involutive cs) at 1. apply Forall2_rev', down_reverse_heads.
  - unfold solve_down_cross. cbn [fst]. rewrite map_map. induction cs; cbn; constructor; auto. apply down_cross_heads.
Qed.
Lemma down_from_heads d t : forall v, heads d v = heads d (root t) -> alike (heads d) (fst (down_from d t v)) t.
Proof.
  induction t as [r ts IH] using tree_ind'. intros v G. cbn [down_from]. cbn [fst root] in *. apply alike_node. split; auto. pose proof (solve_down_heads d v (map root ts)) as S. set (vs := fst (solve_down d v (map root ts))) in *. clearbody vs.
  clear - IH S. match goal with |- Forall2 _ (fst (?g _ _)) _ => set (go := g) end. revert vs S. induction ts as [|t ts IHts]; intros vs S; inversion S as [|? c ? vs' S1 S2]; subst; [constructor|].
  subst go. cbn beta iota. cbn [fst]. apply Forall_inv in IH as IH1. apply Forall_inv_tail in IH. constructor; auto.
Qed.
Lemma solve_loop_heads d lim : forall t, alike (heads d) (fst (solve_loop d lim t)) t.
Proof.
  induction lim as [|lim IH]; intros t; cbn [solve_loop]; assert (A : alike (heads d) (up_pass d (fst (down_pass d t))) t) by (eapply alike_trans; [apply up_pass_heads | apply down_from_heads; reflexivity]).
  - destruct (snd (down_pass d t)); exact A.
  - destruct (snd (down_pass d t)); [|exact A]. eapply alike_trans; [apply IH | exact A].
Qed.

(** ** What adjust gives a leaf *)
Definition leaf_guides (d : slice_select) (c : view) : Prop :=
  let gs := e_guides (s_extents (slc d c)) in is_leaf c = true ->
  (to_forward (align d c) = true -> length (fwd d c) = length gs /\ hd_error (fwd d c) = hd_error gs) /\
  (align d c = align_reverse -> length (rev_g d c) = length gs /\ hd_error (rev_g d c) = option_map (fun g => e_length (s_extents (slc d c)) - g) (hd_error (rev gs))).
Definition leaves_guided (d : slice_select) (v : view) (ts : list (tree view)) : Prop := is_leaf v = false -> Forall (fun t => leaf_guides d (root t)) ts.
Lemma leaf_guides_heads d v w : heads d v = heads d w -> leaf_guides d v -> leaf_guides d w.
Proof.
  intros H G. apply heads_inv in H as [K H]. apply gkey_inv in K as (K&L1&L2). apply key_inv in K as (C&_&A&_). unfold leaf_guides. intros LF. destruct (H LF) as [H1 H2]. rewrite <- (is_leaf_core _ _ _ C) in LF. specialize (G LF). rewrite <- A, <- L1, <- L2, <- H1, <- H2, <- (core_ext _ _ _ C). exact G.
Qed.
Lemma leaves_guided_heads d t t' : alike (heads d) t t' -> every (leaves_guided d) t -> every (leaves_guided d) t'.
Proof.
  apply every_alike. intros v ts v' ts' H F G LF. apply heads_inv in H as [K _]. apply gkey_inv in K as (K&_). apply key_inv in K as (C&_). rewrite <- (is_leaf_core _ _ _ C) in LF. specialize (G LF).
  clear - F G. induction F as [|t t' ts ts' A F IH]; constructor; apply Forall_inv in G as G1; apply Forall_inv_tail in G; auto. eapply leaf_guides_heads; [apply alike_root; exact A | exact G1].
Qed.
Lemma hd_rev_map {A B} (f : A -> B) l : hd_error (rev (map f l)) = option_map f (hd_error (rev l)).
Proof. rewrite <- map_rev. destruct (rev l); reflexivity. Qed.
Lemma leaf_guides_resolve d a c : leaf_guides d (resolve d a c).
Proof.
  unfold resolve. set (c1 := upd d _ c). clearbody c1. destruct (is_leaf c1) eqn:L; [|intros LF; cbn in LF; congruence]. unfold leaf_guides. destruct (to_forward (align d c1)) eqn:T1; [|destruct (to_reverse (align d c1)) eqn:T2].
  - intros _. unfold align, fwd, rev_g in *. rewrite slc_upd. cbn [set_guides s_alignment s_forward s_reverse s_extents]. split; auto. intros E. rewrite E in T1. discriminate.
  - intros _. unfold align, fwd, rev_g in *. rewrite slc_upd. cbn [set_guides s_alignment s_forward s_reverse s_extents]. split; [congruence|]. intros _. rewrite rev_length, map_length, hd_rev_map. auto.
  - intros _. split; [congruence|]. intros E. rewrite E in T2. discriminate.
Qed.
Lemma leaf_guides_mark d c : leaf_guides d c -> leaf_guides d (mark d c).
Proof. unfold mark. destruct (suppressed d c); auto. destruct (_ || _); auto. unfold leaf_guides, is_leaf, align, fwd, rev_g. rewrite placement_upd, slc_upd. cbn [set_suppress s_alignment s_forward s_reverse s_extents]. auto. Qed.
Lemma leaf_guides_space d sp final cs : Forall (leaf_guides d) cs -> Forall (leaf_guides d) (space sp final cs).
Proof.
  intros F. revert sp. assert (S : forall x c, leaf_guides d c -> leaf_guides d (set_space_before x c)) by (intros x c; unfold leaf_guides, is_leaf, align, fwd, rev_g; rewrite slc_sb; auto).
  induction F; intros [|y sp]; cbn; constructor; auto.
Qed.
Lemma leaves_guided_core d v w ts : core d v = core d w -> leaves_guided d v ts -> leaves_guided d w ts.
Proof. intros C. unfold leaves_guided. rewrite (is_leaf_core _ _ _ C). auto. Qed.
Lemma adjust_leaves d t : every (leaves_guided d) (postorder (adjust d) t).
Proof.
  induction t as [v ts IH] using tree_ind'. cbn [postorder]. set (us := map (postorder (adjust d)) ts). assert (U : Forall (every (leaves_guided d)) us) by (subst us; rewrite Forall_map; exact IH). clearbody us. clear IH ts.
  pose proof (adjust_snd_length d v (map root us)) as LEN. rewrite map_length in LEN. apply every_node. split.
  - intros LF. unfold adjust in *. assert (LV : is_leaf v = false) by (destruct (is_leaf v) eqn:L; auto; cbn in LF; congruence). rewrite LV in *. cbn [fst snd] in *.
    set (cs2 := map (mark d) _) in *. assert (R : map root (set_roots us cs2) = cs2) by (apply map_root_set_roots; auto). rewrite <- (Forall_map root (leaf_guides d)), R. subst cs2. rewrite Forall_map.
    apply (Forall_impl _ (leaf_guides_mark d)). assert (F : Forall (leaf_guides d) (map (resolve d (s_child_alignment (slc d v))) (map root us))) by (rewrite Forall_map; apply Forall_forall; intros; apply leaf_guides_resolve).
    destruct (is_with _ _); auto. apply leaf_guides_space; auto.
  - destruct (is_leaf v) eqn:LV.
    + unfold adjust. rewrite LV. cbn [snd]. rewrite set_roots_same. exact U.
    + destruct (adjust_step d v (map root us) LV) as (_&_&_&S&_). cbv zeta in S. set (vs := snd (adjust d v (map root us))) in *. clearbody vs. clear - U S. revert vs S. induction U as [|u us H U IH]; intros vs S; inversion S as [|? c ? vs' S1 S2]; subst; unfold set_roots; cbn; constructor.
      * destruct u as [a as']. change (set_root (Node a as') c) with (Node c as'). apply every_node in H as [H1 H2]. apply every_node. split; auto. destruct S1 as (C&_). cbn [root] in *. eapply leaves_guided_core; eauto.
      * apply IH; auto.
Qed.

(** ** A whole run *)
Lemma rest_heads d v w : rest d v = rest d w -> heads d v = heads d w.
Proof. intros R. apply rest_inv in R as (K&_&_&F&G). unfold heads, gkey. pose proof (key_inv _ _ _ K) as (C&_). rewrite K, F, G, (is_leaf_core _ _ _ C). reflexivity. Qed.
Lemma flatten_delivered o d t : forall x, every (fun v _ => delivered d v) (flatten_from o d x t).
Proof.
  induction t as [v ts IH] using tree_ind'. intros x. rewrite flatten_node. cbv zeta. apply every_node. split; [apply deliver_delivered|]. generalize (if stops o (deliver_guides d (shift_by d x v)) then 0 else ppos d (deliver_guides d (shift_by d x v))). intros y. clear - IH. induction IH; cbn; constructor; auto.
Qed.
Theorem run_heads rp o d n w t t' ok : run_slice rp o d n w t = Some (t', ok) -> every (keeps_first_guide d) t'.
Proof.
  intros E. unfold run_slice in E. pose proof (solve_loop_heads d n (up_pass d (postorder (adjust d) t))) as S. fold (solve d n (postorder (adjust d) t)) in S. destruct (solve d n (postorder (adjust d) t)) as [s pr]. cbn [fst snd] in *.
  destruct (layout_pass rp d w s) as [l|] eqn:EL; try discriminate. apply (f_equal (fun x => match x with Some y => fst y | None => t' end)) in E. cbn [fst] in E. subst t'.
  unfold layout_pass in EL. apply layout_pass_rest in EL; [|apply rest_upd].
  assert (RR : forall x y, alike (spot d) x y -> alike (rest d) x y) by (intros x y; apply alike_impl; intros v w' H; apply spot_inv in H; tauto).
  assert (RH : forall x y, alike (rest d) x y -> alike (heads d) x y) by (intros x y; apply alike_impl; apply rest_heads).
  assert (H : every (leaves_guided d) (flatten o d (postorder (adjust_outsets d) l))).
  { apply (leaves_guided_heads d (postorder (adjust d) t)); [|apply adjust_leaves]. apply alike_sym. eapply alike_trans; [apply RH, flatten_rest|]. eapply alike_trans; [apply RH, RR, outsets_spot|]. eapply alike_trans; [apply RH; exact EL|].
    eapply alike_trans; [exact S | apply up_pass_heads]. }
  pose proof (flatten_delivered o d (postorder (adjust_outsets d) l) 0) as D. unfold flatten in *. set (T := flatten_from o d 0 _) in *. clearbody T. clear - H D.
  induction T as [v ts IH] using tree_ind'. apply every_node in H as [H HS]. apply every_node in D as [_ DS]. apply every_node. split; [|rewrite Forall_forall in *; auto].
  intros LF. specialize (H LF). rewrite Forall_forall in *. intros u I. specialize (H u I). specialize (DS u I). destruct u as [c cs]. apply every_node in DS as [[D1 D2] _]. cbn [root] in *. cbv zeta. intros LC. destruct (H LC) as [H1 H2]. split.
  - intros A. rewrite (D1 A). auto.
  - intros A. rewrite (D2 A). rewrite rev_involutive, rev_length, map_length. destruct (H2 A) as [H3 H4]. split; auto. rewrite <- H4. destruct (rev_g d c) as [|g r]; cbn; auto. f_equal. lia.
Qed.
Lemma keeps_half d t t' : alike (half d) t t' -> every (keeps_first_guide d) t -> every (keeps_first_guide d) t'.
Proof.
  apply every_alike. intros v ts v' ts' H F G LF. apply half_inv in H as (_&_&P&_). unfold is_leaf in LF. rewrite <- P in LF. specialize (G LF). clear - F G. induction F as [|t t' ts ts' A F IH]; constructor; apply Forall_inv in G as G1; apply Forall_inv_tail in G; auto.
  apply alike_root, half_inv in A as (_&_&P&_&_&_&A). cbv zeta in *. unfold is_leaf, align, guides_of, plen in *. rewrite <- P, <- A. exact G1.
Qed.
Theorem evaluate_heads rp o w h t t' ok : evaluate rp o w h t = Some (t', ok) \/ resize rp o w h t = Some (t', ok) -> forall d, every (keeps_first_guide d) (visible_part t').
Proof.
  intros E.
  assert (X : exists c n, alike attributes c (visible_part t) /\ adjust_layout rp o (tree_size t) w h c = Some (n, ok) /\ t' = merge_visible t n).
  { destruct E as [E | E]; unfold evaluate, evaluate_visible, resize in E.
    - exists (map_tree calculate (visible_part t)). destruct (adjust_layout _ _ _ _ _ _) as [[n ok']|]; try discriminate. apply (f_equal (fun x => match x with Some y => y | None => (t', ok) end)) in E. pose proof (f_equal fst E) as EA. pose proof (f_equal snd E) as EB. cbn [option_map fst snd] in EA, EB. subst. exists n.
      conj; auto. apply calculate_attributes.
    - exists (visible_part t). destruct (adjust_layout _ _ _ _ _ _) as [[n ok']|]; try discriminate. apply (f_equal (fun x => match x with Some y => y | None => (t', ok) end)) in E. pose proof (f_equal fst E) as EA. pose proof (f_equal snd E) as EB. cbn [option_map fst snd] in EA, EB. subst. exists n.
      conj; auto. reflexivity. }
  destruct X as (c&n&A&EL&->). clear E. unfold adjust_layout in EL. destruct (run_slice rp o horizontal _ w c) as [[t1 ok1]|] eqn:E1; try discriminate.
  destruct (run_slice rp o vertical _ h (map_tree calculate_vertical t1)) as [[t2 ok2]|] eqn:E2; try discriminate. apply (f_equal (fun x => match x with Some y => fst y | None => n end)) in EL. cbn [fst] in EL. subst t2.
  pose proof (run_core _ _ _ _ _ _ _ _ E1) as C1. pose proof (run_core _ _ _ _ _ _ _ _ E2) as C2.
  assert (A1 : alike attributes t1 c) by (eapply alike_impl; [|exact C1]; apply core_attributes).
  assert (AV : alike attributes (map_tree calculate_vertical t1) t1) by (apply map_tree_alike; intros v; unfold calculate_vertical; destruct (measure_vertical _); reflexivity).
  assert (A2 : alike attributes n (map_tree calculate_vertical t1)) by (eapply alike_impl; [|exact C2]; apply core_attributes).
  rewrite merge_visible_part; [|eapply alike_trans; [exact A2|]; eapply alike_trans; [exact AV|]; eapply alike_trans; [exact A1 | exact A]].
  intros [|].
  - apply (keeps_half horizontal t1 n).
    + apply alike_sym. eapply alike_trans; [apply (alike_impl (core vertical)); [apply (core_half vertical) | exact C2]|]. apply map_tree_alike. apply half_calculate_vertical.
    + eapply run_heads; exact E1.
  - eapply run_heads; exact E2.
Qed.
