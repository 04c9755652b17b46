(** Solving a layout without guides: one pass up is enough, the pass down changes nothing. *)
From Verif Require Import Prelude Eve_Model Eve_Spec Eve_Base Eve_Adjust.
From Coq Require Import List ZArith Lia Bool.
Import ListNotations.
Open Scope Z_scope.
Ltac Zify.zify_post_hook ::= idtac.

Definition lens_here (d : slice_select) (v : view) (ts : list (tree view)) : Prop := e_length (s_extents (slc d v)) <= clen d v <= natural d (Node v ts).
Definition solved_here (d : slice_select) (v : view) (ts : list (tree view)) : Prop :=
  clen d v = natural d (Node v ts) /\ (is_leaf v = false -> s_measured_length (slc d v) = content_of d v ts).
Definition solved (d : slice_select) := every (solved_here d).

Definition run_length (d : slice_select) (cs : list view) : Z := fold_right (fun c n => v_space_before c + clen d c + n) 0 cs.
Lemma push_nil b gs : push b [] gs = gs. Proof. destruct gs; reflexivity. Qed.
Lemma up_reverse_quiet d rcs gs r a : Forall (quiet d) rcs -> up_reverse d rcs gs r a = (gs, a).
Proof.
  revert gs r a. induction rcs as [|c rcs IH]; intros gs r a Q; auto. cbn [up_reverse]. rewrite (quiet_rev d c) by (apply Forall_inv in Q; auto).
  rewrite push_nil. cbn [length skipn firstn app]. replace (a + (r - r)) with a by lia. rewrite IH by (apply Forall_inv_tail in Q; auto). reflexivity.
Qed.
Lemma up_forward_quiet d cs gs len : Forall (quiet d) cs -> up_forward d cs gs len = (gs, len + run_length d cs).
Proof.
  revert gs len. induction cs as [|c cs IH]; intros gs len Q; [cbn; f_equal; lia|]. cbn [up_forward run_length fold_right]. rewrite (quiet_fwd d c) by (apply Forall_inv in Q; auto).
  rewrite push_nil. cbn [length skipn firstn app]. rewrite IH by (apply Forall_inv_tail in Q; auto). cbn [fst snd]. unfold run_length. f_equal. lia.
Qed.
Lemma fold_push_fwd d v cs gs : Forall (quiet d) cs -> fold_left (fun gs c => push (near_of d v c) (fwd_of d c) gs) cs gs = gs.
Proof. induction 1 as [|c cs Q F IH]; auto. cbn. rewrite (quiet_fwd d c Q), push_nil. exact IH. Qed.
Lemma fold_push_rev d v cs gs : Forall (quiet d) cs -> fold_left (fun gs c => push (far_of d v c) (rev_of d c) gs) cs gs = gs.
Proof. induction 1 as [|c cs Q F IH]; auto. cbn. rewrite (quiet_rev d c Q), push_nil. exact IH. Qed.
Lemma near_leaf_quiet d v c gs : quiet d c -> near_leaf d v c gs = near_of d v c.
Proof. intros Q. unfold near_leaf. rewrite (quiet_fwd d c Q). reflexivity. Qed.
Lemma far_leaf_quiet d v c gs : quiet d c -> far_leaf d v c gs = far_of d v c.
Proof. intros Q. unfold far_leaf. rewrite (quiet_rev d c Q). reflexivity. Qed.

Lemma run_length_content d v ts : Forall (fun t => clen d (root t) = natural d t) ts -> map (fun t => v_space_before (root t)) ts = gaps (v_spacing v) (last_gap v) (length ts) ->
  run_length d (map root ts) = line_length (v_spacing v) (last_gap v) (map (natural d) ts).
Proof.
  intros F. set (sp := v_spacing v). clearbody sp. set (fin := last_gap v). clearbody fin. revert sp. induction F as [|t ts E F IH]; intros sp G; auto. cbn in G |- *. apply cons_inj in G as [G1 G2].
  rewrite G1, E. unfold run_length in IH. rewrite (IH _ G2). lia.
Qed.

Lemma fold_left_max (f : view -> Z) cs : forall a, fold_left (fun l c => Z.max l (f c)) cs a = Z.max a (fold_left (fun l c => Z.max l (f c)) cs a).
Proof. induction cs as [|c cs IH]; intros a; cbn; [lia|]. rewrite (IH (Z.max a (f c))). lia. Qed.
Lemma fold_left_max_cons (f : view -> Z) cs : forall a b, fold_left (fun l c => Z.max l (f c)) cs (Z.max a b) = Z.max b (fold_left (fun l c => Z.max l (f c)) cs a).
Proof. induction cs as [|c cs IH]; intros a b; cbn; [lia|]. replace (Z.max (Z.max a b) (f c)) with (Z.max (Z.max a (f c)) b) by lia. apply IH. Qed.
Lemma fold_right_max_left (f : view -> Z) cs a : fold_left (fun l c => Z.max l (f c)) cs a = fold_right (fun c m => Z.max (f c) m) a cs.
Proof. induction cs as [|c cs IH]; auto. cbn. rewrite fold_left_max_cons, IH. reflexivity. Qed.

(** the measured length *)
Lemma measured_content d v ts : ready_here d v ts -> is_leaf v = false -> Forall (fun t => clen d (root t) = natural d t) ts ->
  let v' := fst (solve_up d v (map root ts)) in
  s_measured_length (slc d v') = content_of d v ts /\ clen d v' = Z.max (content_of d v ts) (clen d v) /\ fwd d v' = [] /\ rev_g d v' = [] /\
  key d v' = key d v /\ s_place (slc d v') = s_place (slc d v).
Proof.
  intros R L F. unfold ready_here in R. rewrite L in R. destruct R as (Q&F0&R0&G). cbv zeta. unfold solve_up. rewrite L. cbn [fst].
  assert (Q' : Forall (quiet d) (map root ts)). { apply Forall_map. eapply Forall_impl; [|exact Q]. cbn. tauto. }
  unfold content_of, content. destruct (is_with (v_placement v) d) eqn:W.
  - unfold solve_up_with. rewrite up_reverse_quiet by (apply Forall_rev; exact Q'). rewrite up_forward_quiet by exact Q'. cbn zeta.
    rewrite F0. cbn [length]. rewrite andb_false_r. rewrite R0. unfold clen, fwd, rev_g, key, core, align, suppressed. rewrite !slc_upd, slc_upd_other, placeable_upd, visible_upd, placement_upd, indent_upd, create_upd, spacing_upd, sb_upd.
    cbn [set_lengths set_guides s_measured_length s_container_length s_forward s_reverse s_balance s_margin s_child_alignment s_extents s_alignment s_suppress s_place].
    rewrite (run_length_content d v ts F (G eq_refl)), map_map. cbn [snd]. change (map (fun x : tree view => natural d x) ts) with (map (natural d) ts).
    repeat split; auto; [lia|]. f_equal. lia.
  - unfold solve_up_cross. rewrite fold_push_fwd, fold_push_rev by exact Q'. cbn zeta.
    set (m := fold_left _ _ _).
    assert (M : m = near d v + far d v + fold_right (fun c m => Z.max (snd c + indent_in d v (fst c)) m) 0 (map (fun t => (root t, natural d t)) ts)).
    { subst m. rewrite fold_right_max_left. clear - F Q. induction F as [|t ts E F IH]; [cbn; lia|]. cbn. rewrite IH by (apply Forall_inv_tail in Q; exact Q).
      apply Forall_inv in Q. destruct Q as (Q1&Q2&Q3). rewrite near_leaf_quiet, far_leaf_quiet by auto. unfold indent_in, near_of, far_of. rewrite <- Q2, E.
      destruct (align d (root t)); cbn; lia. }
    clearbody m. rewrite <- M. unfold clen, fwd, rev_g, key, core, align, suppressed. rewrite !slc_upd, slc_upd_other, placeable_upd, visible_upd, placement_upd, indent_upd, create_upd, spacing_upd, sb_upd.
    unfold fwd, rev_g in F0, R0. cbn [set_lengths set_guides s_measured_length s_container_length s_forward s_reverse s_balance s_margin s_child_alignment s_extents s_alignment s_suppress s_place].
    repeat split; auto.
Qed.

Lemma solve_up_snd d v cs : snd (solve_up d v cs) = cs. Proof. reflexivity. Qed.

(** the children of a ready container after a pass that keeps keys, keeps leaves, and leaves the trees below ready *)
Lemma ready_kids d v v' us ts : ready_here d v ts -> core d v = core d v' -> (is_leaf v = false -> fwd d v' = [] /\ rev_g d v' = []) ->
  Forall2 (fun u t => same_keys d u t /\ ready d u /\ (is_leaf (root t) = true -> fwd d (root u) = fwd d (root t) /\ rev_g d (root u) = rev_g d (root t))) us ts ->
  ready_here d v' us.
Proof.
  unfold ready_here. intros R C FR U. rewrite <- (is_leaf_core _ _ _ C). destruct (is_leaf v). { subst ts. inversion U; auto. }
  destruct R as (Q&_&_&G). destruct (FR eq_refl) as [F0 R0]. destruct (core_inv _ _ _ C) as (PL&_&_&SP&_&CA&_). rewrite <- PL. unfold last_gap in *. rewrite <- SP. split; [|split; [|split]]; auto.
  - clear - Q U CA. revert Q. induction U as [|u t us ts (S&R&LF) U IHU]; intros Q; constructor.
    + apply Forall_inv in Q. destruct Q as (Q1&Q2&Q3). pose proof (same_keys_root _ _ _ S) as K. apply key_inv in K as (K1&K2&K3&K4). rewrite K3. split; [|split; auto].
      * destruct Q1 as [Q1 | [Q1 Q1']]; [left; congruence|]. right.
        destruct (is_leaf (root t)) eqn:LT; [destruct (LF eq_refl); split; congruence|].
        destruct u as [c cs]. apply every_node in R as [R _]. unfold ready_here in R. cbn [root] in *. rewrite (is_leaf_core _ _ _ K1), LT in R. tauto.
      * rewrite Q2. apply alignment_in_key; auto.
    + apply Forall_inv_tail in Q. auto.
  - intros W. specialize (G W). apply Forall2_length in U as LEN. rewrite LEN, <- G. clear - U. induction U as [|u t us ts (S&_) U IH]; cbn; f_equal; auto.
    pose proof (same_keys_root _ _ _ S) as K. apply key_inv in K. tauto.
Qed.

Lemma natural_node d v ts : natural d (Node v ts) = if is_leaf v then e_length (s_extents (slc d v)) else Z.max (e_length (s_extents (slc d v))) (content_of d v ts).
Proof. reflexivity. Qed.
Lemma content_of_keys d v v' us ts : core d v = core d v' -> Forall2 (same_keys d) us ts -> content_of d v us = content_of d v' ts.
Proof.
  intros C F. apply content_ext; auto. apply core_inv in C as (_&_&_&_&_&CA&_). clear - CA F. induction F as [|u t us ts S F IH]; cbn; constructor; auto. cbn.
  pose proof (same_keys_root _ _ _ S) as K. apply key_inv in K as (C&_&A&_). apply core_inv in C as (_&I&_). split; [apply natural_keys; auto|]. split; auto. apply alignment_in_key; auto.
Qed.
Lemma solved_clen d t : solved d t -> clen d (root t) = natural d t.
Proof. destruct t. intros H. apply every_node in H as [[H _] _]. exact H. Qed.

Theorem up_pass_solves d t : ready d t -> every (lens_here d) t ->
  same_keys d (up_pass d t) t /\ ready d (up_pass d t) /\ solved d (up_pass d t) /\ s_place (slc d (root (up_pass d t))) = s_place (slc d (root t)) /\
  (is_leaf (root t) = true -> root (up_pass d t) = root t).
Proof.
  unfold up_pass. induction t as [v ts IH] using tree_ind'. intros R Ln. apply every_node in R as [R1 R2]. apply every_node in Ln as [L1 L2].
  cbn [postorder root]. rewrite solve_up_snd, set_roots_same. set (us := map (postorder (solve_up d)) ts).
  assert (U : Forall2 (fun u t => (same_keys d u t /\ ready d u /\ solved d u) /\ (is_leaf (root t) = true -> root u = root t)) us ts).
  { subst us. clear - IH R2 L2. induction ts; cbn; constructor.
    - apply Forall_inv in IH, R2, L2. destruct (IH R2 L2) as (A&B&C&_&D). auto.
    - apply Forall_inv_tail in IH, R2, L2. auto. }
  clearbody us. assert (U1 : Forall2 (same_keys d) us ts) by (eapply Forall2_impl; [|exact U]; cbn; tauto).
  assert (RU : ready_here d v us).
  { apply (ready_kids d v v us ts R1 eq_refl).
    - intros L. unfold ready_here in R1. rewrite L in R1. tauto.
    - eapply Forall2_impl; [|exact U]. cbn. intros a b ((A&B&_)&D). repeat split; auto; rewrite D; auto. }
  assert (CU : Forall (fun t => clen d (root t) = natural d t) us).
  { clear - U. induction U as [|u t us ts ((_&_&S)&_) U IH]; constructor; auto. apply solved_clen, S. }
  assert (BR : Forall (every (ready_here d)) us). { clear - U. induction U as [|u t us ts ((_&S&_)&_) U IH]; constructor; auto. }
  assert (BS : Forall (every (solved_here d)) us). { clear - U. induction U as [|u t us ts ((_&_&S)&_) U IH]; constructor; auto. }
  destruct (is_leaf v) eqn:L.
  - unfold solve_up. rewrite L. cbn [fst]. unfold ready, solved. split; [|split; [|split; [|split]]]; auto.
    + apply same_keys_node. auto.
    + apply every_node. auto.
    + apply every_node. split; auto. split; [|rewrite L; discriminate]. unfold lens_here in L1. rewrite natural_node, L in *. lia.
  - pose proof (measured_content d v us RU L CU) as M. cbv zeta in M. set (v' := fst (solve_up d v (map root us))) in *. clearbody v'. destruct M as (M1&M2&M3&M4&M5&M6).
    assert (C : core d v = core d v') by (apply key_inv in M5; symmetry; tauto).
    split; [apply same_keys_node; auto|]. split; [|split; [|split; auto; discriminate]].
    + apply every_node. split; auto. unfold ready_here in *. rewrite <- (is_leaf_core _ _ _ C), L in *. destruct (core_inv _ _ _ C) as (PL&_&_&SP&_&CA&_). rewrite <- PL. unfold last_gap in *. rewrite <- SP.
      destruct RU as (Q&_&_&G). repeat split; auto. eapply Forall_impl; [|exact Q]. cbn. intros t (A&B&D). repeat split; auto. rewrite B. apply alignment_in_key; auto.
    + apply every_node. split; auto. assert (CO : content_of d v us = content_of d v' us). { apply content_of_keys; auto. apply Forall2_self, Forall_forall. intros; reflexivity. }
      split; [|intros _; congruence]. rewrite natural_node, <- (is_leaf_core _ _ _ C), L, M2, <- CO. unfold lens_here in L1. rewrite natural_node, L in L1.
      destruct (core_inv _ _ _ C) as (_&_&_&_&_&_&X). rewrite <- X.
      rewrite <- (content_of_keys d v v us ts eq_refl U1) in L1. lia.
Qed.

(** ** Down: nothing happens *)
Lemma pull_child_quiet c b gs : pull_child c b [] gs = ([], false, b). Proof. reflexivity. Qed.
Lemma down_reverse_quiet d rcs : Forall (quiet d) rcs -> forall gs r, down_reverse d rcs gs r = (rcs, false).
Proof. induction 1 as [|c rcs Q F IH]; intros gs r; auto. cbn [down_reverse]. rewrite (quiet_rev d c Q), pull_child_quiet. cbn [length skipn]. rewrite IH. reflexivity. Qed.
Lemma down_forward_quiet d cs : Forall (quiet d) cs -> forall gs r, down_forward d cs gs r = (cs, false).
Proof. induction 1 as [|c cs Q F IH]; intros gs r; auto. cbn [down_forward]. rewrite (quiet_fwd d c Q), pull_child_quiet. cbn [length skipn]. rewrite IH. reflexivity. Qed.
Lemma solve_down_quiet d v cs : (is_leaf v = false -> Forall (quiet d) cs) -> solve_down d v cs = (cs, false).
Proof.
  intros Q. unfold solve_down. destruct (is_leaf v); auto. specialize (Q eq_refl). destruct (is_with _ _).
  - unfold solve_down_with. rewrite down_reverse_quiet by (apply Forall_rev; exact Q). cbn [snd]. apply down_forward_quiet; auto.
  - unfold solve_down_cross. induction Q as [|c cs H Q IH]; auto. cbn. injection IH as IH1 IH2. unfold down_cross_child at 1 3. rewrite (quiet_fwd d c H), (quiet_rev d c H). cbn. rewrite IH1, IH2. reflexivity.
Qed.
Lemma down_from_quiet d t : ready d t -> down_from d t (root t) = (t, false).
Proof.
  induction t as [v ts IH] using tree_ind'. intros R. apply every_node in R as [R1 R2]. cbn [down_from root].
  rewrite solve_down_quiet.
  2: { intros L. unfold ready_here in R1. rewrite L in R1. apply Forall_map. destruct R1 as (Q&_). eapply Forall_impl; [|exact Q]. cbn; tauto. }
  cbn [fst snd orb]. clear R1. match goal with |- context [?go ts (map root ts)] => assert (E : go ts (map root ts) = (ts, false)) end.
  { induction ts as [|t ts IHts]; auto. cbn [map]. apply Forall_inv in IH as I1. apply Forall_inv in R2 as R3. rewrite (I1 R3). cbn [fst snd orb]. rewrite IHts; auto; [apply Forall_inv_tail in IH; auto | apply Forall_inv_tail in R2; auto]. }
  rewrite E. reflexivity.
Qed.
Lemma solved_lens d t : every (solved_here d) t -> every (lens_here d) t.
Proof. intros S. eapply every_impl; [|exact S]. intros v ts [H _]. unfold lens_here. rewrite H, natural_node. destruct (is_leaf v); lia. Qed.

Theorem solve_plain d n t : ready d t -> every (lens_here d) t ->
  snd (solve d n t) = false /\ let t' := fst (solve d n t) in same_keys d t' t /\ ready d t' /\ solved d t' /\ s_place (slc d (root t')) = s_place (slc d (root t)) /\ (is_leaf (root t) = true -> root t' = root t).
Proof.
  intros R L. unfold solve. destruct (up_pass_solves d t R L) as (K1&R1&S1&P1&Q1). set (t1 := up_pass d t) in *. clearbody t1.
  assert (L1 : every (lens_here d) t1). { apply solved_lens, S1. }
  destruct (up_pass_solves d t1 R1 L1) as (K2&R2&S2&P2&Q2).
  assert (E : solve_loop d n t1 = (up_pass d t1, false)). { destruct n; cbn [solve_loop]; unfold down_pass; rewrite (down_from_quiet d t1 R1); reflexivity. }
  rewrite E. cbn [fst snd]. split; auto. split; [eapply same_keys_trans; eauto|]. split; auto. split; auto. split; [congruence|]. intros LF. rewrite <- (Q1 LF). apply Q2. rewrite (Q1 LF). exact LF.
Qed.
