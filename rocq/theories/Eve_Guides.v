(** Guides: the vectors fit, and the guides line up when the solver has settled. *)
From Verif Require Import Prelude Eve_Model Eve_Spec Eve_Base Eve_Adjust Eve_Solve Eve_Layout Eve_Place Eve_Run.
From Coq Require Import List ZArith Lia Bool.
Import ListNotations.
Open Scope Z_scope.
Ltac Zify.zify_post_hook ::= idtac.

(** ** The vectors fit *)
Definition count_for (d : slice_select) (v : view) : list (list Z) -> nat := if is_with (v_placement v) d then count_with else count_cross.
Definition fits (d : slice_select) (v : view) (ts : list (tree view)) : Prop :=
  is_leaf v = false -> length (fwd d v) = count_for d v (map (fun t => fwd_of d (root t)) ts) /\ length (rev_g d v) = count_for d v (map (fun t => rev_of d (root t)) ts).
Definition gkey (d : slice_select) (v : view) := (key d v, (length (fwd d v), length (rev_g d v))).
Lemma gkey_inv d v w : gkey d v = gkey d w -> key d v = key d w /\ length (fwd d v) = length (fwd d w) /\ length (rev_g d v) = length (rev_g d w).
Proof. unfold gkey. intros E. generalize (f_equal fst E) (f_equal (fun x => fst (snd x)) E) (f_equal (fun x => snd (snd x)) E). cbn [fst snd]. auto. Qed.
Lemma count_ext f l l' : f = count_with \/ f = count_cross -> Forall2 (fun a b : list Z => length a = length b) l l' -> f l = f l'.
Proof. intros H F. destruct H as [-> | ->]; (induction F as [|a b l l' E F IH]; [reflexivity|]); [change (length a + count_with l = length b + count_with l')%nat | change (Nat.max (length a) (count_cross l) = Nat.max (length b) (count_cross l'))]; rewrite E, IH; reflexivity. Qed.
Lemma count_for_cases d v : count_for d v = count_with \/ count_for d v = count_cross.
Proof. unfold count_for. destruct (is_with _ _); auto. Qed.
Lemma fits_gkey d t t' : alike (gkey d) t t' -> every (fits d) t -> every (fits d) t'.
Proof.
  apply every_alike. intros v ts v' ts' G F H LF. apply gkey_inv in G as (K&L1&L2). apply key_inv in K as (C&_). rewrite <- (is_leaf_core _ _ _ C) in LF. destruct (H LF) as [H1 H2].
  assert (CF : count_for d v' = count_for d v) by (unfold count_for; apply core_inv in C as (->&_); reflexivity). rewrite <- L1, <- L2, H1, H2, CF.
  split; apply count_ext; try apply count_for_cases; clear - F; (induction F as [|t t' ts ts' E F IH]; constructor; auto);
  apply alike_root, gkey_inv in E as (K&L1&L2); apply key_inv in K as (_&_&A&S); unfold fwd_of, rev_of; rewrite A, S; destruct (suppressed d (root t')); auto; [destruct (has_forward _) | destruct (has_reverse _)]; auto.
Qed.
Lemma adjust_snd_length d v cs : length (snd (adjust d v cs)) = length cs.
Proof. unfold adjust. destruct (is_leaf v); auto. cbn [snd]. rewrite map_length. destruct (is_with _ _); [rewrite space_length|]; apply map_length. Qed.
Theorem adjust_fits d t : every (fits d) (postorder (adjust d) t).
Proof.
  induction t as [v ts IH] using tree_ind'. cbn [postorder]. set (us := map (postorder (adjust d)) ts). assert (U : Forall (every (fits d)) us) by (subst us; rewrite Forall_map; exact IH). clearbody us. clear IH ts.
  pose proof (adjust_snd_length d v (map root us)) as LEN. rewrite map_length in LEN. apply every_node. split.
  - intros LF. unfold adjust in *. assert (LV : is_leaf v = false) by (destruct (is_leaf v) eqn:L; auto; cbn in LF; congruence). rewrite LV in *. cbn [fst snd] in *.
    set (cs2 := map (mark d) _) in *. rewrite <- !(map_map root), map_root_set_roots by auto. unfold fwd, rev_g. rewrite !slc_upd. cbn [s_forward s_reverse set_guides]. rewrite !repeat_length. unfold count_for. rewrite placement_upd. auto.
  - destruct (is_leaf v) eqn:LV.
    + unfold adjust. rewrite LV. cbn [snd]. rewrite set_roots_same. exact U.
    + destruct (adjust_step d v (map root us) LV) as (_&_&_&S&_). cbv zeta in S. set (vs := snd (adjust d v (map root us))) in *. clearbody vs. clear - U S. revert vs S. induction U as [|u us H U IH]; intros vs S; inversion S as [|? c ? vs' S1 S2]; subst; unfold set_roots; cbn; constructor.
      * destruct u as [a as']. change (set_root (Node a as') c) with (Node c as'). apply every_node in H as [H1 H2]. apply every_node. split; auto. destruct S1 as (C&_&_&_&_&FR&_). cbn [root] in *. intros LF. rewrite <- (is_leaf_core _ _ _ C) in LF.
        destruct (FR LF) as [-> ->]. assert (CF : count_for d c = count_for d a) by (unfold count_for; apply core_inv in C as (->&_); reflexivity). rewrite CF. auto.
      * apply IH; auto.
Qed.

Lemma push_length b m gs : length (push b m gs) = length gs.
Proof. revert gs. induction m as [|g m IH]; intros [|x gs]; cbn; auto. Qed.
Lemma up_reverse_length d rcs : forall gs r a, length (fst (up_reverse d rcs gs r a)) = length gs.
Proof.
  induction rcs as [|c rcs IH]; intros gs r a; auto. cbn [up_reverse fst]. rewrite app_length, IH, firstn_length, skipn_length, push_length. lia.
Qed.
Lemma up_forward_length d cs : forall gs l, length (fst (up_forward d cs gs l)) = length gs.
Proof.
  induction cs as [|c cs IH]; intros gs l; auto. cbn [up_forward fst]. rewrite app_length, IH, firstn_length, skipn_length, push_length. lia.
Qed.
Lemma progression_length x g n : length (progression x g n) = n.
Proof. revert x. induction n; intros; cbn; auto. Qed.
Lemma balance_length gs : length (balance gs) = length gs.
Proof. unfold balance. destruct gs; auto. apply progression_length. Qed.
Lemma fold_push_length (f : view -> Z) (h : view -> list Z) cs : forall gs, length (fold_left (fun gs c => push (f c) (h c) gs) cs gs) = length gs.
Proof. induction cs as [|c cs IH]; intros gs; auto. cbn. rewrite IH. apply push_length. Qed.
Lemma solve_up_gkey d v cs : gkey d (fst (solve_up d v cs)) = gkey d v.
Proof.
  unfold solve_up. cbn [fst]. destruct (is_leaf v); auto. assert (G : forall c m f r, length f = length (fwd d v) -> length r = length (rev_g d v) -> gkey d (upd d (fun s => set_lengths (c s) (m s) (set_guides f r s)) v) = gkey d v).
  { intros c m f r H1 H2. unfold gkey, key, core, align, suppressed, fwd, rev_g. rewrite !slc_upd, slc_upd_other, placeable_upd, visible_upd, placement_upd, indent_upd, create_upd, spacing_upd, sb_upd. cbn [s_forward s_reverse set_lengths set_guides]. unfold fwd, rev_g in *. rewrite H1, H2. reflexivity. }
  destruct (is_with _ _).
  - unfold solve_up_with. pose proof (up_reverse_length d (rev cs) (rev_g d v) (far d v) (far d v)) as R. destruct (up_reverse d (rev cs) (rev_g d v) (far d v) (far d v)) as [rg ad]. pose proof (up_forward_length d cs (fwd d v) (near d v)) as F. destruct (up_forward d cs (fwd d v) (near d v)) as [fg len]. cbn [fst] in *.
    apply (G (fun s => Z.max (len + ad) (s_container_length s)) (fun _ => len + ad)); auto. destruct (_ && _); auto. rewrite balance_length. auto.
  - unfold solve_up_cross. match goal with |- gkey d (upd d (fun s => set_lengths (Z.max ?l _) ?l (set_guides ?f ?r s)) v) = _ => apply (G (fun s => Z.max l (s_container_length s)) (fun _ => l) f r); apply fold_push_length end.
Qed.
Lemma up_pass_gkey d t : alike (gkey d) (up_pass d t) t.
Proof. apply postorder_alike. intros v cs. split; [apply solve_up_gkey | reflexivity]. Qed.

(** ** Down *)
Lemma pull_length b c gs : length (fst (pull b c gs)) = length c.
Proof. revert gs. induction c as [|g c IH]; intros [|x gs]; cbn; auto. Qed.
Lemma pull_child_length c b m gs : length (fst (fst (pull_child c b m gs))) = length m.
Proof. unfold pull_child. destruct m as [|g m]; auto. destruct gs as [|x gs]; auto. destruct (is_leaf c); cbn [fst]; [cbn [length]; f_equal; apply pull_length | apply (pull_length b (g :: m) (x :: gs))]. Qed.
Lemma gkey_set_fwd d m c : length m = length (fwd d c) -> gkey d (set_fwd d m c) = gkey d c.
Proof. intros H. unfold gkey, key, core, align, suppressed, set_fwd, fwd, rev_g. rewrite !slc_upd, slc_upd_other, placeable_upd, visible_upd, placement_upd, indent_upd, create_upd, spacing_upd, sb_upd. cbn [s_forward s_reverse set_guides]. unfold fwd in H. rewrite H. reflexivity. Qed.
Lemma gkey_set_rev d m c : length m = length (rev_g d c) -> gkey d (set_rev d m c) = gkey d c.
Proof. intros H. unfold gkey, key, core, align, suppressed, set_rev, fwd, rev_g. rewrite !slc_upd, slc_upd_other, placeable_upd, visible_upd, placement_upd, indent_upd, create_upd, spacing_upd, sb_upd. cbn [s_forward s_reverse set_guides]. unfold rev_g in H. rewrite H. reflexivity. Qed.
Definition guide_pull (c : view) (b : Z) (m gs : list Z) : Z := match m, gs with g :: _, x :: _ => if is_leaf c then x - g else b | _, _ => b end.
Definition agrees (b : Z) (child container : list Z) : Prop := forall k g x, nth_error child k = Some g -> nth_error container k = Some x -> x = b + g.
Lemma pull_calm b c : forall gs, snd (pull b c gs) = false -> agrees b c gs.
Proof.
  induction c as [|g c IH]; intros [|x gs] H k g' x' E1 E2; destruct k; cbn in *; try discriminate; apply orb_false_elim in H as [H1 H2].
  - injection E1 as <-. injection E2 as <-. destruct (Z.eqb_spec (x - b) g); [lia | discriminate].
  - eapply IH; eauto.
Qed.
Lemma pull_child_calm c b m gs : snd (fst (pull_child c b m gs)) = false -> agrees (guide_pull c b m gs) m gs /\ snd (pull_child c b m gs) = guide_pull c b m gs.
Proof.
  unfold pull_child, guide_pull. destruct m as [|g m]; [intros _; split; auto; intros [|k] ? ? ?; discriminate|]. destruct gs as [|x gs]; [intros _; split; auto; intros [|k] ? ? _ ?; discriminate|]. destruct (is_leaf c); cbn [fst snd]; intros H; split; auto.
  - apply pull_calm in H. intros [|k] g' x' E1 E2; cbn in *; [injection E1 as <-; injection E2 as <-; lia | eapply H; eauto].
  - apply (pull_calm b (g :: m) (x :: gs)); exact H.
Qed.

(** a list of children as the solver leaves it *)
Fixpoint line_agrees (d : slice_select) (cs : list view) (gs : list Z) : Prop :=
  match cs with
  | [] => True
  | c :: cs' => (is_leaf c = true -> match fwd_of d c, gs with g :: _, x :: _ => agrees (x - g) (fwd_of d c) gs | _, _ => True end) /\ line_agrees d cs' (skipn (length (fwd_of d c)) gs)
  end.
Lemma down_forward_calm d cs : forall gs l, snd (down_forward d cs gs l) = false -> fst (down_forward d cs gs l) = cs /\ line_agrees d cs gs.
Proof.
  induction cs as [|c cs IH]; intros gs l H; cbn [down_forward line_agrees] in *; auto.
  pose proof (pull_child_calm c (l + v_space_before c) (fwd_of d c) gs) as PC. destruct (pull_child c (l + v_space_before c) (fwd_of d c) gs) as [[m ch] b]. cbn [fst snd] in *. destruct ch; [discriminate|]. cbn [fst snd] in *.
  destruct (IH _ _ H) as [-> L]. split; auto. split; auto. intros LF. destruct (PC eq_refl) as [A _]. unfold guide_pull in A. rewrite LF in A. destruct (fwd_of d c); auto. destruct gs; auto.
Qed.
Lemma down_reverse_calm d rcs : forall gs l, snd (down_reverse d rcs gs l) = false -> fst (down_reverse d rcs gs l) = rcs.
Proof.
  induction rcs as [|c rcs IH]; intros gs l H; cbn [down_reverse] in *; auto. destruct (pull_child c l (rev_of d c) gs) as [[m ch] b]. destruct ch; [discriminate|]. cbn [fst snd] in *. rewrite (IH _ _ H). auto.
Qed.
Definition cross_agrees (d : slice_select) (v c : view) : Prop :=
  agrees (guide_pull c (near_of d v c) (fwd_of d c) (fwd d v)) (fwd_of d c) (fwd d v) /\ agrees (guide_pull c (far_of d v c) (rev_of d c) (rev_g d v)) (rev_of d c) (rev_g d v).
Lemma down_cross_calm d v cs : snd (solve_down_cross d v cs) = false -> fst (solve_down_cross d v cs) = cs /\ Forall (cross_agrees d v) cs.
Proof.
  unfold solve_down_cross. cbn [fst snd]. rewrite map_map. induction cs as [|c cs IH]; cbn [map existsb]; auto. intros H. apply orb_false_elim in H as [H1 H2]. destruct (IH H2) as [I1 I2]. rewrite I1.
  unfold down_cross_child in *. pose proof (pull_child_calm c (near_of d v c) (fwd_of d c) (fwd d v)) as PF. pose proof (pull_child_calm c (far_of d v c) (rev_of d c) (rev_g d v)) as PR.
  destruct (pull_child c (near_of d v c) (fwd_of d c) (fwd d v)) as [[m ch] b]. destruct (pull_child c (far_of d v c) (rev_of d c) (rev_g d v)) as [[m' ch'] b']. cbn [fst snd] in *. apply orb_false_elim in H1 as [-> ->]. split; auto. constructor; auto.
  split; [apply PF | apply PR]; reflexivity.
Qed.
(** [calm v cs]: the guides of the children are those of the container *)
Definition calm (d : slice_select) (v : view) (cs : list view) : Prop := is_leaf v = false -> if is_with (v_placement v) d then line_agrees d cs (fwd d v) else Forall (cross_agrees d v) cs.
Lemma solve_down_calm d v cs : snd (solve_down d v cs) = false -> fst (solve_down d v cs) = cs /\ calm d v cs.
Proof.
  unfold solve_down, calm. destruct (is_leaf v); [split; auto; discriminate|]. destruct (is_with _ _).
  - unfold solve_down_with. destruct (snd (down_reverse d (rev cs) (rev_g d v) (far d v))) eqn:R; [discriminate|]. intros H. apply down_forward_calm in H as [H1 H2]. auto.
  - intros H. apply down_cross_calm in H as [H1 H2]. auto.
Qed.
Lemma down_from_calm d t : snd (down_from d t (root t)) = false -> fst (down_from d t (root t)) = t /\ every (fun v ts => calm d v (map root ts)) t.
Proof.
  induction t as [v ts IH] using tree_ind'. cbn [down_from root]. intros H. cbn [fst snd] in *. apply orb_false_elim in H as [H1 H2]. apply solve_down_calm in H1 as [H1 H3]. rewrite H1 in *. rewrite every_node. clear H1.
  match type of H2 with snd (?g _ _) = _ => set (go := g) in * end.
  enough (X : fst (go ts (map root ts)) = ts /\ Forall (every (fun v ts => calm d v (map root ts))) ts) by (destruct X as [-> X]; auto).
  clear H3. induction ts as [|t ts IHts]; auto. cbn [map] in *. subst go. cbn beta iota in *. cbn [fst snd] in *. apply orb_false_elim in H2 as [H2 H4]. apply Forall_inv in IH as IH1. apply Forall_inv_tail in IH. destruct (IH1 H2) as [-> E]. destruct (IHts IH H4) as [-> F]. auto.
Qed.
(** the passes keep keys and sizes *)
Lemma down_forward_gkey d cs : forall gs l, Forall2 (fun c c' => gkey d c' = gkey d c) cs (fst (down_forward d cs gs l)).
Proof.
  assert (S : forall l, Forall2 (fun c c' => gkey d c' = gkey d c) l l) by (intros l; apply Forall2_self, Forall_forall; auto).
  induction cs as [|c cs IH]; intros gs l; cbn [down_forward]; [constructor|]. pose proof (pull_child_length c (l + v_space_before c) (fwd_of d c) gs) as PL. destruct (pull_child c (l + v_space_before c) (fwd_of d c) gs) as [[m ch] b] eqn:EP. cbn [fst] in PL.
  destruct ch; cbn [fst]; constructor; auto. destruct (fwd_of d c) as [|g m0] eqn:EF; [cbn in EP; discriminate|]. apply gkey_set_fwd. rewrite PL, <- EF. unfold fwd_of in *. destruct (suppressed d c); try discriminate. destruct (has_forward _); try discriminate. reflexivity.
Qed.
Lemma down_reverse_gkey d cs : forall gs l, Forall2 (fun c c' => gkey d c' = gkey d c) cs (fst (down_reverse d cs gs l)).
Proof.
  assert (S : forall l, Forall2 (fun c c' => gkey d c' = gkey d c) l l) by (intros l; apply Forall2_self, Forall_forall; auto).
  induction cs as [|c cs IH]; intros gs l; cbn [down_reverse]; [constructor|]. pose proof (pull_child_length c l (rev_of d c) gs) as PL. destruct (pull_child c l (rev_of d c) gs) as [[m ch] b] eqn:EP. cbn [fst] in PL.
  destruct ch; cbn [fst]; constructor; auto. destruct (rev_of d c) as [|g m0] eqn:EF; [cbn in EP; discriminate|]. apply gkey_set_rev. rewrite PL, <- EF. unfold rev_of in *. destruct (suppressed d c); try discriminate. destruct (has_reverse _); try discriminate. reflexivity.
Qed.
Lemma fwd_set_rev d m c : fwd d (set_rev d m c) = fwd d c /\ rev_g d (set_fwd d m c) = rev_g d c.
Proof. unfold fwd, rev_g, set_rev, set_fwd. rewrite !slc_upd. auto. Qed.
Lemma down_cross_gkey d v c : gkey d (fst (down_cross_child d v c)) = gkey d c.
Proof.
  unfold down_cross_child. pose proof (pull_child_length c (near_of d v c) (fwd_of d c) (fwd d v)) as PF. pose proof (pull_child_length c (far_of d v c) (rev_of d c) (rev_g d v)) as PR.
  destruct (pull_child c (near_of d v c) (fwd_of d c) (fwd d v)) as [[m ch] b] eqn:EF. destruct (pull_child c (far_of d v c) (rev_of d c) (rev_g d v)) as [[m' ch'] b'] eqn:ER. cbn [fst] in *.
  assert (H1 : ch = true -> length m = length (fwd d c)).
  { intros ->. destruct (fwd_of d c) as [|g m0] eqn:E; [cbn in EF; discriminate|]. rewrite PF, <- E. unfold fwd_of in *. destruct (suppressed d c); try discriminate. destruct (has_forward _); try discriminate. reflexivity. }
  assert (H2 : ch' = true -> length m' = length (rev_g d c)).
  { intros ->. destruct (rev_of d c) as [|g m0] eqn:E; [cbn in ER; discriminate|]. rewrite PR, <- E. unfold rev_of in *. destruct (suppressed d c); try discriminate. destruct (has_reverse _); try discriminate. reflexivity. }
  destruct ch, ch'; auto; try (apply gkey_set_fwd; auto); try (apply gkey_set_rev; auto). rewrite gkey_set_rev; [apply gkey_set_fwd; auto|]. destruct (fwd_set_rev d m c) as [_ ->]. auto.
Qed.
Lemma solve_down_gkey d v cs : Forall2 (fun c c' => gkey d c' = gkey d c) cs (fst (solve_down d v cs)).
Proof.
  assert (S : forall l, Forall2 (fun c c' => gkey d c' = gkey d c) l l) by (intros l; apply Forall2_self, Forall_forall; auto).
  unfold solve_down. destruct (is_leaf v); [apply S|]. destruct (is_with _ _).
  - unfold solve_down_with. destruct (snd (down_reverse _ _ _ _)); cbn [fst]; [|apply down_forward_gkey]. rewrite <- (rev_involutive cs) at 1. apply Forall2_rev', down_reverse_gkey.
  - unfold solve_down_cross. cbn [fst]. rewrite map_map. induction cs; cbn; constructor; auto. apply down_cross_gkey.
Qed.
Lemma down_from_gkey d t : forall v, gkey d v = gkey d (root t) -> alike (gkey d) (fst (down_from d t v)) t.
Proof.
  induction t as [r ts IH] using tree_ind'. intros v G. cbn [down_from]. cbn [fst root] in *. apply alike_node. split; auto. pose proof (solve_down_gkey d v (map root ts)) as S. set (vs := fst (solve_down d v (map root ts))) in *. clearbody vs.
  clear - IH S. match goal with |- Forall2 _ (fst (?g _ _)) _ => set (go := g) end. revert vs S. induction ts as [|t ts IHts]; intros vs S; inversion S as [|? c ? vs' S1 S2]; subst; [constructor|].
  subst go. cbn beta iota. cbn [fst]. apply Forall_inv in IH as IH1. apply Forall_inv_tail in IH. constructor; auto.
Qed.
