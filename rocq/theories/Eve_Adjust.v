(** The adjust pass of Eve on views without guides. *)
From Verif Require Import Prelude Eve_Model Eve_Spec Eve_Base.
From Coq Require Import List ZArith Lia Bool.
Import ListNotations.
Open Scope Z_scope.
Ltac Zify.zify_post_hook ::= idtac.

Definition quiet (d : slice_select) (v : view) : Prop := suppressed d v = true \/ (fwd d v = [] /\ rev_g d v = []).
Lemma quiet_fwd d c : quiet d c -> fwd_of d c = [].
Proof. unfold fwd_of. intros [-> | [E _]]; auto. rewrite E. destruct (suppressed d c), (has_forward (align d c)); auto. Qed.
Lemma quiet_rev d c : quiet d c -> rev_of d c = [].
Proof. unfold rev_of. intros [-> | [_ E]]; auto. rewrite E. destruct (suppressed d c), (has_reverse (align d c)); auto. Qed.

Fixpoint gaps (sp : list Z) (final : Z) (n : nat) : list Z := match n with O => [] | S n' => gap sp final :: gaps (tl sp) final n' end.

Definition ready_here (d : slice_select) (v : view) (ts : list (tree view)) : Prop :=
  if is_leaf v then ts = [] else
  Forall (fun t => quiet d (root t) /\ align d (root t) = alignment_in d v (root t) /\ align d (root t) <> align_default) ts /\
  fwd d v = [] /\ rev_g d v = [] /\
  (is_with (v_placement v) d = true -> map (fun t => v_space_before (root t)) ts = gaps (v_spacing v) (last_gap v) (length ts)).
Definition ready (d : slice_select) := every (ready_here d).

(** what a client must not do: measured guides that are not suppressed, children of a leaf, a container that tells its children nothing *)
Definition plain_here (d : slice_select) (v : view) (ts : list (tree view)) : Prop := if is_leaf v then unguided d v /\ ts = [] else aligned d v.
Definition plain (d : slice_select) := every (plain_here d).

Inductive adjusted (d : slice_select) : tree view -> tree view -> Prop :=
  adjusted_node v ts v' ts' : core d v = core d v' -> clen d v = clen d v' -> s_place (slc d v) = s_place (slc d v') -> (suppressed d v = true -> suppressed d v' = true) ->
    Forall2 (fun t t' => adjusted d t t' /\ align d (root t') = alignment_in d v (root t)) ts ts' -> adjusted d (Node v ts) (Node v' ts').

Lemma adjusted_root d t t' : adjusted d t t' -> core d (root t) = core d (root t').
Proof. destruct 1; auto. Qed.
Lemma adjusted_set_root d t t' w : adjusted d t t' -> core d (root t) = core d w -> clen d (root t) = clen d w -> s_place (slc d (root t)) = s_place (slc d w) -> (suppressed d (root t) = true -> suppressed d w = true) -> adjusted d t (set_root t' w).
Proof. destruct 1. cbn. intros. constructor; auto. Qed.

Lemma alignment_in_settled d v v' c c' : s_child_alignment (slc d v) = s_child_alignment (slc d v') -> align d c' = alignment_in d v c -> alignment_in d v' c' = alignment_in d v c.
Proof. intros E A. unfold alignment_in at 1. rewrite A. unfold alignment_in. destruct (align d c); auto. rewrite E. destruct (s_child_alignment (slc d v')); auto. Qed.

Lemma natural_adjusted d t : forall t', adjusted d t t' -> natural d t' = natural d t.
Proof.
  induction t as [v ts IH] using tree_ind'. intros t' A. inversion A as [? ? v' ts' C L P SU F]; subst. cbn [natural].
  rewrite <- (is_leaf_core _ _ _ C). destruct (core_inv _ _ _ C) as (PL&I&_&SP&M&CA&X). rewrite <- X.
  destruct (is_leaf v); auto. f_equal. apply content_ext; [congruence|].
  clear - IH F CA. revert IH. induction F as [|t t' ts ts' [S1 S2] F IHF]; intros IH; cbn; constructor.
  - cbn. apply Forall_inv in IH. pose proof (adjusted_root _ _ _ S1) as C. apply core_inv in C as (P&I&_). repeat split; auto. apply alignment_in_settled; auto.
  - apply IHF. apply Forall_inv_tail in IH. exact IH.
Qed.

(** predicates of the core alone *)
Lemma every_adjusted d (P : view -> list (tree view) -> Prop) t : forall t',
  (forall v ts v' ts', core d v = core d v' -> clen d v = clen d v' -> (suppressed d v = true -> suppressed d v' = true) -> natural d (Node v' ts') = natural d (Node v ts) ->
     Forall2 (fun t t' => alignment_in d v' (root t') = alignment_in d v (root t)) ts ts' -> P v ts -> P v' ts') ->
  adjusted d t t' -> every P t -> every P t'.
Proof.
  induction t as [v ts IH] using tree_ind'. intros t' H A. pose proof (natural_adjusted _ _ _ A) as N.
  inversion A as [? ? v' ts' C L PP SU F]; subst. rewrite !every_node. intros [K E]. split.
  - eapply H; [exact C | exact L | exact SU | exact N | | exact K]. eapply Forall2_impl; [|exact F]. cbn. intros a b [_ D]. apply alignment_in_settled; auto. apply core_inv in C; tauto.
  - clear - IH F E H. revert IH E. induction F as [|t t' ts ts' [S1 S2] F IHF]; intros IH E; constructor.
    + apply Forall_inv in IH. apply Forall_inv in E. eauto.
    + apply Forall_inv_tail in IH. apply Forall_inv_tail in E. auto.
Qed.

(** ** One step *)
Lemma core_upd d f c : (forall s, s_balance (f s) = s_balance s /\ s_margin (f s) = s_margin s /\ s_child_alignment (f s) = s_child_alignment s /\ s_extents (f s) = s_extents s) -> core d (upd d f c) = core d c.
Proof. intros H. unfold core. rewrite slc_upd, slc_upd_other, placeable_upd, visible_upd, placement_upd, indent_upd, create_upd, spacing_upd. destruct (H (slc d c)) as (->&->&->&->). reflexivity. Qed.
Lemma core_resolve d a c : core d (resolve d a c) = core d c.
Proof.
  unfold resolve. set (c1 := upd d _ c). assert (E : core d c1 = core d c) by (apply core_upd; auto). clearbody c1. rewrite <- E.
  destruct (is_leaf c1), (to_forward (align d c1)), (to_reverse (align d c1)); auto; apply core_upd; auto.
Qed.
Lemma resolve_slice (f : slice -> Prop) d a c :
  (forall s x y, f s -> f (set_guides x y s)) -> f (set_alignment (match align d c with align_default => a | b => b end) (slc d c)) -> f (slc d (resolve d a c)).
Proof.
  intros G H. unfold resolve. set (c1 := upd d _ c). assert (E : f (slc d c1)) by (subst c1; rewrite slc_upd; exact H). clearbody c1.
  destruct (is_leaf c1), (to_forward (align d c1)), (to_reverse (align d c1)); auto; rewrite slc_upd; auto.
Qed.
Lemma align_resolve d v c : align d (resolve d (s_child_alignment (slc d v)) c) = alignment_in d v c.
Proof. unfold align at 1. apply (resolve_slice (fun s => s_alignment s = alignment_in d v c)); auto. Qed.
Lemma clen_resolve d a c : clen d (resolve d a c) = clen d c /\ s_place (slc d (resolve d a c)) = s_place (slc d c) /\ suppressed d (resolve d a c) = suppressed d c.
Proof. unfold clen, suppressed. apply (resolve_slice (fun s => s_container_length s = s_container_length (slc d c) /\ s_place s = s_place (slc d c) /\ s_suppress s = s_suppress (slc d c))); auto. Qed.
Lemma quiet_resolve d a c : (if is_leaf c then unguided d c else fwd d c = [] /\ rev_g d c = []) ->
  quiet d (resolve d a c) /\ (is_leaf c = false -> fwd d (resolve d a c) = fwd d c /\ rev_g d (resolve d a c) = rev_g d c).
Proof.
  intros H. destruct (is_leaf c) eqn:L.
  - split; [|discriminate]. destruct H as [H | (E&F&R)].
    + left. destruct (clen_resolve d a c) as (_&_&S). rewrite S. exact H.
    + right. unfold resolve, fwd, rev_g in *. unfold is_leaf in *. rewrite placement_upd. destruct (v_placement c); try discriminate.
      unfold align. repeat rewrite slc_upd. cbn [s_alignment s_extents set_alignment].
      destruct (to_forward _); [|destruct (to_reverse _)]; repeat rewrite slc_upd; cbn [s_forward s_reverse set_guides set_alignment]; rewrite ?E, ?F, ?R; auto.
  - destruct H as [F R]. assert (X : fwd d (resolve d a c) = fwd d c /\ rev_g d (resolve d a c) = rev_g d c).
    { unfold resolve, fwd, rev_g in *. unfold is_leaf in *. rewrite placement_upd. destruct (v_placement c); try discriminate; rewrite slc_upd; auto. }
    split; auto. right. destruct X. split; congruence.
Qed.
Lemma core_mark d c : core d (mark d c) = core d c.
Proof. unfold mark. destruct (suppressed d c); auto; destruct (_ || _); auto. destruct d; reflexivity. Qed.
Lemma mark_facts d c : align d (mark d c) = align d c /\ clen d (mark d c) = clen d c /\ s_place (slc d (mark d c)) = s_place (slc d c) /\ fwd d (mark d c) = fwd d c /\ rev_g d (mark d c) = rev_g d c /\ v_space_before (mark d c) = v_space_before c /\ (suppressed d c = true -> suppressed d (mark d c) = true).
Proof. unfold mark. destruct (suppressed d c) eqn:E; auto 10. destruct (_ || _); [repeat split; auto; discriminate|]. destruct d; repeat split; auto. Qed.
Lemma core_sb d x c : core d (set_space_before x c) = core d c.
Proof. destruct d; reflexivity. Qed.

(** the child as its container leaves it *)
Definition step_child (d : slice_select) (v c c' : view) : Prop :=
  core d c = core d c' /\ clen d c = clen d c' /\ s_place (slc d c) = s_place (slc d c') /\ align d c' = alignment_in d v c /\
  ((if is_leaf c then unguided d c else fwd d c = [] /\ rev_g d c = []) -> quiet d c') /\ (is_leaf c = false -> fwd d c' = fwd d c /\ rev_g d c' = rev_g d c) /\ (suppressed d c = true -> suppressed d c' = true).

Lemma step_mark_resolve d v c : step_child d v c (mark d (resolve d (s_child_alignment (slc d v)) c)).
Proof.
  unfold step_child. set (a := s_child_alignment (slc d v)). pose proof (mark_facts d (resolve d a c)) as (M1&M2&M3&M4&M5&M6&M7).
  pose proof (clen_resolve d a c) as (R1&R2&R3).
  split; [rewrite core_mark, core_resolve; reflexivity|]. split; [congruence|]. split; [congruence|]. split; [rewrite M1; apply align_resolve|]. split.
  - intros H. destruct (quiet_resolve d a c H) as [[Q | [Q1 Q2]] _]; [left; auto | right; split; congruence].
  - split; [|intros U; apply M7; congruence]. intros L. destruct (is_leaf c) eqn:L2; try discriminate.
    assert (X : fwd d (resolve d a c) = fwd d c /\ rev_g d (resolve d a c) = rev_g d c).
    { unfold resolve, fwd, rev_g in *. unfold is_leaf in *. rewrite placement_upd. destruct (v_placement c); try discriminate; rewrite slc_upd; auto. }
    destruct X. split; congruence.
Qed.
Lemma step_space d v c c' x : step_child d v c (mark d c') -> step_child d v c (mark d (set_space_before x c')).
Proof.
  assert (M : mark d (set_space_before x c') = set_space_before x (mark d c')).
  { unfold mark. unfold suppressed, align. rewrite slc_sb. destruct (s_suppress _); auto; destruct (_ || _); auto. destruct d; reflexivity. }
  rewrite M. unfold step_child, quiet, suppressed, fwd, rev_g, align, clen. rewrite core_sb, slc_sb. auto.
Qed.

Lemma gaps_final_nil final n : gaps [] final n = repeat final n.
Proof. induction n; cbn; f_equal; auto. Qed.
Lemma space_gaps sp final cs : map v_space_before (space sp final cs) = gaps sp final (length cs).
Proof. revert sp. induction cs as [|c cs IH]; intros [|x sp]; cbn; f_equal; auto. Qed.
Lemma space_length sp final cs : length (space sp final cs) = length cs.
Proof. revert sp. induction cs as [|c cs IH]; intros [|x sp]; cbn; auto. Qed.
Lemma space_Forall2 (R : view -> view -> Prop) sp final cs : Forall (fun c => forall x, R c (set_space_before x c)) cs -> Forall2 R cs (space sp final cs).
Proof. intros F. revert sp. induction F; intros [|y sp]; cbn; constructor; auto. Qed.

Lemma Forall2_map_l {A B C} (R : B -> C -> Prop) (f : A -> B) l l' : Forall2 (fun a c => R (f a) c) l l' -> Forall2 R (map f l) l'.
Proof. induction 1; cbn; constructor; auto. Qed.
Lemma Forall2_map_r {A B C} (R : A -> C -> Prop) (f : B -> C) l l' : Forall2 (fun a c => R a (f c)) l l' -> Forall2 R l (map f l').
Proof. induction 1; cbn; constructor; auto. Qed.

Lemma space_map_Forall2 (R : view -> view -> Prop) (f : view -> view) sp final cs : (forall c x, R c (set_space_before x (f c))) -> Forall2 R cs (space sp final (map f cs)).
Proof. intros F. revert sp. induction cs; intros [|y sp]; cbn; constructor; auto. Qed.

Lemma adjust_step d v cs : is_leaf v = false ->
  let r := adjust d v cs in
  key d (fst r) = key d v /\ clen d (fst r) = clen d v /\ s_place (slc d (fst r)) = s_place (slc d v) /\
  Forall2 (step_child d v) cs (snd r) /\
  (Forall (fun c => if is_leaf c then unguided d c else fwd d c = [] /\ rev_g d c = []) cs -> fwd d (fst r) = [] /\ rev_g d (fst r) = []) /\
  (is_with (v_placement v) d = true -> map v_space_before (snd r) = gaps (v_spacing v) (last_gap v) (length cs)).
Proof.
  intros L. cbv zeta. unfold adjust. rewrite L. cbn [fst snd].
  set (cs1 := if is_with _ _ then space _ _ _ else _). set (cs2 := map (mark d) cs1).
  assert (F : Forall2 (step_child d v) cs cs2).
  { subst cs2 cs1. apply Forall2_map_r. destruct (is_with (v_placement v) d).
    - apply space_map_Forall2. intros. apply step_space, step_mark_resolve.
    - apply Forall2_map_r. apply Forall2_self. apply Forall_forall. intros. apply step_mark_resolve. }
  repeat split; auto.
  - unfold key, core, align, suppressed. rewrite !slc_upd. rewrite slc_upd_other, placeable_upd, visible_upd, placement_upd, indent_upd, create_upd, spacing_upd, sb_upd. reflexivity.
  - unfold clen. rewrite slc_upd. reflexivity.
  - rewrite slc_upd. reflexivity.
  - unfold fwd. rewrite slc_upd. cbn [s_forward set_guides]. clearbody cs2.
    replace ((if is_with (v_placement v) d then count_with else count_cross) (map (fwd_of d) cs2)) with 0%nat; auto.
    clear cs1. destruct (is_with _ _); (induction F as [|c c' cs cs' S F IH]; [reflexivity|]; cbn; apply Forall_inv in H as H1; apply Forall_inv_tail in H as H2; specialize (IH H2); cbn in IH; destruct S as (_&_&_&_&Q&_); rewrite (quiet_fwd d c' (Q H1)); cbn; exact IH).
  - unfold rev_g. rewrite slc_upd. cbn [s_reverse set_guides]. clearbody cs2.
    replace ((if is_with (v_placement v) d then count_with else count_cross) (map (rev_of d) cs2)) with 0%nat; auto.
    clear cs1. destruct (is_with _ _); (induction F as [|c c' cs cs' S F IH]; [reflexivity|]; cbn; apply Forall_inv in H as H1; apply Forall_inv_tail in H as H2; specialize (IH H2); cbn in IH; destruct S as (_&_&_&_&Q&_); rewrite (quiet_rev d c' (Q H1)); cbn; exact IH).
  - intros W. subst cs2 cs1. rewrite W. rewrite map_map. rewrite (map_ext _ v_space_before).
    + rewrite space_gaps, map_length. reflexivity.
    + intros c. pose proof (mark_facts d c). tauto.
Qed.

(** ** The pass *)
Lemma ready_set_root d t w : ready d t -> core d (root t) = core d w -> (is_leaf (root t) = false -> fwd d w = fwd d (root t) /\ rev_g d w = rev_g d (root t)) -> ready d (set_root t w).
Proof.
  destruct t as [v ts]. unfold ready. change (set_root (Node v ts) w) with (Node w ts). cbn [root]. rewrite !every_node. intros [H K] C G. split; auto.
  unfold ready_here in *. rewrite <- (is_leaf_core _ _ _ C). destruct (is_leaf v); auto. destruct (G eq_refl) as [G1 G2]. rewrite G1, G2. destruct H as (H1&H2&H3&H4).
  destruct (core_inv _ _ _ C) as (P&_&_&SP&_&CA&_). rewrite <- P. unfold last_gap in *. rewrite <- SP. repeat split; auto.
  eapply Forall_impl; [|exact H1]. cbn. intros t (A&B&D). repeat split; auto. unfold alignment_in in *. rewrite <- CA. auto.
Qed.

Theorem adjust_pass d t : plain d t ->
  let t' := postorder (adjust d) t in
  ready d t' /\ adjusted d t t' /\ key d (root t') = key d (root t) /\
  (if is_leaf (root t) then root t' = root t else fwd d (root t') = [] /\ rev_g d (root t') = []).
Proof.
  induction t as [v ts IH] using tree_ind'. intros Pl. apply every_node in Pl as [Here Below]. cbv zeta. cbn [postorder root].
  set (us := map (postorder (adjust d)) ts).
  assert (U : Forall2 (fun t u => ready d u /\ adjusted d t u /\ key d (root u) = key d (root t) /\ (if is_leaf (root t) then root u = root t else fwd d (root u) = [] /\ rev_g d (root u) = [])) ts us).
  { subst us. clear Here. induction ts; cbn; constructor.
    - apply Forall_inv in IH, Below. apply IH. exact Below.
    - apply IHts; [apply Forall_inv_tail in IH | apply Forall_inv_tail in Below]; auto. }
  clearbody us. destruct (is_leaf v) eqn:L.
  - unfold plain_here in Here. rewrite L in Here. destruct Here as [UG ->]. inversion U; subst us. unfold adjust. rewrite L. cbn. repeat split; auto.
    unfold ready_here. rewrite L. reflexivity.
  - pose proof (adjust_step d v (map root us) L) as S. cbv zeta in S. destruct (adjust d v (map root us)) as [v' vs]. cbn [fst snd] in *. destruct S as (S1&S2&S3&S4&S5&S6).
    assert (G : Forall (fun c => if is_leaf c then unguided d c else fwd d c = [] /\ rev_g d c = []) (map root us)).
    { apply Forall_map. clear - U Below. induction U as [|t u ts us (R&A&K&E) U IH]; constructor.
      - apply Forall_inv in Below. destruct t as [w ws]. apply every_node in Below as [B _]. cbn [root] in *. unfold plain_here in B.
        apply key_inv in K as (K&_). rewrite (is_leaf_core _ _ _ K). destruct (is_leaf w); auto. rewrite E. tauto.
      - apply Forall_inv_tail in Below. auto. }
    destruct (S5 G) as [G1 G2]. assert (CV : core d v = core d v') by (apply key_inv in S1; symmetry; tauto).
    split; [|split; [|split; auto]].
    + unfold ready. apply every_node. split.
      * unfold ready_here. rewrite <- (is_leaf_core _ _ _ CV), L. destruct (core_inv _ _ _ CV) as (PL&_&_&SP&_&CA&_). rewrite <- PL. unfold last_gap in *. rewrite <- SP.
        assert (LEN : length us = length vs) by (apply Forall2_length in S4; rewrite map_length in S4; exact S4).
        split; [|split; [|split]]; auto.
        -- assert (Q : Forall (fun c' => quiet d c' /\ align d c' = alignment_in d v' c' /\ align d c' <> align_default) vs).
           { unfold plain_here in Here. rewrite L in Here. clear - S4 G Here CA. set (cs := map root us) in *. clearbody cs. induction S4 as [|c c' cs vs S F IH]; constructor.
             - apply Forall_inv in G. destruct S as (_&_&_&A&Q&_). split; [auto|].
               assert (X : align d c' <> align_default). { rewrite A. unfold alignment_in. unfold aligned in Here. destruct (align d c); try discriminate; auto. }
               split; auto. unfold alignment_in. destruct (align d c'); auto. congruence.
             - apply Forall_inv_tail in G. auto. }
           rewrite <- (map_root_set_roots us vs LEN) in Q. apply Forall_map in Q. exact Q.
        -- intros W. rewrite set_roots_length by auto. rewrite <- (map_map root v_space_before), map_root_set_roots by auto. rewrite <- (map_length root us). auto.
      * rewrite Forall_forall. intros x Hx. clear - S4 U Hx.
        set (R := fun x => ready d x). enough (Forall R (set_roots us vs)) by (rewrite Forall_forall in H; apply H, Hx).
        clear Hx x. revert vs S4. induction U as [|t u ts us (R1&A&K&E) U IH]; intros vs S4; inversion S4 as [|? c' ? vs' S F]; subst; unfold set_roots; cbn; constructor.
        -- subst R. cbn beta. destruct S as (C&_&_&_&_&FR&_). apply ready_set_root; auto.
        -- apply IH. exact F.
    + constructor; auto; [apply key_inv in S1 as (_&_&_&S1); congruence|].
      clear - S4 U. revert vs S4. induction U as [|t u ts us (R1&A&K&E) U IH]; intros vs S4; inversion S4 as [|? c' ? vs' S F]; subst; unfold set_roots; cbn; constructor.
      * destruct S as (C&CL&P&AL&_&FR&SU). pose proof (key_inv _ _ _ K) as (K1&K2&K3&K4). split.
        -- apply adjusted_set_root; auto; try (intros Z; apply SU; congruence); inversion A; subst; cbn [root] in *; congruence.
        -- cbn [set_root root]. rewrite AL. unfold alignment_in. rewrite K3. reflexivity.
      * apply IH. exact F.
Qed.
