(** Basic facts about the model of Eve: records, trees, traversals. *)
From Verif Require Import Prelude Eve_Model Eve_Spec.
From Coq Require Import List ZArith Lia Bool.
Import ListNotations.
Open Scope Z_scope.
Ltac Zify.zify_post_hook ::= idtac.

Lemma tree_ind' {A} (P : tree A -> Prop) : (forall a ts, Forall P ts -> P (Node a ts)) -> forall t, P t.
Proof.
  intros H. fix IH 1. intros [a ts]. apply H. induction ts as [|t ts IHts]; constructor; [apply IH|exact IHts].
Qed.

Lemma every_node {A} (P : A -> list (tree A) -> Prop) a ts : every P (Node a ts) <-> P a ts /\ Forall (every P) ts.
Proof.
  cbn [every]. split; intros [H K]; split; auto; clear H.
  - induction ts as [|t ts IH]; constructor; cbn [fold_right] in K; destruct K; auto.
  - induction K; cbn [fold_right]; auto.
Qed.
Lemma every_impl {A} (P Q : A -> list (tree A) -> Prop) t : (forall a ts, P a ts -> Q a ts) -> every P t -> every Q t.
Proof.
  intros I. induction t as [a ts IH] using tree_ind'. rewrite !every_node. intros [H K]. split; auto.
  rewrite Forall_forall in *. auto.
Qed.
Lemma every_and {A} (P Q : A -> list (tree A) -> Prop) t : every P t -> every Q t -> every (fun a ts => P a ts /\ Q a ts) t.
Proof.
  induction t as [a ts IH] using tree_ind'. rewrite !every_node. intros [H K] [H' K']. split; auto.
  rewrite Forall_forall in *. auto.
Qed.

Lemma slc_upd d f v : slc d (upd d f v) = f (slc d v).
Proof. destruct d; reflexivity. Qed.
Lemma placement_upd d f v : v_placement (upd d f v) = v_placement v. Proof. destruct d; reflexivity. Qed.
Lemma indent_upd d f v : v_indent (upd d f v) = v_indent v. Proof. destruct d; reflexivity. Qed.
Lemma create_upd d f v : v_create (upd d f v) = v_create v. Proof. destruct d; reflexivity. Qed.
Lemma spacing_upd d f v : v_spacing (upd d f v) = v_spacing v. Proof. destruct d; reflexivity. Qed.
Lemma sb_upd d f v : v_space_before (upd d f v) = v_space_before v. Proof. destruct d; reflexivity. Qed.
Lemma visible_upd d f v : v_visible (upd d f v) = v_visible v. Proof. destruct d; reflexivity. Qed.
Lemma placeable_upd d f v : v_placeable (upd d f v) = v_placeable v. Proof. destruct d; reflexivity. Qed.
Lemma slc_sb d x v : slc d (set_space_before x v) = slc d v. Proof. destruct d; reflexivity. Qed.
Lemma is_leaf_upd d f v : is_leaf (upd d f v) = is_leaf v. Proof. destruct d; reflexivity. Qed.
Definition other (d : slice_select) := match d with horizontal => vertical | vertical => horizontal end.
Lemma slc_upd_other d f v : slc (other d) (upd d f v) = slc (other d) v.
Proof. destruct d; reflexivity. Qed.

(** what no pass after adjust changes *)
Definition core (d : slice_select) (v : view) :=
  (v_placeable v, v_visible v, v_placement v, v_indent v, v_create v, v_spacing v, (s_balance (slc d v), s_margin (slc d v), s_child_alignment (slc d v), s_extents (slc d v)), slc (other d) v).
Definition key (d : slice_select) (v : view) := (core d v, v_space_before v, align d v, suppressed d v).

Lemma core_inv d v w : core d v = core d w ->
  v_placement v = v_placement w /\ v_indent v = v_indent w /\ v_create v = v_create w /\ v_spacing v = v_spacing w /\
  margin d v = margin d w /\ s_child_alignment (slc d v) = s_child_alignment (slc d w) /\ s_extents (slc d v) = s_extents (slc d w).
Proof. unfold core, margin. intros E. injection E as ???????????. repeat split; congruence. Qed.
Lemma key_inv d v w : key d v = key d w -> core d v = core d w /\ v_space_before v = v_space_before w /\ align d v = align d w /\ suppressed d v = suppressed d w.
Proof. unfold key. intros E. generalize (f_equal (fun x => fst (fst (fst x))) E) (f_equal (fun x => snd (fst (fst x))) E) (f_equal (fun x => snd (fst x)) E) (f_equal snd E). cbn [fst snd]. auto. Qed.

Lemma near_core d v w : core d v = core d w -> near d v = near d w.
Proof. intros E. apply core_inv in E as (_&_&_&_&M&_&X). unfold near, frame. rewrite M, X. reflexivity. Qed.
Lemma far_core d v w : core d v = core d w -> far d v = far d w.
Proof. intros E. apply core_inv in E as (_&_&_&_&M&_&X). unfold far, frame. rewrite M, X. reflexivity. Qed.
Lemma is_leaf_core d v w : core d v = core d w -> is_leaf v = is_leaf w.
Proof. intros E. apply core_inv in E as (M&_). unfold is_leaf. rewrite M. reflexivity. Qed.

(** trees with equal keys *)
Lemma Node_inj {A} (a b : A) ts us : Node a ts = Node b us -> a = b /\ ts = us.
Proof. intros E. injection E. auto. Qed.
Lemma cons_inj {A} (a b : A) ts us : a :: ts = b :: us -> a = b /\ ts = us.
Proof. intros E. injection E. auto. Qed.
Definition same_keys (d : slice_select) (t t' : tree view) : Prop := map_tree (key d) t = map_tree (key d) t'.
Lemma same_keys_node d v ts v' ts' : same_keys d (Node v ts) (Node v' ts') <-> key d v = key d v' /\ Forall2 (same_keys d) ts ts'.
Proof.
  unfold same_keys. cbn [map_tree]. split.
  - intros E. apply Node_inj in E as [K E]. split; auto. revert ts' E. induction ts as [|t ts IH]; intros [|t' ts'] E; try discriminate; constructor.
    + cbn in E. apply cons_inj in E. tauto.
    + apply IH. cbn in E. apply cons_inj in E. tauto.
  - intros [K E]. f_equal; auto. induction E; cbn; f_equal; auto.
Qed.
Lemma same_keys_root d t t' : same_keys d t t' -> key d (root t) = key d (root t').
Proof. destruct t, t'. intros H. apply same_keys_node in H. cbn. tauto. Qed.
Lemma same_keys_refl d t : same_keys d t t. Proof. reflexivity. Qed.
Lemma same_keys_trans d a b c : same_keys d a b -> same_keys d b c -> same_keys d a c. Proof. unfold same_keys. congruence. Qed.
Lemma same_keys_sym d a b : same_keys d a b -> same_keys d b a. Proof. unfold same_keys. congruence. Qed.

Lemma Forall2_length {A B} (R : A -> B -> Prop) l l' : Forall2 R l l' -> length l = length l'.
Proof. induction 1; cbn; auto. Qed.
Lemma Forall2_self {A} (R : A -> A -> Prop) l : Forall (fun x => R x x) l -> Forall2 R l l.
Proof. induction 1; constructor; auto. Qed.
Lemma Forall2_impl {A B} (R S : A -> B -> Prop) l l' : (forall a b, R a b -> S a b) -> Forall2 R l l' -> Forall2 S l l'.
Proof. induction 2; constructor; auto. Qed.

Lemma alignment_in_key d v c v' c' : s_child_alignment (slc d v) = s_child_alignment (slc d v') -> align d c = align d c' -> alignment_in d v c = alignment_in d v' c'.
Proof. unfold alignment_in. intros -> ->. reflexivity. Qed.

Lemma fold_max_ext (f g : view * Z -> Z) l l' : Forall2 (fun x y => f x = g y) l l' ->
  fold_right (fun c m => Z.max (f c) m) 0 l = fold_right (fun c m => Z.max (g c) m) 0 l'.
Proof. induction 1; cbn; congruence. Qed.

(** content depends only on the core of the view, and the alignment, indent and natural length of the children *)
Lemma content_ext d v v' cs cs' : core d v = core d v' ->
  Forall2 (fun x y => snd x = snd y /\ v_indent (fst x) = v_indent (fst y) /\ alignment_in d v (fst x) = alignment_in d v' (fst y)) cs cs' ->
  content d v cs = content d v' cs'.
Proof.
  intros C F. unfold content. rewrite (near_core _ _ _ C), (far_core _ _ _ C). f_equal. apply core_inv in C as (P&I&_&S&M&CA&X). rewrite P. unfold last_gap. rewrite S.
  destruct (is_with _ _).
  - f_equal. induction F as [|? ? ? ? [H _]]; cbn; congruence.
  - apply fold_max_ext. eapply Forall2_impl; [|exact F]. intros x y (A&B&D). unfold indent_in. rewrite A, D, B. reflexivity.
Qed.
Lemma natural_keys d t : forall t', same_keys d t t' -> natural d t = natural d t'.
Proof.
  induction t as [v ts IH] using tree_ind'. intros [v' ts'] S. apply same_keys_node in S as [K F].
  apply key_inv in K as (C&B&A&U). cbn [natural]. rewrite (is_leaf_core _ _ _ C). destruct (core_inv _ _ _ C) as (P&I&_&SP&M&CA&X). rewrite X.
  destruct (is_leaf v'); auto. f_equal. apply content_ext; auto.
  clear - IH F CA. revert IH. induction F as [|t t' ts ts' S F IHF]; intros IH; cbn; constructor.
  - cbn. apply Forall_inv in IH. pose proof (same_keys_root _ _ _ S) as K. apply key_inv in K as (C&B&A&U). apply core_inv in C as (P&I&_). repeat split; auto. apply alignment_in_key; auto.
  - apply IHF. apply Forall_inv_tail in IH. exact IH.
Qed.

Lemma set_roots_same {A} (ts : list (tree A)) : set_roots ts (map root ts) = ts.
Proof. unfold set_roots. induction ts as [|[a us] ts IH]; cbn; f_equal; auto. Qed.
Lemma map_root_set_roots {A} (ts : list (tree A)) vs : length ts = length vs -> map root (set_roots ts vs) = vs.
Proof. unfold set_roots. revert vs. induction ts as [|t ts IH]; intros [|v vs] E; cbn in *; try discriminate; f_equal; auto. Qed.
Lemma set_roots_length {A} (ts : list (tree A)) vs : length ts = length vs -> length (set_roots ts vs) = length ts.
Proof. intros E. unfold set_roots. rewrite map_length, combine_length. lia. Qed.
Lemma set_roots_Forall2 {A} (R : tree A -> tree A -> Prop) ts vs : Forall2 (fun t v => R t (set_root t v)) ts vs -> Forall2 R ts (set_roots ts vs).
Proof. unfold set_roots. induction 1; cbn; constructor; auto. Qed.

Lemma postorder_root {A} f (t : tree A) : exists ts, postorder f t = Node (fst (f (root t) (map root ts))) (set_roots ts (snd (f (root t) (map root ts)))) /\ ts = map (postorder f) (kids t).
Proof. destruct t as [a ts]. eexists. split; [reflexivity|reflexivity]. Qed.

(** a pass that keeps keys *)
Lemma postorder_keys d f t :
  (forall v cs, key d (fst (f v cs)) = key d v /\ map (key d) (snd (f v cs)) = map (key d) cs) -> same_keys d (postorder f t) t.
Proof.
  intros F. induction t as [v ts IH] using tree_ind'. cbn [postorder].
  set (us := map (postorder f) ts). assert (U : Forall2 (same_keys d) us ts).
  { subst us. clear - IH. induction IH; cbn; constructor; auto. }
  destruct (F v (map root us)) as [F1 F2]. apply same_keys_node. split; auto.
  clearbody us. set (vs := snd (f v (map root us))) in *. clearbody vs. clear F1 IH F.
  revert vs F2. induction U as [|u t us ts S U IH]; intros vs F2; destruct vs as [|w vs]; try discriminate.
  - constructor.
  - unfold set_roots. cbn. constructor.
    + destruct u as [a us0], t as [b ts0]. apply same_keys_node in S as [S1 S2]. apply same_keys_node. split; auto. cbn in F2. apply cons_inj in F2 as [F2 _]. congruence.
    + apply IH. cbn in F2. apply cons_inj in F2. tauto.
Qed.

(** two trees of the same shape, node by node *)
Inductive related (R : view -> view -> Prop) : tree view -> tree view -> Prop :=
  related_node v ts v' ts' : R v v' -> Forall2 (related R) ts ts' -> related R (Node v ts) (Node v' ts').
Lemma related_inv R v ts v' ts' : related R (Node v ts) (Node v' ts') -> R v v' /\ Forall2 (related R) ts ts'.
Proof. intros H. inversion H; subst. auto. Qed.
Lemma related_impl (R S : view -> view -> Prop) t : (forall v w, R v w -> S v w) -> forall t', related R t t' -> related S t t'.
Proof.
  intros I. induction t as [v ts IH] using tree_ind'. intros [v' ts'] H. apply related_inv in H as [H F]. constructor; auto.
  clear - IH F. revert IH. induction F; intros IH; constructor; [apply Forall_inv in IH; auto | apply Forall_inv_tail in IH; auto].
Qed.
Lemma related_trans (R S T : view -> view -> Prop) : (forall a b c, R a b -> S b c -> T a c) -> forall x y z, related R x y -> related S y z -> related T x z.
Proof.
  intros I x. induction x as [v ts IH] using tree_ind'. intros [v' ts'] [v'' ts''] H K. apply related_inv in H as [H F], K as [K G]. constructor; [eauto|].
  clear - IH F G. revert ts'' G IH. induction F; intros ts'' G IH; inversion G; subst; constructor; [apply Forall_inv in IH; eauto | apply Forall_inv_tail in IH; eauto].
Qed.
Lemma related_and (R S : view -> view -> Prop) t : forall t', related R t t' -> related S t t' -> related (fun v w => R v w /\ S v w) t t'.
Proof.
  induction t as [v ts IH] using tree_ind'. intros [v' ts'] H K. apply related_inv in H as [H F], K as [K G]. constructor; auto.
  clear - IH F G. revert G IH. induction F; intros G IH; inversion G; subst; constructor; [apply Forall_inv in IH; auto | apply Forall_inv_tail in IH; auto].
Qed.
Lemma related_every (R : view -> view -> Prop) (P Q : view -> list (tree view) -> Prop) t : (forall v ts v' ts', R v v' -> P v ts -> Q v' ts') -> forall t', related R t t' -> every P t -> every Q t'.
Proof.
  intros I. induction t as [v ts IH] using tree_ind'. intros [v' ts'] H E. apply related_inv in H as [H F]. apply every_node in E as [E1 E2]. apply every_node. split; [eauto|].
  clear - IH F E2. revert IH E2. induction F; intros IH E2; constructor; [apply Forall_inv in IH, E2; auto | apply Forall_inv_tail in IH, E2; auto].
Qed.
