(** Flat coordinates: everything lies in the window, leaves do not overlap. *)
From Verif Require Import Prelude Eve_Model Eve_Spec Eve_Base Eve_Adjust Eve_Solve Eve_Layout Eve_Place Eve_Run Eve_Total Eve_Whole Eve_Session Eve_History.
From Coq Require Import List ZArith Lia Bool.
Import ListNotations.
Open Scope Z_scope.
Ltac Zify.zify_post_hook ::= idtac.

Lemma in_order_inside d final hi ts : forall sp lo, Forall (fun x => 0 <= x) sp -> 0 <= final -> Forall (fun t => 0 <= plen d (root t)) ts -> in_order d sp final lo hi ts ->
  Forall (fun t => lo <= ppos d (root t) /\ ppos d (root t) + plen d (root t) <= hi) ts /\ lo <= hi.
Proof.
  induction ts as [|t ts IH]; intros sp lo SP FI PL H; cbn [in_order] in H; [split; [constructor|lia]|]. destruct H as (H1&H2&H3). apply Forall_inv in PL as P1. apply Forall_inv_tail in PL.
  assert (G : 0 <= gap sp final) by (unfold gap; destruct sp; [lia | apply Forall_inv in SP; lia]). assert (ST : Forall (fun x => 0 <= x) (tl sp)) by (destruct sp; auto; apply Forall_inv_tail in SP; auto).
  destruct (IH _ _ ST FI PL H3) as [A B]. split; [|lia]. constructor; [lia|]. eapply Forall_impl; [|exact A]. cbn beta. intros. lia.
Qed.
Lemma in_order_pairs d final hi ts : forall sp lo, Forall (fun x => 0 <= x) sp -> 0 <= final -> Forall (fun t => 0 <= plen d (root t)) ts -> in_order d sp final lo hi ts ->
  ForallOrdPairs (fun a b => ppos d (root a) + plen d (root a) <= ppos d (root b)) ts.
Proof.
  induction ts as [|t ts IH]; intros sp lo SP FI PL H; cbn [in_order] in H; constructor; destruct H as (H1&H2&H3); apply Forall_inv in PL as P1; apply Forall_inv_tail in PL;
    assert (ST : Forall (fun x => 0 <= x) (tl sp)) by (destruct sp; auto; apply Forall_inv_tail in SP; auto); eauto.
  destruct (in_order_inside _ _ _ _ _ _ ST FI PL H3) as [A _]. eapply Forall_impl; [|exact A]. cbn beta. intros. lia.
Qed.

(** what the numbers have to be *)
Definition neat (d : slice_select) (v : view) (ts : list (tree view)) : Prop :=
  0 <= near d v /\ 0 <= far d v /\ Forall (fun x => 0 <= x) (v_spacing v) /\ (is_leaf v = true -> ts = [])  /\ 0 <= e_length (s_extents (slc d v)).
Lemma last_nonneg (l : list Z) : Forall (fun x => 0 <= x) l -> 0 <= last l 0.
Proof. intros H. induction H as [|x l X H IH]; cbn; [lia|]. destruct l; auto. Qed.
Lemma natural_nonneg d t : every (neat d) t -> 0 <= natural d t.
Proof. destruct t as [v ts]. rewrite every_node. intros [(_&_&_&_&E) _]. cbn [natural]. destruct (is_leaf v); lia. Qed.
Lemma contained_long o d v ts : contained o d v ts -> is_leaf v = false -> Forall (fun t => natural d t <= plen d (root t)) ts.
Proof.
  unfold contained. intros C LF. rewrite LF in C. destruct (is_with (v_placement v) d).
  - revert C. generalize (origin o d v + near d v) (v_spacing v). clear. induction ts as [|t ts IH]; intros lo sp C; constructor; cbn [in_order] in C; destruct C as (_&C1&C2); eauto.
  - eapply Forall_impl; [|exact C]. cbn beta. tauto.
Qed.
Lemma contained_box d v ts : contained evaluate_flat d v ts -> neat d v ts -> Forall (every (neat d)) ts -> Forall (fun t => box_in d (root t) v) ts.
Proof.
  intros C (N1&N2&N3&N4&_) NS. destruct (is_leaf v) eqn:LF; [rewrite N4 by auto; constructor|]. pose proof (contained_long _ _ _ _ C LF) as L.
  assert (P : Forall (fun t => 0 <= plen d (root t)) ts) by (rewrite Forall_forall in *; intros t Ht; specialize (L t Ht); specialize (NS t Ht); apply natural_nonneg in NS; lia).
  unfold contained, origin, stops in C. rewrite LF in C. unfold box_in. destruct (is_with (v_placement v) d).
  - apply in_order_inside in C as [C _]; auto; [|apply last_nonneg; auto]. eapply Forall_impl; [|exact C]. cbn beta. intros. lia.
  - eapply Forall_impl; [|exact C]. cbn beta. intros. lia.
Qed.
Lemma views_inside d t : every (contained evaluate_flat d) t -> every (neat d) t -> Forall (fun v => box_in d v (root t)) (views t).
Proof.
  induction t as [v ts IH] using tree_ind'. rewrite !every_node. intros [C CS] [N NS]. cbn [views root]. constructor; [unfold box_in; lia|].
  pose proof (contained_box d v ts C N NS) as B. rewrite Forall_flat_map. rewrite Forall_forall in *. intros t Ht. specialize (IH t Ht (CS t Ht) (NS t Ht)). specialize (B t Ht). eapply Forall_impl; [|exact IH]. unfold box_in in *. intros. lia.
Qed.
Lemma leaves_views t : incl (leaves t) (views t).
Proof.
  induction t as [v ts IH] using tree_ind'. cbn [leaves views]. destruct (is_leaf v); [intros x [<- | []]; cbn; auto|]. intros x Hx. right. apply in_flat_map in Hx as (t&Ht&Hx). apply in_flat_map. exists t. split; auto. rewrite Forall_forall in IH. apply (IH t Ht); auto.
Qed.
Lemma ord_app {A} (R : A -> A -> Prop) l m : ForallOrdPairs R l -> ForallOrdPairs R m -> Forall (fun x => Forall (R x) m) l -> ForallOrdPairs R (l ++ m).
Proof. intros H M X. induction H as [|x l H1 H IH]; cbn; auto. constructor; [apply Forall_app; split; auto; apply Forall_inv in X; auto | apply IH; apply Forall_inv_tail in X; auto]. Qed.
Lemma leaves_apart t : every (fun v _ => v_placement v <> place_overlay) t -> (forall d, every (contained evaluate_flat d) t) -> (forall d, every (neat d) t) -> ForallOrdPairs apart (leaves t).
Proof.
  induction t as [v ts IH] using tree_ind'. intros O C N. rewrite every_node in O. destruct O as [OV OS]. assert (CC := fun d => proj1 (every_node _ v ts) (C d)). assert (NN := fun d => proj1 (every_node _ v ts) (N d)).
  cbn [leaves]. destruct (is_leaf v) eqn:LF; [repeat constructor|].
  assert (D : exists d, is_with (v_placement v) d = true) by (unfold is_leaf in LF; destruct (v_placement v); try congruence; [exists vertical | exists horizontal]; reflexivity). destruct D as (d&W).
  assert (OP : ForallOrdPairs (fun a b => ppos d (root a) + plen d (root a) <= ppos d (root b)) ts).
  { destruct (CC d) as [Cd Cs]. destruct (NN d) as [(N1&N2&N3&N4&_) Ns]. pose proof (contained_long _ _ _ _ Cd LF) as L. unfold contained in Cd. rewrite LF, W in Cd. eapply in_order_pairs; [| | |exact Cd]; auto; [apply last_nonneg; auto|].
    rewrite Forall_forall in *. intros t Ht. specialize (L t Ht). specialize (Ns t Ht). apply natural_nonneg in Ns. lia. }
  assert (INS : Forall (fun t => Forall (fun x => box_in d x (root t)) (leaves t)) ts).
  { destruct (CC d) as [_ Cs]. destruct (NN d) as [_ Ns]. rewrite Forall_forall in *. intros t Ht. pose proof (views_inside d t (Cs t Ht) (Ns t Ht)) as V. rewrite Forall_forall in *. intros x Hx. apply V, leaves_views; auto. }
  assert (CS : Forall (fun t => ForallOrdPairs apart (leaves t)) ts).
  { rewrite Forall_forall in *. intros t Ht. apply IH; auto; intros d'; [destruct (CC d') as [_ Cs] | destruct (NN d') as [_ Cs]]; rewrite Forall_forall in Cs; auto. }
  clear - OP INS CS. induction OP as [|t ts H OP IHo]; cbn [flat_map]; [constructor|]. apply Forall_inv in INS as I1. apply Forall_inv_tail in INS. apply Forall_inv in CS as C1. apply Forall_inv_tail in CS. apply ord_app; auto.
  rewrite Forall_forall in *. intros x Hx. apply Forall_forall. intros y Hy. apply in_flat_map in Hy as (u&Hu&Hy). specialize (H u Hu). specialize (I1 x Hx). specialize (INS u Hu). rewrite Forall_forall in INS. specialize (INS y Hy).
  unfold apart, box_in in *. destruct d; [left | right]; left; lia.
Qed.
Lemma neat_measured d t : every good_form t -> every (fun v _ => measured_from_width v) t -> every (neat d) t.
Proof.
  intros G M. eapply every_impl; [|exact (every_and _ _ _ G M)]. cbn beta. intros v ts [(F1&F2&M1&M2&M3) [E1 E2]].
  assert (E : 0 <= e_length (s_extents (slc d v)) /\ 0 <= fst (e_frame (s_extents (slc d v))) /\ 0 <= snd (e_frame (s_extents (slc d v)))).
  { destruct d; cbn [slc].
    - rewrite E1. destruct M1 as (?&?&?&_). auto.
    - destruct (measure_vertical (v_placeable v)) as [f|] eqn:EV; [destruct E2 as (e&p&->); destruct (M3 f eq_refl (fst (measure (v_placeable v)), e) (s_place (v_horizontal v), p)) as (?&?&?&_); auto | rewrite E2; destruct M2 as (?&?&?&_); auto]. }
  assert (F : formed d v ts) by (destruct d; auto). destruct F as (G1&G2&_&G4&G5&_). unfold neat, near, far, frame. destruct E as (L&E3&E4). conj; auto; try lia. intros LF. rewrite LF in G5. tauto.
Qed.
