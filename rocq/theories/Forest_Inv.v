(** The representation invariant of all forests over one node store, with a set
    [D] of detached nodes, and the primitive steps that preserve it. *)
From Coq Require Import Permutation.
From Verif Require Import Prelude Forest_Model Forest_Spec Forest_Words Forest_Links.
Ltac Zify.zify_post_hook ::= idtac.

Section Inv.
Context {T : Type}.
Notation store := (store (T := T)).
Notation sstate := (sstate T).

Definition mem (s : sstate) (i : iter) : Prop :=
  exists k rw, nth_error (words s) k = Some rw /\ In i (circle rw).

Record inv (h : store) (s : sstate) (D : word) : Prop := {
  i_nested : forall k r w, nth_error (words s) k = Some (r, w) -> nested w;
  i_nodup : forall k r w, nth_error (words s) k = Some (r, w) -> NoDup (circle (r, w));
  i_ring : forall k r w, nth_error (words s) k = Some (r, w) -> ring h r w;
  i_disj : forall k1 k2 rw1 rw2 i, nth_error (words s) k1 = Some rw1 -> nth_error (words s) k2 = Some rw2 ->
           In i (circle rw1) -> In i (circle rw2) -> k1 = k2;
  i_D : forall i, In i D -> mem s i -> False;
  i_nodupD : NoDup D;
  i_len : length h = length (vals s);
  i_in : forall i, mem s i \/ In i D -> dat h (fst i) = Some (nth (fst i) (vals s) None);
  i_out : forall n, dat h n <> None -> mem s (lead n) \/ In (lead n) D;
  i_some : forall i, (exists k r w, nth_error (words s) k = Some (r, w) /\ In i w) \/ In i D ->
           exists v, nth (fst i) (vals s) None = Some v }.

Definition frame (h h' : store) (W : word) : Prop :=
  length h' = length h /\ (forall n, dat h' n = dat h n) /\
  forall i, ~ In i W -> nx h' i = nx h i /\ px h' i = px h i.

Lemma frame_refl h W : frame h h W.
Proof. split; [reflexivity|]. split; [reflexivity|]. auto. Qed.
Lemma frame_trans h1 h2 h3 W : frame h1 h2 W -> frame h2 h3 W -> frame h1 h3 W.
Proof.
  intros (L1 & D1 & F1) (L2 & D2 & F2). split; [congruence|]. split; [congruence|].
  intros i Hi. destruct (F1 i Hi), (F2 i Hi). split; congruence.
Qed.
Lemma frame_weaken h h' W W' : frame h h' W -> incl W W' -> frame h h' W'.
Proof. intros (L & Dd & F) Hi. split; [exact L|]. split; [exact Dd|]. intros i Hn. apply F. auto. Qed.
Lemma frame_set_next h a b h' W : set_next_spec h a b h' -> In a W -> In b W -> frame h h' W.
Proof.
  intros S Ha Hb. split; [exact (sn_len _ _ _ _ S)|]. split; [exact (sn_dat _ _ _ _ S)|].
  intros i Hi. rewrite (sn_nx _ _ _ _ S), (sn_px _ _ _ _ S).
  rewrite !iter_eqb_neq; [auto| |]; intros ->; auto.
Qed.
Lemma chain_frame2 h h' W a w : frame h h' W -> (forall i, In i (a :: w) -> ~ In i W) -> chain h a w -> chain h' a w.
Proof.
  intros (_ & _ & F) Hd. apply chain_frame.
  - intros i Hi. apply F, Hd. clear - Hi. revert Hi. generalize (a :: w). intros l.
    induction l as [|x l IH]; [auto|]. destruct l as [|y l]; [intros []|].
    change (removelast (x :: y :: l)) with (x :: removelast (y :: l)). intros [->|Hi]; [now left|right; auto].
  - intros i Hi. apply F, Hd. now right.
Qed.

Lemma in_circle r w i : In i (circle (r, w)) <-> i = lead r \/ In i w \/ i = trail r.
Proof. unfold circle; cbn [fst snd In]. rewrite in_app_iff; cbn [In]. intuition congruence. Qed.
Lemma nodup_circle r w : NoDup (circle (r, w)) <-> NoDup w /\ ~ In (lead r) w /\ ~ In (trail r) w.
Proof.
  unfold circle; cbn [fst snd]. rewrite NoDup_cons_iff, nodup_app_iff, in_app_iff. cbn [In]. split.
  - intros (H1 & H2 & _ & H3). split; [exact H2|]. split; [tauto|]. intros Hi. apply (H3 _ Hi). auto.
  - intros (H1 & H2 & H3). split; [|split; [exact H1|split; [repeat constructor; auto|]]].
    + intros [?|[H|[]]]; [tauto|discriminate].
    + intros x Hx [<-|[]]. auto.
Qed.

Lemma mem_at s k rw i : nth_error (words s) k = Some rw -> In i (circle rw) -> mem s i.
Proof. intros H Hi. exists k, rw. auto. Qed.

Lemma nodup_wD h s D k r w : inv h s D -> nth_error (words s) k = Some (r, w) -> NoDup (w ++ D).
Proof.
  intros I Hk. apply nodup_app_iff. split; [exact (proj1 (proj1 (nodup_circle r w) (i_nodup _ _ _ I _ _ _ Hk)))|].
  split; [exact (i_nodupD _ _ _ I)|]. intros i Hi Hj. apply (i_D _ _ _ I i Hj).
  apply (mem_at s k (r, w)); [exact Hk|]. apply in_circle; auto.
Qed.

Lemma nth_upd_cases {A} (l : list A) k x j y : nth_error (upd l k x) j = Some y ->
  (j = k /\ y = x) \/ (j <> k /\ nth_error l j = Some y).
Proof.
  rewrite nth_error_upd. destruct (Nat.eqb_spec k j) as [->|].
  - destruct (j <? length l); [|discriminate]. intros E; injection E as ->. auto.
  - intros H. right; split; [congruence|exact H].
Qed.

Lemma inv_relink h h' s k r w D w' D' :
  inv h s D -> nth_error (words s) k = Some (r, w) -> frame h h' (circle (r, w) ++ D) ->
  nested w' -> ring h' r w' -> Permutation (w' ++ D') (w ++ D) ->
  inv h' (SS (upd (words s) k (r, w')) (vals s)) D'.
Proof.
  intros I Hk F Hn Hr P.
  pose proof (nodup_wD _ _ _ _ _ _ I Hk) as HND.
  assert (HND' : NoDup (w' ++ D')) by (eapply Permutation_NoDup; [symmetry; exact P|exact HND]).
  assert (Hin : forall i, In i w' \/ In i D' <-> In i w \/ In i D).
  { intros i. rewrite <- !in_app_iff. split; apply Permutation_in; [exact P|symmetry; exact P]. }
  pose proof (proj1 (nodup_circle r w) (i_nodup _ _ _ I _ _ _ Hk)) as (Hw1 & Hw2 & Hw3).
  assert (Hrl : forall i, i = lead r \/ i = trail r -> ~ In i w' /\ ~ In i D').
  { intros i Hi. assert (Hm : mem s i) by (apply (mem_at s k (r, w) i Hk), in_circle; tauto).
    assert (~ In i w) by (destruct Hi as [->| ->]; assumption).
    assert (~ In i D) by (intros ?; eapply (i_D _ _ _ I); eauto).
    specialize (Hin i). tauto. }
  assert (HNC : NoDup (circle (r, w'))).
  { apply nodup_circle. split; [apply nodup_app_iff in HND'; tauto|]. split; [apply (Hrl (lead r)); auto|apply (Hrl (trail r)); auto]. }
  assert (Hlen : k < length (words s)) by (apply nth_error_Some; congruence).
  assert (Hkk : nth_error (upd (words s) k (r, w')) k = Some (r, w')) by (now apply nth_error_upd_same).
  (* a node of another forest is in no touched word *)
  assert (Hoth : forall j rw i, j <> k -> nth_error (words s) j = Some rw -> In i (circle rw) ->
            ~ In i (circle (r, w) ++ D)).
  { intros j rw i Hj Hjn Hi. rewrite in_app_iff. intros [Hc|Hc].
    - apply Hj. eapply (i_disj _ _ _ I); eauto.
    - eapply (i_D _ _ _ I); [exact Hc|]. eapply mem_at; eauto. }
  assert (Hmem : forall i, mem (SS (upd (words s) k (r, w')) (vals s)) i <->
            In i (circle (r, w')) \/ exists j rw, j <> k /\ nth_error (words s) j = Some rw /\ In i (circle rw)).
  { intros i; split.
    - intros (j & rw & Hj & Hi). cbn [words] in Hj. apply nth_upd_cases in Hj.
      destruct Hj as [(-> & ->)|(Hj & Hjn)]; [auto|right; eauto].
    - intros [Hi|(j & rw & Hj & Hjn & Hi)].
      + exists k, (r, w'). auto.
      + exists j, rw. cbn [words]. rewrite nth_error_upd_other by congruence. auto. }
  assert (Hmem' : forall i, mem (SS (upd (words s) k (r, w')) (vals s)) i \/ In i D' <-> mem s i \/ In i D).
  { intros i. rewrite Hmem, in_circle. specialize (Hin i). split.
    - intros [[Hi|(j & rw & Hj & Hjn & Hi)]|Hi].
      + assert (Hx : In i w \/ In i D \/ i = lead r \/ i = trail r) by tauto.
        destruct Hx as [Hx|[Hx|Hx]]; [left|right; exact Hx|left]; apply (mem_at s k (r, w) i Hk), in_circle; tauto.
      + left. eapply mem_at; eauto.
      + assert (Hx : In i w \/ In i D) by tauto. destruct Hx as [Hx|Hx]; [left|right; exact Hx].
        apply (mem_at s k (r, w) i Hk), in_circle; tauto.
    - intros [(j & rw & Hjn & Hi)|Hi]; [|tauto].
      destruct (Nat.eq_dec j k) as [->|Hj]; [|left; right; eauto].
      rewrite Hk in Hjn; injection Hjn as <-. apply in_circle in Hi. tauto. }
  destruct F as (FL & FD & FF).
  split; cbn [words vals].
  - intros j r0 w0 Hj. apply nth_upd_cases in Hj. destruct Hj as [(-> & E)|(Hj & Hjn)].
    + injection E as -> ->. exact Hn.
    + eapply (i_nested _ _ _ I); eauto.
  - intros j r0 w0 Hj. apply nth_upd_cases in Hj. destruct Hj as [(-> & E)|(Hj & Hjn)].
    + injection E as -> ->. exact HNC.
    + eapply (i_nodup _ _ _ I); eauto.
  - intros j r0 w0 Hj. apply nth_upd_cases in Hj. destruct Hj as [(-> & E)|(Hj & Hjn)].
    + injection E as -> ->. exact Hr.
    + pose proof (i_ring _ _ _ I _ _ _ Hjn) as Hring. unfold ring in *.
      eapply chain_frame2; [split; [exact FL|split; [exact FD|exact FF]]| |exact Hring].
      intros i Hi. apply (Hoth j (r0, w0)); [exact Hj|exact Hjn|].
      destruct Hi as [<-|Hi]; [apply in_circle; auto|exact Hi].
  - intros j1 j2 rw1 rw2 i H1 H2 Hi1 Hi2.
    apply nth_upd_cases in H1, H2.
    assert (Hin' : forall rw j, j <> k -> nth_error (words s) j = Some rw -> In i (circle rw) -> In i (circle (r, w')) -> False).
    { intros rw j Hj Hjn Hi Hi'. apply (Hoth j rw i Hj Hjn Hi). apply in_circle in Hi'.
      rewrite in_app_iff, in_circle. specialize (Hin i). tauto. }
    destruct H1 as [(-> & ->)|(Hj1 & H1)]; destruct H2 as [(-> & ->)|(Hj2 & H2)].
    + reflexivity.
    + exfalso. eapply Hin'; [exact Hj2|exact H2|exact Hi2|exact Hi1].
    + exfalso. eapply Hin'; [exact Hj1|exact H1|exact Hi1|exact Hi2].
    + eapply (i_disj _ _ _ I); eauto.
  - intros i Hi Hm. rewrite Hmem in Hm. destruct Hm as [Hc|(j & rw & Hj & Hjn & Hi')].
    + apply in_circle in Hc. apply nodup_app_iff in HND'. destruct HND' as (_ & _ & HX).
      destruct Hc as [Hc|[Hc|Hc]].
      * exact (proj2 (Hrl i (or_introl Hc)) Hi).
      * exact (HX _ Hc Hi).
      * exact (proj2 (Hrl i (or_intror Hc)) Hi).
    + apply (Hoth j rw i Hj Hjn Hi'). rewrite in_app_iff, in_circle. specialize (Hin i). tauto.
  - apply nodup_app_iff in HND'. tauto.
  - rewrite FL. exact (i_len _ _ _ I).
  - intros i Hi. rewrite FD. apply (i_in _ _ _ I). apply Hmem'. exact Hi.
  - intros n Hd. rewrite FD in Hd. apply Hmem'. exact (i_out _ _ _ I n Hd).
  - intros i Hi. apply (i_some _ _ _ I).
    destruct Hi as [(j & r0 & w0 & Hj & Hi)|Hi].
    + apply nth_upd_cases in Hj. destruct Hj as [(-> & E)|(Hj & Hjn)].
      * injection E as -> ->. assert (Hx : In i w \/ In i D) by (apply Hin; auto).
        destruct Hx; [left; eauto|auto].
      * left; eauto.
    + assert (Hx : In i w \/ In i D) by (apply Hin; auto). destruct Hx; [left; eauto|auto].
Qed.

(** ** Positions *)
Lemma circle_split r a b : circle (r, a ++ b) = removelast (lead r :: a) ++ last a (lead r) :: hd (trail r) b :: tl (b ++ [trail r]).
Proof.
  unfold circle; cbn [fst snd].
  assert (E : lead r :: a = removelast (lead r :: a) ++ [last a (lead r)]).
  { rewrite <- (last_cons (lead r) a (lead r)). apply app_removelast_last. discriminate. }
  change (lead r :: (a ++ b) ++ [trail r]) with (((lead r :: a) ++ b) ++ [trail r]).
  set (R := removelast (lead r :: a)) in *. set (l := last a (lead r)) in *. clearbody R l.
  rewrite E. lapp. destruct b; reflexivity.
Qed.

Lemma inv_incr h s D k r a b : inv h s D -> nth_error (words s) k = Some (r, a ++ b) ->
  increment h (last a (lead r)) = Some (hd (trail r) b).
Proof.
  intros I Hk. eapply ring_increment;
    [exact (i_nested _ _ _ I _ _ _ Hk)|exact (i_nodup _ _ _ I _ _ _ Hk)|exact (i_ring _ _ _ I _ _ _ Hk)|apply circle_split].
Qed.
Lemma inv_decr h s D k r a b : inv h s D -> nth_error (words s) k = Some (r, a ++ b) ->
  decrement h (hd (trail r) b) = Some (last a (lead r)).
Proof.
  intros I Hk. eapply ring_decrement;
    [exact (i_nested _ _ _ I _ _ _ Hk)|exact (i_nodup _ _ _ I _ _ _ Hk)|exact (i_ring _ _ _ I _ _ _ Hk)|apply circle_split].
Qed.
Lemma inv_alive h s D k rw i : inv h s D -> nth_error (words s) k = Some rw -> In i (circle rw) ->
  dat h (fst i) <> None.
Proof.
  intros I Hk Hi. rewrite (i_in _ _ _ I i); [discriminate|]. left. eapply mem_at; eauto.
Qed.
Lemma in_pos_before r a b : In (last a (lead r)) (circle (r, a ++ b)).
Proof. rewrite circle_split, in_app_iff; cbn; auto. Qed.
Lemma in_pos_after r a b : In (hd (trail r) b) (circle (r, a ++ b)).
Proof. rewrite circle_split, in_app_iff; cbn; auto. Qed.

(** ** Joining chains *)
Lemma removelast_in {A} (l : list A) x : In x (removelast l) -> In x l.
Proof.
  induction l as [|y l IH]; [auto|]. destruct l as [|z l]; [intros []|].
  change (removelast (y :: z :: l)) with (y :: removelast (z :: l)). intros [->|H]; [now left|right; auto].
Qed.

Lemma chain_join (h h1 : store) s A p q B : set_next_spec h p q h1 -> NoDup (A ++ p :: q :: B) -> s <> p ->
  chain h s (A ++ [p]) -> chain h q B -> chain h1 s (A ++ p :: q :: B).
Proof.
  intros S Hd Hs H1 H2. apply nodup_app_iff in Hd. destruct Hd as (_ & Hd & HAB).
  apply NoDup_cons_iff in Hd. destruct Hd as (Hp & Hd). apply NoDup_cons_iff in Hd. destruct Hd as (Hq & _).
  apply chain_cons_app. split.
  - eapply chain_set_next; [exact S| | |exact H1].
    + change (s :: A ++ [p]) with ((s :: A) ++ [p]). rewrite removelast_app by discriminate. cbn [removelast].
      rewrite app_nil_r. intros [E|Hi]; [congruence|]. apply (HAB _ Hi). cbn; auto.
    + rewrite in_app_iff. intros [Hi|[E|[]]]; [apply (HAB _ Hi); cbn; auto|apply Hp; rewrite E; cbn; auto].
  - cbn [chain]. split; [eapply linked_set_next; exact S|].
    eapply chain_set_next; [exact S| |exact Hq|exact H2].
    intros Hi. apply removelast_in in Hi. auto.
Qed.

Lemma chain_unlink (h h1 : store) s A p u q B : set_next_spec h p q h1 -> NoDup (A ++ p :: u ++ q :: B) -> s <> p ->
  chain h s (A ++ p :: u ++ q :: B) -> chain h1 s (A ++ p :: q :: B).
Proof.
  intros S Hd Hs Hc. eapply chain_join; [exact S| |exact Hs| |].
  - apply nodup_app_iff in Hd. destruct Hd as (H1 & H2 & H3). apply nodup_app_iff.
    split; [exact H1|]. rewrite app_comm_cons in H2. apply nodup_app_iff in H2. destruct H2 as (H4 & H5 & H6). split.
    + apply NoDup_cons; [|exact H5]. intros Hi. apply (H6 p); cbn; auto.
    + intros x Hx Hi. apply (H3 x Hx). cbn [In] in *. rewrite in_app_iff. cbn [In]. tauto.
  - apply chain_cons_app in Hc. tauto.
  - apply chain_cons_app in Hc. destruct Hc as (_ & Hc). apply chain_cons_app in Hc. tauto.
Qed.

(** [seg u]: the elements of [u] are linked in order. *)
Definition seg (h : store) (u : word) : Prop := match u with [] => True | x :: rest => chain h x rest end.

Lemma chain_seg (h : store) s u : chain h s u -> seg h u.
Proof. destruct u; cbn; tauto. Qed.

Lemma circle_split3 r a u b : circle (r, a ++ u ++ b) =
  removelast (lead r :: a) ++ last a (lead r) :: u ++ hd (trail r) b :: tl (b ++ [trail r]).
Proof.
  unfold circle; cbn [fst snd].
  assert (E : lead r :: a = removelast (lead r :: a) ++ [last a (lead r)]).
  { rewrite <- (last_cons (lead r) a (lead r)). apply app_removelast_last. discriminate. }
  change (lead r :: (a ++ u ++ b) ++ [trail r]) with (((lead r :: a) ++ u ++ b) ++ [trail r]).
  set (R := removelast (lead r :: a)) in *. set (l := last a (lead r)) in *. clearbody R l.
  rewrite E. lapp. destruct b; reflexivity.
Qed.

Lemma trail_root_not_before h s D k r a b : inv h s D -> nth_error (words s) k = Some (r, a ++ b) ->
  trail r <> last a (lead r).
Proof.
  intros I Hk E. pose proof (i_nodup _ _ _ I _ _ _ Hk) as Hd. apply nodup_circle in Hd.
  destruct Hd as (_ & _ & Hd). apply Hd. destruct a as [|x a]; [discriminate|].
  rewrite in_app_iff. left. rewrite E. apply last_in. discriminate.
Qed.

(** ** Detaching a range of siblings, attaching it, creating and deleting nodes *)
Lemma detach_ok h s k r a u b : inv h s [] -> nth_error (words s) k = Some (r, a ++ u ++ b) -> nested u ->
  exists h', set_next_spec h (last a (lead r)) (hd (trail r) b) h' /\
    inv h' (SS (upd (words s) k (r, a ++ b)) (vals s)) u /\ seg h' u.
Proof.
  intros I Hk Hu.
  pose proof (i_nodup _ _ _ I _ _ _ Hk) as Hd. pose proof (i_ring _ _ _ I _ _ _ Hk) as Hr. unfold ring in Hr.
  assert (Hp : In (last a (lead r)) (circle (r, a ++ u ++ b))) by apply in_pos_before.
  assert (Hq : In (hd (trail r) b) (circle (r, a ++ u ++ b))) by (rewrite app_assoc; apply in_pos_after).
  destruct (set_next_ok h (last a (lead r)) (hd (trail r) b)) as (h' & S);
    [eapply inv_alive; eauto|eapply inv_alive; eauto|].
  exists h'. split; [exact S|].
  assert (Hs : trail r <> last a (lead r)) by (eapply trail_root_not_before; eauto).
  rewrite circle_split3 in Hd, Hr. split.
  - eapply inv_relink; [exact I|exact Hk| | | |].
    + eapply frame_set_next; [exact S| |]; rewrite in_app_iff; auto.
    + eapply nested_remove; [exact Hu|]. exact (i_nested _ _ _ I _ _ _ Hk).
    + unfold ring. rewrite circle_split. eapply chain_unlink; [exact S|exact Hd|exact Hs|exact Hr].
    + rewrite app_nil_r, <- app_assoc. apply Permutation_app_head. apply Permutation_app_comm.
  - rewrite chain_app in Hr. destruct Hr as (_ & Hr). cbn [chain] in Hr. destruct Hr as (_ & Hr).
    rewrite chain_app in Hr. destruct Hr as (Hr & _).
    apply nodup_app_iff in Hd. destruct Hd as (_ & Hd & _). apply NoDup_cons_iff in Hd. destruct Hd as (Hd1 & Hd2).
    destruct u as [|x u]; [exact Logic.I|]. cbn [seg]. cbn [chain] in Hr. destruct Hr as (_ & Hr).
    eapply chain_set_next; [exact S| | |exact Hr].
    + intros Hi. apply removelast_in in Hi. apply Hd1. rewrite in_app_iff. auto.
    + intros Hi. apply nodup_app_iff in Hd2. destruct Hd2 as (_ & _ & Hd2). apply (Hd2 (hd (trail r) b)); cbn; auto.
Qed.

Lemma nodup_circle_D h s D k r w : inv h s D -> nth_error (words s) k = Some (r, w) -> NoDup (circle (r, w) ++ D).
Proof.
  intros I Hk. apply nodup_app_iff. split; [exact (i_nodup _ _ _ I _ _ _ Hk)|].
  split; [exact (i_nodupD _ _ _ I)|]. intros i Hi Hj. apply (i_D _ _ _ I i Hj).
  eapply mem_at; eauto.
Qed.

Lemma attach_ok h s k r a u b : inv h s u -> nth_error (words s) k = Some (r, a ++ b) -> nested u -> seg h u -> u <> [] ->
  exists h1 h2, set_next_spec h (last a (lead r)) (hd (trail r) u) h1 /\
    set_next_spec h1 (last u (lead r)) (hd (trail r) b) h2 /\
    inv h2 (SS (upd (words s) k (r, a ++ u ++ b)) (vals s)) [] /\
    (seg h1 u).
Proof.
  intros I Hk Hu Hsg Hne.
  pose proof (nodup_circle_D _ _ _ _ _ _ I Hk) as Hd. pose proof (i_ring _ _ _ I _ _ _ Hk) as Hr. unfold ring in Hr.
  assert (Hp : In (last a (lead r)) (circle (r, a ++ b))) by apply in_pos_before.
  assert (Hq : In (hd (trail r) b) (circle (r, a ++ b))) by apply in_pos_after.
  assert (Hhu : In (hd (trail r) u) u) by (destruct u; [congruence|cbn; auto]).
  assert (Hlu : In (last u (lead r)) u) by (now apply last_in).
  assert (HaD : forall i, In i u -> dat h (fst i) <> None).
  { intros i Hi. rewrite (i_in _ _ _ I i); [discriminate|auto]. }
  destruct (set_next_ok h (last a (lead r)) (hd (trail r) u)) as (h1 & S1);
    [eapply inv_alive; eauto|auto|].
  destruct (set_next_ok h1 (last u (lead r)) (hd (trail r) b)) as (h2 & S2);
    [rewrite (sn_dat _ _ _ _ S1); auto|rewrite (sn_dat _ _ _ _ S1); eapply inv_alive; eauto|].
  exists h1, h2. split; [exact S1|]. split; [exact S2|].
  assert (Hs : trail r <> last a (lead r)) by (eapply trail_root_not_before; eauto).
  set (p := last a (lead r)) in *. set (q := hd (trail r) b) in *.
  assert (Hperm : Permutation ((circle (r, a ++ b)) ++ u) (circle (r, a ++ u ++ b))).
  { unfold circle; cbn [fst snd app]. apply perm_skip. rewrite <- !app_assoc. apply Permutation_app_head.
    rewrite app_assoc. apply Permutation_app_comm. }
  assert (Hd' : NoDup (circle (r, a ++ u ++ b))) by (eapply Permutation_NoDup; [exact Hperm|exact Hd]).
  rewrite circle_split in Hr. rewrite circle_split3 in Hd'. fold p q in Hr, Hd'.
  set (A := removelast (lead r :: a)) in *. set (B := tl (b ++ [trail r])) in *.
  assert (HrA : chain h (trail r) (A ++ [p])) by (apply chain_cons_app in Hr; tauto).
  assert (HrB : chain h q B).
  { apply chain_cons_app in Hr. destruct Hr as (_ & Hr). cbn [chain] in Hr. tauto. }
  destruct u as [|x u']; [congruence|]. cbn [hd] in *.
  assert (HdA : NoDup (A ++ p :: x :: u')).
  { change (A ++ p :: (x :: u') ++ q :: B) with (A ++ (p :: x :: u') ++ q :: B) in Hd'.
    rewrite app_assoc in Hd'. apply nodup_app_iff in Hd'. tauto. }
  assert (C1 : chain h1 (trail r) (A ++ p :: x :: u')).
  { eapply chain_join; [exact S1|exact HdA|exact Hs|exact HrA|exact Hsg]. }
  assert (Hseg1 : seg h1 (x :: u')).
  { rewrite chain_app in C1. cbn [chain] in C1. cbn [seg]. tauto. }
  assert (CB : chain h1 q B).
  { eapply chain_set_next; [exact S1| | |exact HrB].
    - intros Hi. apply removelast_in in Hi.
      apply nodup_app_iff in Hd'. destruct Hd' as (_ & Hd' & _). apply NoDup_cons_iff in Hd'.
      destruct Hd' as (Hd' & _). apply Hd'. rewrite in_app_iff. auto.
    - intros Hi. apply nodup_app_iff in Hd'. destruct Hd' as (_ & Hd' & _). apply NoDup_cons_iff in Hd'.
      destruct Hd' as (_ & Hd'). apply nodup_app_iff in Hd'. destruct Hd' as (_ & _ & Hd'). apply (Hd' x); cbn; auto. }
  split; [|exact Hseg1].
  eapply inv_relink; [exact I|exact Hk| | | |].
  - eapply frame_trans; [eapply frame_set_next; [exact S1| |]|eapply frame_set_next; [exact S2| |]];
      rewrite in_app_iff; auto; right; cbn; auto.
  - apply nested_insert; [exact Hu|]. exact (i_nested _ _ _ I _ _ _ Hk).
  - unfold ring. rewrite circle_split3. fold p q A B.
    assert (Eu : x :: u' = removelast (x :: u') ++ [last (x :: u') (lead r)]) by (apply app_removelast_last; discriminate).
    set (l := last (x :: u') (lead r)) in *. set (u0 := removelast (x :: u')) in *.
    rewrite Eu in C1, Hd' |- *.
    replace (A ++ p :: (u0 ++ [l]) ++ q :: B) with ((A ++ p :: u0) ++ l :: q :: B) in * by now lapp.
    eapply chain_join; [exact S2|exact Hd'| | |exact CB].
    + intros El. rewrite <- El in Hlu. clear - I Hk Hlu.
      apply (i_D _ _ _ I _ Hlu). eapply mem_at; [exact Hk|]. apply in_circle; auto.
    + replace ((A ++ p :: u0) ++ [l]) with (A ++ p :: u0 ++ [l]) by now lapp. exact C1.
  - rewrite app_nil_r, <- app_assoc. apply Permutation_app_head. apply Permutation_app_comm.
Qed.

Lemma get_app_old (h : store) x n : n < length h -> get (h ++ [x]) n = get h n.
Proof. intros H. unfold get. now rewrite nth_error_app1 by exact H. Qed.
Lemma get_app_new (h : store) x : get (h ++ [x]) (length h) = x.
Proof. unfold get. rewrite nth_error_app2 by lia. rewrite Nat.sub_diag. cbn. destruct x; reflexivity. Qed.
Lemma get_none (h : store) n : length h <= n -> get h n = None.
Proof. intros H. unfold get. apply nth_error_None in H. now rewrite H. Qed.

Lemma inv_lt h s D i : inv h s D -> mem s i \/ In i D -> fst i < length h.
Proof. intros I Hi. apply dat_lt. rewrite (i_in _ _ _ I i Hi). discriminate. Qed.

Lemma chain_app_store (h : store) x a w : chain h a w -> chain (h ++ [x]) a w.
Proof.
  revert a; induction w as [|b w IH]; intros a; cbn [chain]; [auto|].
  intros (Hl & Hc). split; [|auto]. pose proof (linked_alive _ _ _ Hl) as (Ha & Hb).
  apply dat_lt in Ha, Hb. unfold linked, nx, px in *. now rewrite !get_app_old.
Qed.

Lemma nth_app_old {A} (l : list A) x n d : n < length l -> nth n (l ++ [x]) d = nth n l d.
Proof. intros H. now apply app_nth1. Qed.

Lemma dat_app_new (h : store) n v : n = length h -> dat (h ++ [Some (Node n n n n v)]) n = Some v.
Proof. intros ->. unfold dat. now rewrite get_app_new. Qed.
Lemma dat_app_old (h : store) x n : n < length h -> dat (h ++ [x]) n = dat h n.
Proof. intros H. unfold dat. now rewrite get_app_old. Qed.

Lemma new_linked (h : store) n v : n = length h -> let h' := h ++ [Some (Node n n n n v)] in
  linked h' (lead n) (trail n) /\ linked h' (trail n) (lead n).
Proof. intros ->; cbn zeta. unfold linked, nx, px, lead, trail; cbn [fst snd]. rewrite get_app_new. cbn. auto. Qed.

Lemma mem_same_words s s' i : words s = words s' -> mem s i <-> mem s' i.
Proof. unfold mem. intros ->. reflexivity. Qed.

Lemma new_node_ok h s v : inv h s [] -> let n := length (vals s) in
  let h' := h ++ [Some (Node n n n n (Some v))] in
  new_node h (Some v) = (h', n) /\ inv h' (SS (words s) (vals s ++ [Some v])) [lead n; trail n] /\
  seg h' [lead n; trail n].
Proof.
  intros I n h'. pose proof (i_len _ _ _ I) as HL.
  assert (Hn : n = length h) by (unfold n; congruence).
  split; [unfold new_node, h'; now rewrite <- Hn|].
  destruct (new_linked h n (Some v) Hn) as (L1 & _).
  split; [|cbn [seg chain]; auto].
  assert (Hm : forall i, mem (SS (words s) (vals s ++ [Some v])) i <-> mem s i) by (intros i; apply mem_same_words; reflexivity).
  split; cbn [words vals].
  - exact (i_nested _ _ _ I).
  - exact (i_nodup _ _ _ I).
  - intros k r w Hk. apply chain_app_store. exact (i_ring _ _ _ I _ _ _ Hk).
  - exact (i_disj _ _ _ I).
  - intros i Hi Hmi. rewrite Hm in Hmi.
    pose proof (inv_lt _ _ _ i I (or_introl Hmi)) as Hlt. cbn [In] in Hi.
    destruct Hi as [<-|[<-|[]]]; cbn [fst lead trail] in Hlt; lia.
  - constructor; [cbn; intros [E|[]]; discriminate|]. constructor; [cbn; auto|constructor].
  - unfold h'. rewrite !app_length, HL. reflexivity.
  - intros i [Hi|Hi].
    + rewrite Hm in Hi. pose proof (inv_lt _ _ _ i I (or_introl Hi)) as Hlt.
      unfold h'. rewrite dat_app_old by exact Hlt. rewrite nth_app_old by lia. apply (i_in _ _ _ I); auto.
    + assert (E : fst i = n) by (destruct Hi as [<-|[<-|[]]]; reflexivity). rewrite E.
      unfold h'. rewrite dat_app_new by exact Hn. unfold n. rewrite app_nth2 by lia. now rewrite Nat.sub_diag.
  - intros m Hdm. destruct (Nat.eq_dec m n) as [->|Hmn]; [right; cbn; auto|].
    assert (Hlt : m < length h').
    { apply dat_lt. exact Hdm. }
    unfold h' in Hlt. rewrite app_length in Hlt; cbn [length] in Hlt.
    unfold h' in Hdm. rewrite dat_app_old in Hdm by lia.
    destruct (i_out _ _ _ I _ Hdm) as [Hx|[]]. left. now apply Hm.
  - intros i [(k & r & w & Hk & Hi)|Hi].
    + destruct (i_some _ _ _ I i) as (v' & Hv); [left; eauto|].
      assert (Hlt : fst i < length h).
      { apply (inv_lt _ _ _ i I). left. eapply mem_at; [exact Hk|]. apply in_circle; auto. }
      exists v'. rewrite nth_app_old by lia. exact Hv.
    + assert (E : fst i = n) by (destruct Hi as [<-|[<-|[]]]; reflexivity). rewrite E. exists v.
      unfold n. rewrite app_nth2 by lia. now rewrite Nat.sub_diag.
Qed.

Lemma new_forest_ok h s : inv h s [] -> let n := length (vals s) in
  let h' := h ++ [Some (Node n n n n None)] in
  new_forest h = (h', F n 0) /\ inv h' (SS (words s ++ [(n, [])]) (vals s ++ [None])) [].
Proof.
  intros I n h'. pose proof (i_len _ _ _ I) as HL.
  assert (Hn : n = length h) by (unfold n; congruence).
  split; [unfold new_forest, new_node, h'; now rewrite <- Hn|].
  destruct (new_linked h n None Hn) as (L1 & L2). fold h' in L1, L2.
  set (s' := SS (words s ++ [(n, [])]) (vals s ++ [None])).
  assert (Hcase : forall k rw, nth_error (words s') k = Some rw ->
            (nth_error (words s) k = Some rw) \/ (k = length (words s) /\ rw = (n, []))).
  { intros k rw Hk. cbn [words s'] in Hk. destruct (Nat.lt_ge_cases k (length (words s))) as [Hlt|Hge].
    - rewrite nth_error_app1 in Hk by exact Hlt. auto.
    - rewrite nth_error_app2 in Hk by exact Hge. destruct (k - length (words s)) as [|j] eqn:Ej.
      + cbn in Hk. injection Hk as <-. right. split; [lia|reflexivity].
      + destruct j; discriminate. }
  assert (Hold : forall k rw, nth_error (words s) k = Some rw -> nth_error (words s') k = Some rw).
  { intros k rw Hk. cbn [words s']. rewrite nth_error_app1; [exact Hk|]. apply nth_error_Some. congruence. }
  assert (Hnew : nth_error (words s') (length (words s)) = Some (n, [])).
  { cbn [words s']. rewrite nth_error_app2, Nat.sub_diag by lia. reflexivity. }
  assert (Hm : forall i, mem s' i <-> mem s i \/ i = lead n \/ i = trail n).
  { intros i; split.
    - intros (k & rw & Hk & Hi). destruct (Hcase _ _ Hk) as [Hk'|(-> & ->)].
      + left; eapply mem_at; eauto.
      + apply in_circle in Hi. cbn [In] in Hi. tauto.
    - intros [(k & rw & Hk & Hi)|Hi].
      + exists k, rw. auto.
      + exists (length (words s)), (n, []). split; [exact Hnew|]. apply in_circle. tauto. }
  assert (Hfresh : forall i, mem s i -> fst i <> n).
  { intros i Hi E. pose proof (inv_lt _ _ _ i I (or_introl Hi)). lia. }
  split.
  - intros k r w Hk. destruct (Hcase _ _ Hk) as [Hk'|(_ & E)]; [eapply (i_nested _ _ _ I); eauto|].
    injection E as -> ->. exact nested_nil.
  - intros k r w Hk. destruct (Hcase _ _ Hk) as [Hk'|(_ & E)]; [eapply (i_nodup _ _ _ I); eauto|].
    injection E as -> ->. apply nodup_circle. cbn. split; [constructor|]. auto.
  - intros k r w Hk. destruct (Hcase _ _ Hk) as [Hk'|(_ & E)].
    + apply chain_app_store. eapply (i_ring _ _ _ I); eauto.
    + injection E as -> ->. unfold ring, circle. cbn [fst snd app chain]. auto.
  - intros k1 k2 rw1 rw2 i H1 H2 Hi1 Hi2.
    destruct (Hcase _ _ H1) as [H1'|(-> & ->)]; destruct (Hcase _ _ H2) as [H2'|(-> & ->)].
    + eapply (i_disj _ _ _ I); eauto.
    + exfalso. apply (Hfresh i); [eapply mem_at; eauto|].
      apply in_circle in Hi2. cbn in Hi2. destruct Hi2 as [->|[[]| ->]]; reflexivity.
    + exfalso. apply (Hfresh i); [eapply mem_at; eauto|].
      apply in_circle in Hi1. cbn in Hi1. destruct Hi1 as [->|[[]| ->]]; reflexivity.
    + reflexivity.
  - intros i [].
  - constructor.
  - unfold h', s'; cbn [vals]. rewrite !app_length, HL. reflexivity.
  - intros i [Hi|[]]. apply Hm in Hi. destruct Hi as [Hi|Hi].
    + pose proof (inv_lt _ _ _ i I (or_introl Hi)) as Hlt.
      unfold h', s'; cbn [vals]. rewrite dat_app_old by exact Hlt. rewrite nth_app_old by lia. apply (i_in _ _ _ I); auto.
    + assert (E : fst i = n) by (destruct Hi as [->| ->]; reflexivity). rewrite E.
      unfold h', s'; cbn [vals]. rewrite dat_app_new by exact Hn. unfold n. rewrite app_nth2 by lia. now rewrite Nat.sub_diag.
  - intros m Hdm. left. apply Hm. destruct (Nat.eq_dec m n) as [->|Hmn]; [auto|].
    assert (Hlt : m < length h') by (apply dat_lt; exact Hdm).
    unfold h' in Hlt. rewrite app_length in Hlt; cbn [length] in Hlt.
    unfold h' in Hdm. rewrite dat_app_old in Hdm by lia.
    destruct (i_out _ _ _ I _ Hdm) as [Hx|[]]. auto.
  - intros i [(k & r & w & Hk & Hi)|[]].
    destruct (Hcase _ _ Hk) as [Hk'|(_ & E)]; [|injection E as -> ->; destruct Hi].
    destruct (i_some _ _ _ I i) as (v' & Hv); [left; eauto|].
    assert (Hlt : fst i < length h).
    { apply (inv_lt _ _ _ i I). left. eapply mem_at; [exact Hk'|]. apply in_circle; auto. }
    exists v'. unfold s'; cbn [vals]. rewrite nth_app_old by lia. exact Hv.
Qed.

Lemma delete_ok h s n : inv h s [lead n; trail n] -> exists h', delete h n = Some h' /\ inv h' s [].
Proof.
  intros I.
  assert (Ha : dat h n <> None).
  { pose proof (i_in _ _ _ I (lead n) ltac:(cbn; auto)) as E. cbn [fst lead] in E. rewrite E. discriminate. }
  pose proof (dat_lt _ _ Ha) as Hlt. apply dat_get in Ha. destruct Ha as (x & Gx).
  exists (upd h n None). split; [unfold delete; now rewrite Gx|].
  assert (Hnot : forall i, mem s i -> fst i <> n).
  { intros [m e] Hi E. cbn [fst] in E. subst m. refine (i_D _ _ _ I (n, e) _ Hi). destruct e; cbn; auto. }
  assert (G : forall m, m <> n -> get (upd h n None) m = get h m).
  { intros m Hm. rewrite get_upd by exact Hlt. destruct (Nat.eqb_spec n m); [congruence|reflexivity]. }
  split.
  - exact (i_nested _ _ _ I).
  - exact (i_nodup _ _ _ I).
  - intros k r w Hk. pose proof (i_ring _ _ _ I _ _ _ Hk) as Hr. unfold ring in *.
    eapply chain_frame; [| |exact Hr].
    + intros i Hi. unfold nx. rewrite G; [reflexivity|]. apply Hnot. eapply mem_at; [exact Hk|].
      apply removelast_in in Hi. destruct Hi as [<-|Hi]; [apply in_circle; auto|exact Hi].
    + intros i Hi. unfold px. rewrite G; [reflexivity|]. apply Hnot. eapply mem_at; [exact Hk|exact Hi].
  - exact (i_disj _ _ _ I).
  - intros i [].
  - constructor.
  - rewrite upd_length. exact (i_len _ _ _ I).
  - intros i [Hi|[]]. unfold dat. rewrite G by (apply Hnot, Hi). apply (i_in _ _ _ I); auto.
  - intros m Hm. left. destruct (Nat.eq_dec m n) as [->|Hmn].
    + exfalso. apply Hm. unfold dat. rewrite get_upd by exact Hlt. now rewrite Nat.eqb_refl.
    + unfold dat in Hm. rewrite G in Hm by exact Hmn. destruct (i_out _ _ _ I m Hm) as [Hx|Hx]; [exact Hx|].
      destruct Hx as [E|[E|[]]]; injection E as E; congruence.
  - intros i [Hi|[]]. apply (i_some _ _ _ I). auto.
Qed.

End Inv.
