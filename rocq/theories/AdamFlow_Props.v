(** C65, C66: how a sheet decides its relations. *)
From Coq Require Import String Permutation Sorted Relation_Operators.
From Verif Require Import Prelude Vm_Value Adam_Model Adam_Spec Adam_Flow Adam_Flow2 Adam_Flow3 Adam_Build Adam_Frame Adam_Prio Adam_Example.
From Coq Require Import List.
Import ListNotations.
Local Open Scope nat_scope.
Ltac Zify.zify_post_hook ::= idtac.

Lemma att_attached Sh d r : att Sh d r <-> attached Sh d r.
Proof.
  unfold att, attached, edges_of. destruct (nth_error (rels Sh) r) as [x|].
  - split; [intros H; now exists x|intros (y & [= <-] & H); exact H].
  - split; [intros []|intros (y & E & _); discriminate].
Qed.
Lemma enforced_unique Sh s s0 p c rank K r j j' : relations_ok Sh ->
  Inv Sh s0 p c [] [] [] rank K s -> enforced_by Sh s r j -> enforced_by Sh s r j' -> j = j'.
Proof.
  intros OK I (x & ns & e & Hx & Hj & H) (x' & ns' & e' & Hx' & Hj' & H').
  rewrite Hx in Hx'. injection Hx' as <-.
  assert (G : forall i ms f, nth_error (r_terms x) i = Some (ms, f) -> exists m l d, ms = m :: l /\ rel_cell Sh m d).
  { intros i ms f E. destruct (proj2 OK x (nth_error_In _ _ Hx)) as (_ & Hne & _ & Hc & _).
    destruct ms as [|m l]; [exfalso; exact (Hne _ (nth_error_In _ _ E) eq_refl)|].
    assert (Hm : In m (rel_names x)).
    { apply in_flat_map. exists (m :: l, f). split; [now apply nth_error_In in E|now left]. }
    destruct (Hc m Hm) as (d & i0 & Hd & _). exists m, l, d. auto. }
  destruct (G _ _ _ Hj) as (m & l & d & -> & Hd). destruct (G _ _ _ Hj') as (m' & l' & d' & -> & Hd').
  exact (J13 _ _ _ _ _ _ _ _ _ _ I d d' r j j' 0 0 (H 0 m d eq_refl Hd) (H' 0 m' d' eq_refl Hd')).
Qed.

(** C65: whatever the sort does with equal priorities, the solver comes to an end, follows no null
    pointer, and either reports "over constrained" or leaves every relation in force enforced by
    exactly one of its terms, no cell derived in any other way, and no cell waiting for a relation. *)
Theorem C65_every_relation_is_decided Sh D s : relations_ok Sh -> sched_ok D -> undecided Sh s ->
  (exists s', flow Sh D s = Some (RThrow XOver s')) \/
  exists pa s', flow Sh D s = Some (ROk pa s') /\
    (forall r, active Sh s r -> exists j, enforced_by Sh s' r j /\ forall j', enforced_by Sh s' r j' -> j' = j) /\
    (forall c r j i, d_term s' c = Some (r, j, i) -> active Sh s r /\
       exists x ns e n, nth_error (rels Sh) r = Some x /\ nth_error (r_terms x) j = Some (ns, e) /\
         nth_error ns i = Some n /\ rel_cell Sh n c) /\
    (forall c, d_count s' c = 0%N).
Proof.
  intros OK HD U. pose proof (flow_result Sh D s OK HD U) as F.
  destruct (flow Sh D s) as [[pa s'|x s'|]|]; [|left; exists s'; now subst x|destruct F|destruct F].
  right. exists pa, s'. split; [reflexivity|]. destruct F as (_ & c & rank & K & I).
  assert (NA : forall r, r < length (rels Sh) -> d_rres s' r = true).
  { intros r Hr. destruct (d_rres s' r) eqn:E; auto. exfalso.
    destruct (rel_some Sh OK r Hr) as (x & Hx & Ox).
    assert (A : act Sh s' r) by (split; auto).
    pose proof (proj2 (J3 _ _ _ _ _ _ _ _ _ _ I r A) (fun z => z)) as H2.
    destruct (unresolved_terms Sh s' (terms_of Sh r)) as [|j l] eqn:Eu; [cbn in H2; lia|].
    assert (Hj : In j (unresolved_terms Sh s' (terms_of Sh r))) by (rewrite Eu; now left).
    apply unresolved_In in Hj. destruct Hj as (ns & e & Hj & Hr').
    rewrite (terms_rel Sh r x Hx) in Hj.
    destruct (term_names_good Sh r x j ns e Hx Ox Hj) as [G Is].
    rewrite term_resolved_false in Hr' by exact G.
    destruct ns as [|n ns]; [exact (proj1 (proj2 Ox) _ (nth_error_In _ _ Hj) eq_refl)|].
    specialize (Hr' n (or_introl eq_refl)).
    assert (Ha : att Sh (oc Sh n) r).
    { unfold att. rewrite (edges_rel Sh r x Hx). apply (proj2 (proj2 (proj2 (proj2 Ox)))). exists n.
      split; [apply Is; now left|]. inversion G; subst. now apply good_oc. }
    destruct (J4 _ _ _ _ _ _ _ _ _ _ I _ _ A Ha Hr'). }
  assert (UN : forall l, (forall r, In r l -> r < length (rels Sh)) -> unres s' l = 0).
  { intros l H. unfold unres. replace (filter _ l) with (@nil nat); [reflexivity|].
    induction l as [|r l IH]; cbn; auto. rewrite NA by (apply H; now left). cbn. apply IH. intros; apply H; now right. }
  split; [|split].
  - intros r [Hr Ha]. destruct (J5 _ _ _ _ _ _ _ _ _ _ I r Hr (NA r Hr)) as [E|(j & Hj)]; [congruence|].
    exists j. split; auto. intros j' Hj'. eapply enforced_unique; eauto.
  - intros d r j i Hd. destruct (J6 _ _ _ _ _ _ _ _ _ _ I d r j i Hd) as (A & _ & x & ns & e & n & Hx & Hj & Hi & Ho & _).
    split; [exact A|]. exists x, ns, e, n. repeat (split; auto).
    assert (Ox := proj2 OK x (nth_error_In _ _ Hx)).
    destruct (term_names_good Sh r x j ns e Hx Ox Hj) as [G _].
    rewrite Forall_forall in G. specialize (G n (nth_error_In _ _ Hi)). destruct (good_oc Sh n G) as [E _].
    unfold rel_cell. unfold output_cell in E. now rewrite <- Ho.
  - intros d. destruct (d_resolved s' d) eqn:E.
    + destruct (Nat.eq_dec d c) as [->|N].
      * rewrite (J2c _ _ _ _ _ _ _ _ _ _ I E). reflexivity.
      * exact (J2 _ _ _ _ _ _ _ _ _ _ I d E N).
    + rewrite (J1 _ _ _ _ _ _ _ _ _ _ I d E). rewrite UN; [reflexivity|]. intros r Hr. now apply rindex_In in Hr.
Qed.

(** *** update() *)
Definition rel_terms_ok (Sh : sheet) : Prop := forall x, In x (rels Sh) -> relation_terms_ok (r_terms x).
(** what update() does before it evaluates *)
Lemma update_phases Sh D l s ns s' : wf Sh -> update Sh D l s = Some (ROk ns s') ->
  exists u s1 pa s2 s3,
    conditionals Sh (rels Sh) 0 (clear Sh s) = ROk u s1 /\ undecided Sh (w_cond (d_acc s1) s1) /\ cframe (clear Sh s) s1 /\
    flow Sh D (w_cond (d_acc s1) s1) = Some (ROk pa s2) /\
    evaluate_all Sh (sd_iter D (map snd (output_index Sh))) s2 = ROk tt s3 /\ frame s2 s3 /\
    d_term s' = d_term s2 /\ d_prio s' = d_prio s2 /\ d_low s' = d_low s2 /\ d_state s' = d_state s3 /\ d_evaluated s' = d_evaluated s3.
Proof.
  intros W. unfold update. destruct (conditionals Sh (rels Sh) 0 (clear Sh s)) as [u s1| |] eqn:Ec; try discriminate.
  destruct (conditionals_undecided Sh s u s1 W Ec) as [U F].
  destruct (flow Sh D (w_cond (d_acc s1) s1)) as [[pa s2| |]|] eqn:Ef; try discriminate.
  destruct (evaluate_all Sh (sd_iter D (map snd (output_index Sh))) s2) as [[] s3| |] eqn:Ee; try discriminate.
  pose proof (evaluate_all_frame Sh (sd_iter D (map snd (output_index Sh))) s2) as Fe. rewrite Ee in Fe. cbn [keeps] in Fe.
  destruct (poisoned (invariant_index Sh) 0%N s3) as [p|]; [|discriminate]. intros [= _ <-].
  exists u, s1, pa, s2, s3. split; [reflexivity|]. split; [exact U|]. split; [exact F|].
  split; [exact Ef|]. split; [exact Ee|]. split; [exact Fe|].
  destruct Fe as (F1 & _ & _ & _ & _ & F2 & _ & _ & _ & F3 & _).
  split; [exact F2|]. split; [exact F1|]. split; [exact F3|]. split; reflexivity.
Qed.
Lemma out_prio_eq Sh s s' : d_prio s' = d_prio s -> forall c, out_prio Sh s' c = out_prio Sh s c.
Proof. intros E c. unfold out_prio. now rewrite E. Qed.
Lemma update_inv b Sh D l s ns s' : reachable b Sh s -> rel_terms_ok Sh -> sched_ok D -> update Sh D l s = Some (ROk ns s') ->
  exists s1 s2, d_prio s1 = d_prio s /\ d_low s1 = d_low s /\ bounds s1 /\ wf Sh /\ relations_ok Sh /\
    (exists c rank K, Inv Sh s1 (out_prio Sh s1) c [] [] [] rank K s2) /\ low4 Sh s1 s2 /\ (single_terms Sh -> below Sh s2) /\
    d_term s' = d_term s2 /\ d_prio s' = d_prio s2.
Proof.
  intros R T HD E. pose proof (reachable_wf b Sh s R) as W. pose proof (wf_relations Sh W T) as OK.
  destruct (update_phases Sh D l s ns s' W E) as (u & s1 & pa & s2 & s3 & H1 & U & F & H3 & H4 & H5 & H6 & H7 & _).
  exists (w_cond (d_acc s1) s1), s2. destruct F as (F1 & _ & _ & _ & _ & _ & F2 & F3 & _).
  assert (B : bounds (w_cond (d_acc s1) s1)).
  { apply (bounds_eq (clear Sh s)); [exact F1|exact F3|exact F2|]. exact (reachable_bounds b Sh s R). }
  destruct (flow_result_prio Sh D _ pa s2 W OK HD U B H3) as (G1 & G2 & G3).
  split; [exact F1|]. split; [exact F3|]. split; [exact B|]. split; [exact W|]. split; [exact OK|]. auto 10.
Qed.

(** C66: the cell the client set or touched last is never overridden: a derived cell gives way to
    another cell that is not derived and whose priority is at least as high. *)
Theorem C66_derived_cells_give_way b Sh D l s ns s' : reachable b Sh s -> rel_terms_ok Sh -> sched_ok D ->
  update Sh D l s = Some (ROk ns s') ->
  forall c, d_term s' c <> None ->
  exists e r, e <> c /\ d_term s' e = None /\ attached Sh e r /\ (out_prio Sh s c <= out_prio Sh s e)%Z.
Proof.
  intros R T HD E c Hc. destruct (update_inv b Sh D l s ns s' R T HD E) as (s1 & s2 & P1 & _ & _ & _ & _ & (k & rank & K & I) & _ & _ & E1 & _).
  rewrite E1 in *. destruct (J12 _ _ _ _ _ _ _ _ _ _ I c Hc) as (e & (S1 & S2 & r & _ & S3) & Hne & Hp).
  exists e, r. split; [exact Hne|]. split; [exact S2|]. split; [now apply att_attached|].
  now rewrite !(out_prio_eq Sh s s1 P1) in Hp.
Qed.
Corollary C66_highest_priority_is_kept b Sh D l s ns s' c : reachable b Sh s -> rel_terms_ok Sh -> sched_ok D ->
  update Sh D l s = Some (ROk ns s') ->
  (forall d r, attached Sh d r -> d <> c -> (out_prio Sh s d < out_prio Sh s c)%Z) -> d_term s' c = None.
Proof.
  intros R T HD E H. destruct (d_term s' c) as [t|] eqn:Et; auto. exfalso.
  destruct (C66_derived_cells_give_way b Sh D l s ns s' R T HD E c ltac:(congruence)) as (e & r & H1 & _ & H3 & H4).
  specialize (H e r H3 H1). lia.
Qed.

(** When every term names one cell, the cells are computed from one another without a cycle, and
    every cell that is not derived, from which [c] is computed in any number of steps, has at least
    the priority of [c]. *)
Theorem C66_computed_from_higher b Sh D l s ns s' : reachable b Sh s -> rel_terms_ok Sh -> sched_ok D -> single_terms Sh ->
  update Sh D l s = Some (ROk ns s') ->
  (forall c, ~ clos_trans _ (computed_from Sh s') c c) /\
  (forall c e, clos_trans _ (computed_from Sh s') c e -> d_term s' e = None -> (out_prio Sh s c <= out_prio Sh s e)%Z).
Proof.
  intros R T HD ST E. destruct (update_inv b Sh D l s ns s' R T HD E) as (s1 & s2 & P1 & _ & _ & _ & _ & (k & rank & K & I) & _ & _ & E1 & _).
  assert (Step : forall c d, computed_from Sh s' c d -> d_term s2 c <> None /\ rank d < rank c /\ d_resolved s2 d = true /\ exists r, act Sh s1 r /\ att Sh d r).
  { intros c d (r & j & i & H1 & H2 & H3). rewrite E1 in H1. apply att_attached in H2.
    destruct (J6 _ _ _ _ _ _ _ _ _ _ I c r j i H1) as (A & _ & x & ns0 & e & n & _ & _ & _ & _ & F).
    destruct (F ST d H2 H3) as [F1 F2]. split; [congruence|]. split; [exact F2|]. split; [exact F1|]. eauto. }
  assert (Tr : forall c d, clos_trans _ (computed_from Sh s') c d -> d_term s2 c <> None /\ rank d < rank c /\ d_resolved s2 d = true /\ exists r, act Sh s1 r /\ att Sh d r).
  { induction 1 as [c d H|c d e _ IH1 _ IH2]; [now apply Step|]. destruct IH1 as (A1 & A2 & A3), IH2 as (B1 & B2 & B3). split; [exact A1|]. split; [lia|exact B3]. }
  split.
  - intros c H. apply Tr in H. lia.
  - intros c e H He. destruct (Tr c e H) as (A1 & A2 & A3 & A4). rewrite E1 in He.
    pose proof (J11 _ _ _ _ _ _ _ _ _ _ I c e (conj A3 (conj He A4)) A1 A2) as G.
    now rewrite !(out_prio_eq Sh s s1 P1) in G.
Qed.
(** Derived cells sink: a linked cell a relation has derived ends below every cell that keeps its
    priority (and so gives way next time too), and nothing else changes its priority; when every
    term names one cell, it ends below every cell it is computed from. *)
Theorem C66_derived_cells_sink b Sh D l s ns s' : reachable b Sh s -> rel_terms_ok Sh -> sched_ok D ->
  update Sh D l s = Some (ROk ns s') ->
  (forall c i, input_of Sh c = Some i -> (d_term s' c = None \/ linked Sh i = false) -> d_prio s' i = d_prio s i) /\
  (forall c i d i', d_term s' c <> None -> input_of Sh c = Some i -> linked Sh i = true ->
     input_of Sh d = Some i' -> (d_term s' d = None \/ linked Sh i' = false) -> (d_prio s' i < d_prio s' i')%Z) /\
  (single_terms Sh -> forall c d i i', computed_from Sh s' c d -> input_of Sh c = Some i -> linked Sh i = true ->
     input_of Sh d = Some i' -> (d_prio s' i < d_prio s' i')%Z).
Proof.
  intros R T HD E. destruct (update_inv b Sh D l s ns s' R T HD E) as (s1 & s2 & P1 & P2 & B & W & OK & _ & L4 & Bl & E1 & E2).
  destruct L4 as (_ & _ & L3 & L4). rewrite E1, E2. rewrite <- P1.
  assert (Keep : forall c i, input_of Sh c = Some i -> (d_term s2 c = None \/ linked Sh i = false) -> d_prio s2 i = d_prio s1 i).
  { intros c i Hi H. destruct (L3 i) as [L|(L1 & L2 & d & L5 & L6)]; auto. destruct H as [H|H]; [|congruence].
    assert (d = c) by (eapply input_inj; eauto). subst d. contradiction. }
  split; [exact Keep|]. split.
  - intros c i d i' H1 H2 H3 H4 H5. rewrite (Keep d i' H4 H5). specialize (L4 c i H1 H2 H3). destruct B as [_ B]. specialize (B i'). lia.
  - intros ST c d i i' (r & j & t & H1 & H2 & H3) Hi Hl Hi'. rewrite E1 in H1. apply att_attached in H2.
    exact (Bl ST c r j t i d i' H1 Hi Hl H2 H3 Hi').
Qed.

(** A term that names several cells can make two cells depend on each other: the relations of this
    sheet are well formed, but update() reports a cycle. *)
Theorem C66_several_names_refuted : exists Sh s s' b c x,
  reachable true Sh s /\ rel_terms_ok Sh /\ sched_ok D0 /\ update Sh D0 nolisten s = Some (RThrow x s') /\ x = XCycle /\
  computed_from Sh s' b c /\ computed_from Sh s' c b.
Proof.
  exists (sheet_of loop), (start_of loop), (after (update (sheet_of loop) D0 nolisten (start_of loop))), 3, 1, XCycle.
  split; [apply built_reachable|]. split.
  { assert (E : map r_terms (rels (sheet_of loop)) =
      [ [ (["a"; "b"], Look "c" (fun v => Ret (VArr [v; v]))); (["c"], two plus "a" "b") ]; [ (["b"], var "c"); (["c"], var "b") ] ]%string) by reflexivity.
    intros x Hx. apply (in_map r_terms) in Hx. rewrite E in Hx.
    destruct Hx as [<-|[<-|[]]]; (split; [cbn; lia|]; split; [intros t [<-|[<-|[]]]; discriminate|]);
      cbn; repeat (constructor; [cbn; intuition discriminate|]); constructor. }
  split; [apply D0_ok|]. split; [vm_compute; reflexivity|]. split; [reflexivity|].
  assert (Tb : d_term (after (update (sheet_of loop) D0 nolisten (start_of loop))) 3 = Some (1, 0, 0)) by (vm_compute; reflexivity).
  assert (Tc : d_term (after (update (sheet_of loop) D0 nolisten (start_of loop))) 1 = Some (0, 1, 0)) by (vm_compute; reflexivity).
  assert (E0 : edges_of (sheet_of loop) 0 = [5; 3; 1]) by reflexivity.
  assert (E1 : edges_of (sheet_of loop) 1 = [3; 1]) by reflexivity.
  split.
  - exists 1, 0, 0. split; [exact Tb|]. split; [|lia]. apply att_attached. unfold att. rewrite E1. cbn. auto.
  - exists 0, 1, 0. split; [exact Tc|]. split; [|lia]. apply att_attached. unfold att. rewrite E0. cbn. auto.
Qed.

(** the box: width was initialised last, so left is computed and sinks *)
Lemma box_terms : rel_terms_ok (sheet_of box).
Proof.
  assert (E : map r_terms (rels (sheet_of box)) =
    [ [ (["left"], two minus "right" "width"); (["right"], two plus "left" "width"); (["width"], two minus "right" "left") ] ]%string) by reflexivity.
  intros x Hx. apply (in_map r_terms) in Hx. rewrite E in Hx. destruct Hx as [<-|[]].
  split; [cbn; lia|]. split; [intros t [<-|[<-|[<-|[]]]]; discriminate|].
  cbn; repeat (constructor; [cbn; intuition discriminate|]); constructor.
Qed.
Example box_ok : reachable true (sheet_of box) (start_of box) /\ rel_terms_ok (sheet_of box) /\ sched_ok D0 /\ single_terms (sheet_of box) /\
  (exists ns s', update (sheet_of box) D0 nolisten (start_of box) = Some (ROk ns s') /\
    d_term s' 1 = Some (0, 0, 0) /\ d_term s' 3 = None /\ d_term s' 5 = None /\
    map (fun n => at_name (sheet_of box) n s') ["left"; "right"; "width"]%string = [Some (num 25); Some (num 30); Some (num 5)] /\
    map (d_prio s') [0; 2; 4] = [-1; 2; 3]%Z).
Proof.
  split; [apply built_reachable|]. split; [apply box_terms|]. split; [apply D0_ok|]. split.
  { intros x t Hx Ht. apply (in_map r_terms) in Hx.
    assert (E : map r_terms (rels (sheet_of box)) =
      [ [ (["left"], two minus "right" "width"); (["right"], two plus "left" "width"); (["width"], two minus "right" "left") ] ]%string) by reflexivity.
    rewrite E in Hx. destruct Hx as [Hx|[]]. rewrite <- Hx in Ht. destruct Ht as [<-|[<-|[<-|[]]]]; eexists; reflexivity. }
  exists (match update (sheet_of box) D0 nolisten (start_of box) with Some (ROk ns _) => ns | _ => [] end).
  exists (after (update (sheet_of box) D0 nolisten (start_of box))).
  vm_compute. repeat split.
Qed.
(** the state the solver starts from in that update *)
Example undecided_ok : exists s1, conditionals (sheet_of box) (rels (sheet_of box)) 0 (clear (sheet_of box) (start_of box)) = ROk tt s1 /\
  undecided (sheet_of box) (w_cond (d_acc s1) s1) /\ active (sheet_of box) (w_cond (d_acc s1) s1) 0 /\ relations_ok (sheet_of box).
Proof.
  pose proof (reachable_wf _ _ _ (built_reachable box)) as W.
  destruct (conditionals (sheet_of box) (rels (sheet_of box)) 0 (clear (sheet_of box) (start_of box))) as [[] s1|x s1|] eqn:E; [|vm_compute in E; discriminate|vm_compute in E; discriminate].
  exists s1. split; [reflexivity|]. destruct (conditionals_undecided (sheet_of box) (start_of box) tt s1 W E) as [U F]. split; [exact U|]. split.
  - split; [cbn; lia|]. vm_compute in E. injection E as <-. reflexivity.
  - apply wf_relations; [exact W|exact box_terms].
Qed.

(** *** C67: setting and touching *)
Theorem C67_set_is_the_highest b Sh s n v u s' : reachable b Sh s -> set_cell Sh n v s = ROk u s' ->
  exists i, lookup n (input_index Sh) = Some i /\ d_state s' i = v /\
    (forall k, k <> i -> d_state s' k = d_state s k /\ d_prio s' k = d_prio s k /\ (d_prio s' k < d_prio s' i)%Z).
Proof.
  intros R. unfold set_cell. destruct (lookup n (input_index Sh)) as [i|] eqn:E; [|discriminate]. intros [= _ <-].
  exists i. split; [reflexivity|]. destruct (reachable_bounds b Sh s R) as [_ B].
  set (s1 := w_prio _ _). assert (Es : forall p : bool, d_state (if p then w_initdirty (setb (d_initdirty s1) i) s1 else s1) = d_state s1) by (intros []; reflexivity).
  assert (Ep : forall p : bool, d_prio (if p then w_initdirty (setb (d_initdirty s1) i) s1 else s1) = d_prio s1) by (intros []; reflexivity).
  rewrite Es, Ep. unfold s1. cbn [d_state d_prio w_prio w_state w_high]. split; [apply fset_same|].
  intros k Hk. rewrite fset_same, !fset_other by auto. split; [reflexivity|]. split; [reflexivity|]. specialize (B k). lia.
Qed.
(** so the next update does not override it *)
Theorem C67_the_set_cell_is_kept b Sh s n v u s1 D l ns s2 i c : reachable b Sh s -> rel_terms_ok Sh -> sched_ok D ->
  set_cell Sh n v s = ROk u s1 -> update Sh D l s1 = Some (ROk ns s2) ->
  lookup n (input_index Sh) = Some i -> input_of Sh c = Some i -> d_term s2 c = None.
Proof.
  intros R T HD E1 E2 Hi Hc. pose proof (R_set _ _ _ _ _ _ _ R E1) as R1. pose proof (reachable_wf _ _ _ R) as W.
  apply (C66_highest_priority_is_kept b Sh D l s1 ns s2 c R1 T HD E2). intros d r Ha Hd.
  destruct (C67_set_is_the_highest b Sh s n v u s1 R E1) as (i' & Hi' & _ & H).
  assert (i' = i) by congruence. subst i'.
  destruct Ha as (x & Hx & Ha). destruct (W_rel Sh W x (nth_error_In _ _ Hx)) as [A B]. apply B in Ha as (m & Hm & Hd').
  destruct (A m Hm) as (d' & k & K1 & K2). assert (d' = d) by (unfold rel_cell in *; congruence). subst d'.
  unfold out_prio. rewrite Hc, K2. apply H. intros ->. apply Hd. exact (input_inj Sh W _ _ _ K2 Hc).
Qed.
Definition touched (Sh : sheet) (ns : list name) (i : nat) : Prop := exists n, In n ns /\ lookup n (input_index Sh) = Some i.
Lemma raise_all l : forall s, let s' := fold_left (fun s c => w_prio (fset (d_prio s) c (d_high s + 1)%Z) (w_high (d_high s + 1)%Z s)) l s in
  d_state s' = d_state s /\ (forall i, ~ In i l -> d_prio s' i = d_prio s i) /\ (d_high s <= d_high s')%Z /\
  (forall i, In i l -> (d_high s < d_prio s' i)%Z) /\
  (forall i j l1 l2, l = l1 ++ l2 -> ~ In i l2 -> In j l2 -> In i l1 -> (d_prio s' i < d_prio s' j)%Z) /\
  (forall i, In i l -> (d_prio s' i <= d_high s')%Z).
Proof.
  induction l as [|c l IH]; intros s; cbv zeta; cbn [fold_left].
  - split; [reflexivity|]. split; [reflexivity|]. split; [lia|]. split; [intros i []|]. split; [|intros i []].
    intros i j l1 l2 E. symmetry in E. apply app_eq_nil in E as [-> ->]. intros _ [].
  - specialize (IH (w_prio (fset (d_prio s) c (d_high s + 1)%Z) (w_high (d_high s + 1)%Z s))). cbv zeta in IH.
    set (s' := fold_left _ l _) in *. destruct IH as (I1 & I2 & I3 & I4 & I5 & I6).
    cbn [d_state d_prio d_high w_prio w_high] in *.
    assert (Pc : ~ In c l -> d_prio s' c = (d_high s + 1)%Z) by (intros H; rewrite I2, fset_same; auto).
    split; [exact I1|]. split; [|split; [|split; [|split]]].
    + intros i Hi. cbn [In] in Hi. rewrite I2, fset_other by intuition. reflexivity.
    + lia.
    + intros i [<-|Hi]; [|specialize (I4 i Hi); lia].
      destruct (in_dec Nat.eq_dec c l) as [H|H]; [specialize (I4 c H); lia|rewrite (Pc H); lia].
    + intros i j [|x l1] l2 E Hn Hj Hi; [destruct Hi|]. injection E as <- ->.
      destruct (in_dec Nat.eq_dec i l1) as [H|H]; [exact (I5 i j l1 l2 eq_refl Hn Hj H)|].
      destruct Hi as [<-|Hi]; [|contradiction]. rewrite Pc by (rewrite in_app_iff; tauto).
      specialize (I4 j ltac:(apply in_or_app; auto)). lia.
    + intros i [<-|Hi]; [|auto]. destruct (in_dec Nat.eq_dec c l) as [H|H]; [auto|rewrite (Pc H); lia].
Qed.
Theorem C67_touch_keeps_the_order b Sh s D ns : reachable b Sh s -> sched_ok D ->
  d_state (touch Sh D ns s) = d_state s /\
  (forall i, ~ touched Sh ns i -> d_prio (touch Sh D ns s) i = d_prio s i) /\
  (forall i k, touched Sh ns i -> ~ touched Sh ns k -> (d_prio (touch Sh D ns s) k < d_prio (touch Sh D ns s) i)%Z) /\
  (forall i j, touched Sh ns i -> touched Sh ns j -> (d_prio s i < d_prio s j)%Z ->
     (d_prio (touch Sh D ns s) i < d_prio (touch Sh D ns s) j)%Z).
Proof.
  intros R (_ & _ & HD). unfold touch.
  set (l0 := flat_map _ ns). destruct (HD (d_prio s) l0) as [P St]. set (l := sd_touch D (d_prio s) l0) in *.
  assert (Hl : forall i, In i l <-> touched Sh ns i).
  { intros i. split.
    - intros H. apply (Permutation_in _ P) in H. apply in_flat_map in H as (n & Hn & H). exists n. split; auto.
      destruct (lookup n (input_index Sh)) as [c|]; [destruct H as [->|[]]; reflexivity|destruct H].
    - intros (n & Hn & H). apply (Permutation_in _ (Permutation_sym P)). apply in_flat_map. exists n. split; auto. rewrite H. now left. }
  destruct (raise_all l s) as (I1 & I2 & _ & I4 & I5 & _). destruct (reachable_bounds b Sh s R) as [_ B].
  split; [exact I1|]. split; [intros i Hi; apply I2; now rewrite Hl|]. split.
  - intros i k Hi Hk. rewrite (I2 k) by now rewrite Hl. specialize (I4 i (proj2 (Hl i) Hi)). specialize (B k). cbn beta in *. lia.
  - intros i j Hi Hj Hp. apply Hl in Hi, Hj. destruct (in_split j l Hj) as (l1 & l2 & E).
    assert (Q : exists m1 m2, l = m1 ++ m2 /\ ~ In i m2 /\ In j m2 /\ In i m1).
    { exists l1, (j :: l2). rewrite E in St, Hi. assert (N : ~ In i (j :: l2)).
      { intros [->|H]; [lia|]. clear -St H Hp. induction l1 as [|x l1 IH]; cbn [app] in St; inversion St as [|? ? S F]; subst; auto.
        rewrite Forall_forall in F. specialize (F i H). cbn in F. lia. }
      split; [exact E|]. split; [exact N|]. split; [now left|]. apply in_app_or in Hi as [H|H]; [exact H|contradiction]. }
    destruct Q as (m1 & m2 & E' & N1 & N2 & N3). exact (I5 i j m1 m2 E' N1 N2 N3).
Qed.
Definition box_set : dyn := after (Some (set_cell (sheet_of box) "left"%string (num 7) (start_of box))).
Example set_ok : (match set_cell (sheet_of box) "left"%string (num 7) (start_of box) with ROk _ _ => true | _ => false end) = true /\
  map (d_prio box_set) [0; 2; 4] = [4; 2; 3]%Z /\
  (match update (sheet_of box) D0 nolisten box_set with
   | Some (ROk _ s2) => map (fun n => at_name (sheet_of box) n s2) ["left"; "right"; "width"]%string = [Some (num 7); Some (num 12); Some (num 5)]
   | _ => False end).
Proof. vm_compute. repeat split. Qed.
Example touch_ok : let s1 := touch (sheet_of box) D0 ["width"; "left"]%string (start_of box) in
  map (d_prio s1) [0; 2; 4] = [4; 2; 5]%Z /\ touched (sheet_of box) ["width"; "left"]%string 0.
Proof. split; [vm_compute; reflexivity|]. exists "left"%string. split; [cbn; auto|reflexivity]. Qed.
