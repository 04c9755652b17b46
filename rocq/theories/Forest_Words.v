(** Lemmas about nested words (no model code here). *)
From Verif Require Import Prelude Forest_Model Forest_Spec.
Ltac Zify.zify_post_hook ::= idtac.

Ltac lapp := repeat (progress (rewrite <- ?app_assoc; cbn [app])).

Lemma nest_app s a b : nest s (a ++ b) = match nest s a with Some s' => nest s' b | None => None end.
Proof.
  revert s; induction a as [|[n e] a IH]; intros s; cbn [nest app]; [reflexivity|].
  destruct e; [apply IH|]. destruct s as [|m s]; [reflexivity|].
  destruct (m =? n); [apply IH|reflexivity].
Qed.

Lemma nest_weaken s w s' t : nest s w = Some s' -> nest (s ++ t) w = Some (s' ++ t).
Proof.
  revert s; induction w as [|[n e] w IH]; intros s; cbn [nest]; [congruence|].
  destruct e; intros H; [exact (IH (n :: s) H)|].
  destruct s as [|m s]; [discriminate|]. cbn [app]. destruct (m =? n); [apply IH, H|discriminate].
Qed.

Lemma nested_nest s w : nested w -> nest s w = Some s.
Proof. intros H. exact (nest_weaken [] w [] s H). Qed.

Lemma nested_nil : nested [].
Proof. reflexivity. Qed.

Lemma nested_app a b : nested a -> nested b -> nested (a ++ b).
Proof. unfold nested; intros Ha Hb. now rewrite nest_app, Ha. Qed.

Lemma nested_wrap n w : nested w -> nested (lead n :: w ++ [trail n]).
Proof.
  intros H. unfold nested, lead, trail. cbn [nest]. rewrite nest_app, (nested_nest _ _ H). cbn [nest].
  now rewrite Nat.eqb_refl.
Qed.

Lemma nested_insert a u b : nested u -> nested (a ++ b) -> nested (a ++ u ++ b).
Proof.
  unfold nested. intros Hu. rewrite !nest_app. destruct (nest [] a) as [s|]; [|discriminate].
  now rewrite nest_app, (nested_nest s u Hu).
Qed.
Lemma nested_remove a u b : nested u -> nested (a ++ u ++ b) -> nested (a ++ b).
Proof.
  unfold nested. intros Hu. rewrite !nest_app. destruct (nest [] a) as [s|]; [|discriminate].
  now rewrite nest_app, (nested_nest s u Hu).
Qed.

Lemma nest_open_aux k : forall A y s, length A < k -> nest [] A = Some (y :: s) ->
  exists A1 A2, A = A1 ++ lead y :: A2 /\ nest [] A1 = Some s /\ nested A2.
Proof.
  induction k as [|k IH]; intros A y s Hk H; [lia|].
  destruct A as [|x A] using rev_ind; [discriminate|]. clear IHA.
  rewrite app_length in Hk; cbn [length] in Hk.
  rewrite nest_app in H. destruct (nest [] A) as [s0|] eqn:E; [|discriminate].
  destruct x as [n [|]]; cbn [nest] in H.
  - injection H as -> ->. exists A, []. auto using nested_nil.
  - destruct s0 as [|m s0]; [discriminate|]. destruct (Nat.eqb_spec m n) as [->|]; [|discriminate].
    injection H as ->.
    destruct (IH A n (y :: s)) as (A1 & A2 & -> & H1 & H2); [lia|exact E|].
    destruct (IH A1 y s) as (A3 & A4 & -> & H3 & H4); [rewrite app_length in Hk; lia|exact H1|].
    exists A3, (A4 ++ lead n :: A2 ++ [trail n]). split; [|split; [exact H3|]].
    + now lapp.
    + apply nested_app; [exact H4|]. now apply nested_wrap.
Qed.

Lemma nest_open A y s : nest [] A = Some (y :: s) ->
  exists A1 A2, A = A1 ++ lead y :: A2 /\ nest [] A1 = Some s /\ nested A2.
Proof. apply (nest_open_aux (S (length A))). lia. Qed.

Lemma nest_close_aux k : forall B y s, length B < k -> nest (y :: s) B = Some [] ->
  exists B1 B2, B = B1 ++ trail y :: B2 /\ nested B1 /\ nest s B2 = Some [].
Proof.
  induction k as [|k IH]; intros B y s Hk H; [lia|].
  destruct B as [|[n [|]] B]; cbn [nest length] in *; [discriminate| |].
  - destruct (IH B n (y :: s)) as (B1 & B2 & -> & H1 & H2); [lia|exact H|].
    destruct (IH B2 y s) as (B3 & B4 & -> & H3 & H4); [rewrite app_length in Hk; cbn [length] in Hk; lia|exact H2|].
    exists ((lead n :: B1 ++ [trail n]) ++ B3), B4. split; [|split; [|exact H4]].
    + now lapp.
    + apply nested_app; [now apply nested_wrap|exact H3].
  - destruct (Nat.eqb_spec y n) as [->|]; [|discriminate]. exists [], B. auto using nested_nil.
Qed.

Lemma nest_close B y s : nest (y :: s) B = Some [] ->
  exists B1 B2, B = B1 ++ trail y :: B2 /\ nested B1 /\ nest s B2 = Some [].
Proof. apply (nest_close_aux (S (length B))). lia. Qed.

(** Splitting a nested word around a node. *)
Lemma nested_split_lead A n B : nested (A ++ lead n :: B) ->
  exists B1 B2, B = B1 ++ trail n :: B2 /\ nested B1.
Proof.
  unfold nested. rewrite nest_app. destruct (nest [] A) as [s|]; [|discriminate].
  cbn [nest]. intros H. destruct (nest_close B n s H) as (B1 & B2 & E & H1 & _). eauto.
Qed.
Lemma nested_split_trail A n B : nested (A ++ trail n :: B) ->
  exists A1 A2, A = A1 ++ lead n :: A2 /\ nested A2.
Proof.
  unfold nested. rewrite nest_app. destruct (nest [] A) as [s|] eqn:E; [|discriminate].
  unfold trail; cbn [nest]. destruct s as [|m s]; [discriminate|]. destruct (Nat.eqb_spec m n) as [->|]; [|discriminate].
  intros _. destruct (nest_open A n s E) as (A1 & A2 & E' & _ & H). eauto.
Qed.

Lemma nested_both w n : nested w -> In (lead n) w <-> In (trail n) w.
Proof.
  intros H; split; intros Hi; apply in_split in Hi; destruct Hi as (A & B & ->).
  - destruct (nested_split_lead A n B H) as (B1 & B2 & -> & _). rewrite !in_app_iff; cbn [In].
    rewrite in_app_iff; cbn [In]; auto.
  - destruct (nested_split_trail A n B H) as (A1 & A2 & -> & _). rewrite !in_app_iff; cbn [In].
    auto.
Qed.

Lemma nest_filter (q : nat -> bool) s w s' : nest s w = Some s' ->
  nest (filter q s) (filter (fun i => q (fst i)) w) = Some (filter q s').
Proof.
  revert s; induction w as [|[n e] w IH]; intros s; cbn [nest filter fst]; [congruence|].
  destruct e; intros H.
  - specialize (IH (n :: s) H). cbn [filter] in IH. destruct (q n); cbn [nest]; exact IH.
  - destruct s as [|m s]; [discriminate|]. destruct (Nat.eqb_spec m n) as [->|]; [|discriminate].
    specialize (IH s H). cbn [filter]. destruct (q n); cbn [nest]; [rewrite Nat.eqb_refl|]; exact IH.
Qed.

Lemma nested_without p w : nested w -> nested (without p w).
Proof. intros H. exact (nest_filter (fun n => negb (p n)) [] w [] H). Qed.

Lemma circle_nested r w : nested w -> nested (circle (r, w)).
Proof. apply nested_wrap. Qed.

Lemma nested_tree_word t : nested (tree_word t).
Proof.
  revert t. fix IH 1. intros [n kids]. cbn [tree_word]. apply nested_wrap.
  revert kids. fix IHk 1. intros [|k kids]; [exact nested_nil|]. cbn [flat_map].
  apply nested_app; [apply IH|apply IHk].
Qed.
Lemma nested_forest_word ts : nested (forest_word ts).
Proof.
  induction ts as [|t ts IH]; [exact nested_nil|]. cbn [forest_word flat_map].
  apply nested_app; [apply nested_tree_word|exact IH].
Qed.

(** Every nested word is the word of exactly one list of trees. *)
Lemma nested_forest_aux k : forall w, length w < k -> nested w -> exists ts, w = forest_word ts.
Proof.
  induction k as [|k IH]; intros w Hk H; [lia|].
  destruct w as [|[n [|]] w]; [exists []; reflexivity| |discriminate].
  unfold nested in H; cbn [nest length] in *.
  destruct (nest_close w n [] H) as (B1 & B2 & -> & H1 & H2).
  rewrite app_length in Hk; cbn [length] in Hk.
  destruct (IH B1) as (kids & ->); [lia|exact H1|].
  destruct (IH B2) as (ts & ->); [lia|exact H2|].
  exists (TNode n kids :: ts). cbn [forest_word flat_map tree_word app]. unfold forest_word.
  now rewrite <- app_assoc.
Qed.
Lemma nested_forest w : nested w -> exists ts, w = forest_word ts.
Proof. apply (nested_forest_aux (S (length w))). lia. Qed.

Lemma forest_word_cons_cancel k : forall u v a b n, length u < k ->
  nested u -> nested v -> u ++ trail n :: a = v ++ trail n :: b -> u = v /\ a = b.
Proof.
  induction k as [|k IH]; intros u v a b n Hk Hu Hv E; [lia|].
  destruct u as [|[m e] u]; destruct v as [|[m' e'] v].
  - cbn [app] in E. injection E as ->. auto.
  - cbn [app] in E. injection E as E1 E2 E3. subst. discriminate.
  - cbn [app] in E. injection E as E1 E2 E3. subst. discriminate.
  - destruct e; [|discriminate]. destruct e'; [|discriminate].
    cbn [app] in E. injection E as <- E.
    unfold nested in Hu, Hv. cbn [nest] in Hu, Hv.
    destruct (nest_close _ _ _ Hu) as (u1 & u2 & -> & Hu1 & Hu2).
    destruct (nest_close _ _ _ Hv) as (v1 & v2 & -> & Hv1 & Hv2).
    repeat (progress (rewrite <- ?app_assoc in E; cbn [app] in E)).
    cbn [length] in Hk. rewrite app_length in Hk; cbn [length] in Hk.
    apply IH in E; [|lia|assumption|assumption]. destruct E as (-> & E).
    apply IH in E; [|lia|assumption|assumption]. destruct E as (-> & ->). auto.
Qed.

Lemma forest_word_inj_aux k : forall ts ts', length (forest_word ts) < k ->
  forest_word ts = forest_word ts' -> ts = ts'.
Proof.
  induction k as [|k IH]; intros ts ts' Hk E; [lia|].
  destruct ts as [|[n kids] ts]; destruct ts' as [|[n' kids'] ts']; try reflexivity; try discriminate.
  cbn [forest_word flat_map tree_word app] in E, Hk. cbn [length] in Hk.
  injection E as <- E. repeat (progress (rewrite <- ?app_assoc in E; cbn [app] in E)).
  rewrite !app_length in Hk; cbn [length] in Hk.
  change (flat_map tree_word kids) with (forest_word kids) in *.
  change (flat_map tree_word kids') with (forest_word kids') in *.
  change (flat_map tree_word ts) with (forest_word ts) in *.
  change (flat_map tree_word ts') with (forest_word ts') in *.
  apply (forest_word_cons_cancel (S (length (forest_word kids)))) in E;
    [|lia|apply nested_forest_word|apply nested_forest_word].
  destruct E as (E1 & E2).
  rewrite (IH kids kids'), (IH ts ts'); [reflexivity|lia|exact E2|lia|exact E1].
Qed.
Lemma forest_word_inj ts ts' : forest_word ts = forest_word ts' -> ts = ts'.
Proof. apply (forest_word_inj_aux (S (length (forest_word ts)))). lia. Qed.

(** Small facts. *)
Lemma iter_eqb_spec i j : reflect (i = j) (iter_eqb i j).
Proof.
  destruct i as [n e], j as [m e']; unfold iter_eqb; cbn [fst snd].
  destruct (Nat.eqb_spec n m) as [->|H]; cbn [andb]; [|constructor; congruence].
  destruct e, e'; cbn; constructor; congruence.
Qed.
Lemma iter_eqb_refl i : iter_eqb i i = true.
Proof. destruct (iter_eqb_spec i i); congruence. Qed.
Lemma iter_eqb_neq i j : i <> j -> iter_eqb i j = false.
Proof. destruct (iter_eqb_spec i j); congruence. Qed.

Lemma without_app p a b : without p (a ++ b) = without p a ++ without p b.
Proof. apply filter_app. Qed.
Lemma in_without p i w : In i (without p w) <-> In i w /\ p (fst i) = false.
Proof. unfold without. rewrite filter_In, negb_true_iff. reflexivity. Qed.
Lemma without_all p w : (forall i, In i w -> p (fst i) = false) -> without p w = w.
Proof.
  induction w as [|i w IH]; intros H; [reflexivity|]. cbn [without filter].
  rewrite (H i (or_introl eq_refl)). cbn [negb]. f_equal. apply IH. intros j Hj. apply H. now right.
Qed.
Lemma without_ext p q w : (forall i, In i w -> p (fst i) = q (fst i)) -> without p w = without q w.
Proof.
  intros H. unfold without. apply filter_ext_in. intros i Hi. now rewrite (H i Hi).
Qed.

Lemma node_count_app a b : node_count (a ++ b) = node_count a + node_count b.
Proof. unfold node_count. now rewrite filter_app, app_length. Qed.

Lemma nodup_app_iff {A} (a b : list A) :
  NoDup (a ++ b) <-> NoDup a /\ NoDup b /\ (forall x, In x a -> In x b -> False).
Proof.
  induction a as [|x a IH]; cbn [app].
  - split; [intros H; split; [constructor|]; split; [exact H|]; intros ? []|tauto].
  - rewrite !NoDup_cons_iff, IH, in_app_iff. split.
    + intros (H1 & H2 & H3 & H4). split; [tauto|]. split; [tauto|].
      intros y [->|Hy] Hb; [tauto|eauto].
    + intros ((H1 & H2) & H3 & H4). split; [|split; [tauto|split; [tauto|]]].
      * intros [?|?]; [tauto|]. apply (H4 x); cbn; auto.
      * intros y Hy. apply H4. now right.
Qed.

Lemma hd_app {A} (d : A) a b : hd d (a ++ b) = hd (hd d b) a.
Proof. destruct a; reflexivity. Qed.
