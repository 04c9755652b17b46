(** Stepping back: -- undoes ++ for every iterator adaptor of a forest. *)
From Coq Require Import Permutation.
From Verif Require Import Prelude Forest_Model Forest_Spec Forest_WalkSpec Forest_Words Forest_Links Forest_Inv Forest_Ops Forest_Ops2 Forest_Ops3 Forest_Ops4 Forest_Walk.
Ltac Zify.zify_post_hook ::= idtac.

Lemma filter_split {A} (f : A -> bool) w : forall x, In x (filter f w) ->
  exists a c, w = a ++ x :: c /\ f x = true.
Proof.
  intros x H. apply filter_In in H. destruct H as (H & Hx). apply in_split in H. destruct H as (a & c & ->). eauto.
Qed.

(** The first element of [c] on which [f] holds, if there is one. *)
Lemma first_split {A} (f : A -> bool) c :
  exists c1 c2, c = c1 ++ c2 /\ filter f c1 = [] /\ (c2 = [] \/ exists x c3, c2 = x :: c3 /\ f x = true).
Proof.
  induction c as [|x c IH].
  - exists [], []. auto.
  - destruct (f x) eqn:E.
    + exists [], (x :: c). split; [reflexivity|]. split; [reflexivity|]. right. eauto.
    + destruct IH as (c1 & c2 & -> & H & H2). exists (x :: c1), c2. split; [reflexivity|]. split; [|exact H2].
      cbn [filter]. now rewrite E.
Qed.

Section Back.
Context {T : Type}.
Notation store := (store (T := T)).
Notation sstate := (sstate T).
Variables (h : store) (s : sstate) (k r : nat) (w : word).
Hypothesis I : inv h s [].
Hypothesis Hk : nth_error (words s) k = Some (r, w).

Let at_k a b : w = a ++ b -> nth_error (words s) k = Some (r, a ++ b).
Proof. intros <-. exact Hk. Qed.
Let step a i b : w = a ++ i :: b -> increment h i = Some (hd (trail r) b).
Proof. intros E. exact (inv_step _ _ _ _ _ _ _ _ I (at_k _ _ E)). Qed.
Let back a b : w = a ++ b -> decrement h (hd (trail r) b) = Some (last a (lead r)).
Proof. intros E. exact (inv_decr _ _ _ _ _ _ _ I (at_k _ _ E)). Qed.
Let not_root a i b : w = a ++ i :: b -> i <> lead r /\ i <> trail r.
Proof.
  intros E. pose proof (i_nodup _ _ _ I _ _ _ Hk) as Hd. apply nodup_circle in Hd. destruct Hd as (_ & H1 & H2).
  split; intros ->; [apply H1|apply H2]; rewrite E, in_app_iff; right; left; reflexivity.
Qed.

Lemma step_back a i b : w = a ++ i :: b ->
  increment h i = Some (hd (trail r) b) /\ decrement h (hd (trail r) b) = Some i.
Proof.
  intros E. split; [exact (step _ _ _ E)|].
  assert (E' : w = (a ++ [i]) ++ b) by (rewrite E; now lapp). rewrite (back _ _ E'). now rewrite last_last.
Qed.

Lemma pre_back fuel i : length w + 1 < fuel -> In i (filter snd w) ->
  exists j, edge_increment fuel h true i = Some j /\ edge_decrement fuel h true j = Some i.
Proof.
  intros Hf H. destruct (filter_split _ _ _ H) as (a & c & E & Hi). destruct i as [n e]. cbn [snd] in Hi. subst e.
  destruct (first_split snd c) as (c1 & c2 & -> & Hc & H2).
  apply (preorder_back h s k r w I Hk a n c1 c2 fuel E Hc); [|exact Hf].
  destruct H2 as [H2|([m e] & c3 & -> & He)]; [left; exact H2|]. cbn [snd] in He. subst e. right. exists m, c3. reflexivity.
Qed.

Lemma find_trail_back b : forall a n c fuel, w = a ++ trail n :: b ++ c -> filter (fun i => negb (snd i)) b = [] -> length b < fuel ->
  find_edge_reverse fuel h (last b (trail n)) false = Some (trail n).
Proof.
  induction b as [|[m e] b IH] using rev_ind; intros a n c fuel E Hb Hf; (destruct fuel as [|fuel]; [lia|]); cbn [find_edge_reverse].
  - reflexivity.
  - rewrite last_last. rewrite filter_app in Hb. apply app_eq_nil in Hb. destruct Hb as (Hb & He). cbn [filter snd] in He.
    destruct e; [|discriminate]. cbn [snd Bool.eqb].
    assert (E' : w = (a ++ trail n :: b) ++ (m, true) :: c) by (rewrite E; now lapp).
    pose proof (back _ _ E') as Hd. cbn [hd] in Hd. rewrite Hd.
    rewrite last_app_cons. rewrite app_length in Hf. cbn [length] in Hf.
    apply (IH a n ((m, true) :: c) fuel); [rewrite E; now lapp|exact Hb|lia].
Qed.

Lemma post_back fuel i : length w + 1 < fuel -> In i (filter (fun i => negb (snd i)) w) ->
  exists j, edge_increment fuel h false i = Some j /\ edge_decrement fuel h false j = Some i.
Proof.
  intros Hf H. destruct (filter_split _ _ _ H) as (a & c & E & Hi). destruct i as [n e]. cbn [snd] in Hi.
  destruct e; [discriminate|]. change (n, false) with (trail n) in *.
  destruct (first_split (fun i : iter => negb (snd i)) c) as (c1 & c2 & -> & Hc & H2).
  assert (E1 : w = (a ++ [trail n]) ++ c1 ++ c2) by (rewrite E; now lapp).
  assert (E2 : w = (a ++ trail n :: c1) ++ c2) by (rewrite E; now lapp).
  assert (Lc : length c1 + length c2 < length w).
  { rewrite E, app_length. cbn [length]. rewrite app_length. lia. }
  exists (next_trail r (c1 ++ c2)). split.
  - unfold edge_increment. rewrite (step _ _ _ E). apply (find_trail_ok h s k r w I Hk _ _ fuel E1). rewrite app_length. lia.
  - assert (En : next_trail r (c1 ++ c2) = hd (trail r) c2).
    { unfold next_trail. transitivity (hd (trail r) (filter (fun i => negb (snd i)) c1 ++ filter (fun i => negb (snd i)) c2));
        [f_equal; apply filter_app|]. unfold iter in *. rewrite Hc. cbn [app].
      destruct H2 as [->|(x & c3 & -> & Hx)]; [reflexivity|]. cbn [filter]. rewrite Hx. reflexivity. }
    rewrite En. unfold edge_decrement. rewrite (back _ _ E2), last_app_cons.
    apply (find_trail_back c1 a n c2 fuel E Hc). lia.
Qed.

Lemma depth_back a i b d : w = a ++ i :: b ->
  exists j, depth_increment h (i, d) = Some j /\ depth_decrement h j = Some (i, d).
Proof.
  intros E. destruct (step_back _ _ _ E) as (S1 & S2). unfold depth_increment, depth_decrement. cbn [fst]. rewrite S1.
  eexists. split; [reflexivity|]. cbn [fst snd]. rewrite S2. f_equal. f_equal.
  destruct (snd i), (snd (hd (trail r) b)); cbn [Bool.eqb]; lia.
Qed.

Lemma reverse_back a i b : w = a ++ i :: b ->
  exists j, reverse_increment h (rstate i) = Some j /\ reverse_decrement h j = Some (rstate i).
Proof.
  intros E. unfold reverse_increment, reverse_decrement, rstate. cbn [fst snd].
  rewrite negb_involutive, <- surjective_pairing. pose proof (back _ _ E) as Hb. cbn [hd] in Hb. rewrite Hb.
  eexists. split; [reflexivity|]. cbn [fst snd]. rewrite negb_involutive, <- surjective_pairing.
  destruct a as [|x a _] using rev_ind.
  - cbn [last]. pose proof (begin_ok h s [] k (F r 0) r w I Hk eq_refl) as Hg.
    unfold begin, root in Hg. cbn [tail] in Hg. rewrite Hg. rewrite E. cbn [hd app]. reflexivity.
  - rewrite last_last. assert (E' : w = a ++ x :: i :: b) by (rewrite E; now lapp). rewrite (step _ _ _ E'). reflexivity.
Qed.

(** ** The filtered range *)
Variable p : T -> bool.
Notation ok := (holds s p).
Definition failing (t : tree) : Prop := ok (root_id t) = false.

Lemma skip_shape g : forall a b, w = a ++ b -> forall j, skip_forward g h p (hd (trail r) b) (trail r) = Some j ->
  exists us b', b = forest_word us ++ b' /\ j = hd (trail r) b' /\ Forall failing us.
Proof.
  induction g as [|g IH]; intros a b E j H; [discriminate|]. cbn [skip_forward] in H.
  destruct b as [|[n e] b]; cbn [hd] in H.
  - cbn [snd trail andb] in H. injection H as <-. exists [], []. auto.
  - destruct e; cbn [snd andb] in H; [|injection H as <-; exists [], ((n, false) :: b); auto].
    rewrite (iter_eqb_neq _ _ (proj2 (not_root _ _ _ E))) in H. cbn [negb] in H.
    destruct (deref_w h s k r w I Hk p _ _ _ E) as (v & Hd & Hp). rewrite Hd in H. cbn [fst] in Hp.
    destruct (p v) eqn:Ep; [injection H as <-; exists [], ((n, true) :: b); auto|].
    pose proof (i_nested _ _ _ I _ _ _ Hk) as Hn. rewrite E in Hn.
    destruct (nested_split_lead _ _ _ Hn) as (b1 & b2 & -> & Hb1).
    destruct (nested_forest b1 Hb1) as (kids & ->).
    assert (E3 : w = (a ++ lead n :: forest_word kids) ++ trail n :: b2) by (rewrite E; unfold lead; now lapp).
    change (trailing_of (n, true)) with (trail n) in H. rewrite (step _ _ _ E3) in H.
    assert (E4 : w = (a ++ lead n :: forest_word kids ++ [trail n]) ++ b2) by (rewrite E; unfold lead; now lapp).
    destruct (IH _ _ E4 _ H) as (us & b' & -> & -> & Hu).
    exists (TNode n kids :: us), b'. split; [rewrite fw_cons; unfold lead; now lapp|]. split; [reflexivity|].
    constructor; [exact (eq_sym Hp)|exact Hu].
Qed.

Lemma skip_over us : forall a i b g first, w = a ++ i :: forest_word us ++ b -> Forall failing us ->
  (snd i = false -> ok (fst i) = true) -> snd first = true -> length us < g ->
  skip_backward g h p first (last (forest_word us) i) = Some i.
Proof.
  induction us as [|[n kids] us IH] using rev_ind; intros a i b g first E Hu Hi Hfst Hg.
  - cbn [forest_word flat_map last]. destruct g as [|g]; [cbn in Hg; lia|]. cbn [skip_backward].
    cbn [forest_word flat_map app] in E.
    destruct (snd i) eqn:Ei; [reflexivity|]. cbn [negb].
    destruct (deref_w h s k r w I Hk p _ _ _ E) as (v & Hd & Hp). rewrite Hd, Hp, (Hi eq_refl).
    destruct (negb (iter_eqb first i)); reflexivity.
  - rewrite app_length in Hg. cbn [length] in Hg. destruct g as [|g]; [lia|].
    apply Forall_app in Hu. destruct Hu as (Hu & Hn). apply Forall_cons_iff in Hn. destruct Hn as (Hn & _).
    unfold failing in Hn. cbn [root_id] in Hn.
    rewrite forest_word_app, fw_cons in *. cbn [forest_word flat_map] in *.
    assert (L : last (forest_word us ++ lead n :: forest_word kids ++ [trail n]) i = trail n).
    { replace (forest_word us ++ lead n :: forest_word kids ++ [trail n]) with ((forest_word us ++ lead n :: forest_word kids) ++ [trail n]) by now lapp.
      apply last_last. }
    rewrite L. cbn [skip_backward]. change (snd (trail n)) with false. cbn [negb].
    assert (Nf : iter_eqb first (trail n) = false).
    { apply iter_eqb_neq. intros ->. discriminate Hfst. }
    rewrite Nf. cbn [negb andb].
    assert (E1 : w = (a ++ i :: forest_word us ++ lead n :: forest_word kids) ++ trail n :: b) by (rewrite E; now lapp).
    destruct (deref_w h s k r w I Hk p _ _ _ E1) as (v & Hd & Hp). rewrite Hd, Hp.
    change (fst (trail n)) with n. rewrite Hn. change (leading_of (trail n)) with (lead n).
    assert (E2 : w = (a ++ i :: forest_word us) ++ lead n :: (forest_word kids ++ trail n :: b)) by (rewrite E; now lapp).
    pose proof (back _ _ E2) as Hb. cbn [hd] in Hb. rewrite Hb. rewrite last_app_cons.
    eapply (IH a i (lead n :: forest_word kids ++ trail n :: b)); [rewrite E; now lapp|exact Hu|exact Hi|exact Hfst|lia].
Qed.

Lemma first_leading : w <> [] -> snd (hd (trail r) w) = true.
Proof.
  pose proof (i_nested _ _ _ I _ _ _ Hk) as Hn. destruct w as [|[n [|]] u]; [congruence|reflexivity|discriminate].
Qed.

Lemma filter_back fuel i j : length w < fuel -> In i w -> ok (fst i) = true ->
  filt h r p fuel (hd (trail r) w) (i, true) = Some j ->
  snd j = true /\ filter_decrement fuel h p (hd (trail r) w) (trail r) j = Some (i, true).
Proof.
  intros Hf Hi Ho H. apply in_split in Hi. destruct Hi as (a & b & E).
  unfold filt, filter_increment in H. rewrite (iter_eqb_neq _ _ (proj2 (not_root _ _ _ E))), (step _ _ _ E) in H.
  assert (E0 : w = (a ++ [i]) ++ b) by (rewrite E; now lapp).
  assert (H' : exists j', skip_forward fuel h p (hd (trail r) b) (trail r) = Some j' /\ j = (j', true)).
  { destruct (iter_eqb (hd (trail r) b) (hd (trail r) w)); cbn [negb] in H;
      destruct (skip_forward fuel h p (hd (trail r) b) (trail r)) as [j'|]; try discriminate; injection H as <-; eauto. }
  destruct H' as (j' & Hs & ->). clear H. split; [reflexivity|].
  destruct (skip_shape fuel _ _ E0 _ Hs) as (us & b' & -> & -> & Hu).
  unfold filter_decrement.
  assert (Nj : iter_eqb (hd (trail r) b') (hd (trail r) w) = false).
  { apply iter_eqb_neq. intros X.
    assert (Hw : w <> []) by (rewrite E; destruct a; discriminate).
    destruct b' as [|y b']; cbn [hd] in X.
    - pose proof (first_leading Hw) as Hl. rewrite <- X in Hl. discriminate.
    - assert (Hy : exists a', a ++ i :: forest_word us = hd (trail r) w :: a').
      { rewrite E. destruct a as [|x a]; [eexists; reflexivity|eexists; reflexivity]. }
      destruct Hy as (a' & Ha').
      pose proof (i_nodup _ _ _ I _ _ _ Hk) as Hd. apply nodup_circle in Hd. destruct Hd as (Hd & _).
      assert (E5 : w = (a ++ i :: forest_word us) ++ y :: b') by (rewrite E; now lapp).
      rewrite E5, Ha', X in Hd. cbn [app] in Hd. apply NoDup_cons_iff in Hd. apply (proj1 Hd).
      rewrite in_app_iff. right. left. reflexivity. }
  rewrite Nj.
  assert (E5 : w = (a ++ i :: forest_word us) ++ b') by (rewrite E; now lapp).
  rewrite (back _ _ E5), last_app_cons.
  assert (Lu : length us < fuel).
  { eapply Nat.le_lt_trans; [|exact Hf]. rewrite E, !app_length. cbn [length]. rewrite app_length.
    assert (length us <= length (forest_word us)); [|lia].
    clear. induction us as [|[n kids] us IH]; [reflexivity|]. rewrite fw_cons. cbn [length]. rewrite app_length. cbn [length]. lia. }
  rewrite (skip_over us a i b' fuel (hd (trail r) w) E Hu (fun _ => Ho)); [|apply first_leading; rewrite E; destruct a; discriminate|exact Lu].
  destruct (iter_eqb (last (forest_word us) i) (trail r)); reflexivity.
Qed.

End Back.

(** The positions of the filtered range satisfy the predicate. *)
Lemma prune_in (q : nat -> bool) ts : forall i, In i (forest_word (flat_map (prune q) ts)) -> In i (forest_word ts) /\ q (fst i) = true.
Proof.
  induction ts as [|n kids ts IH1 IH2] using trees_ind; intros i H; [destruct H|].
  cbn [flat_map prune] in H. rewrite fw_cons. rewrite forest_word_app in H. apply in_app_iff in H. destruct H as [H|H].
  - destruct (q n) eqn:Eq; [|destruct H]. rewrite fw_cons in H. cbn [forest_word flat_map] in H.
    destruct H as [<-|H]; [split; [left; reflexivity|exact Eq]|].
    apply in_app_iff in H. destruct H as [H|[<-|[]]].
    + destruct (IH1 _ H) as (H1 & H2). split; [right; apply in_app_iff; left; exact H1|exact H2].
    + split; [right; apply in_app_iff; right; left; reflexivity|exact Eq].
  - destruct (IH2 _ H) as (H1 & H2). split; [right; apply in_app_iff; right; right; exact H1|exact H2].
Qed.
