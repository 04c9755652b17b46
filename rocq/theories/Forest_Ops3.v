(** reverse, copying, and the queries. *)
From Coq Require Import Permutation.
From Verif Require Import Prelude Forest_Model Forest_Spec Forest_Words Forest_Links Forest_Inv Forest_Ops Forest_Ops2.
Ltac Zify.zify_post_hook ::= idtac.

Lemma forest_word_app ts us : forest_word (ts ++ us) = forest_word ts ++ forest_word us.
Proof. apply flat_map_app. Qed.
Lemma forest_word_cons t ts : forest_word (t :: ts) = tree_word t ++ forest_word ts.
Proof. reflexivity. Qed.
Lemma tree_word_eq n kids : tree_word (TNode n kids) = lead n :: forest_word kids ++ [trail n].
Proof. reflexivity. Qed.

Section Ops3.
Context {T : Type}.
Notation store := (store (T := T)).
Notation sstate := (sstate T).

Lemma increment_frame (h h' : store) a b n q : set_next_spec h a b h' -> (n, false) <> a ->
  increment h (n, false) = Some q -> b <> lead (fst q) -> increment h' (n, false) = Some q.
Proof.
  intros S Ha Hi Hb. rewrite increment_trail in *.
  rewrite (sn_nx _ _ _ _ S), (iter_eqb_neq _ a) by exact Ha.
  destruct (nx h (n, false)) as [y|]; [|discriminate].
  rewrite (sn_px _ _ _ _ S).
  assert (Hy : fst q = y).
  { destruct (px h (y, true)); [|discriminate]. injection Hi as <-. reflexivity. }
  rewrite (iter_eqb_neq _ b); [exact Hi|]. intros E. apply Hb. rewrite <- E, Hy. reflexivity.
Qed.

(** ** reverse(child_begin, child_end) *)
Lemma reverse_append_ok ts : forall (h : store) done p B W,
  NoDup (forest_word ts ++ forest_word (rev done) ++ trail p :: B) ->
  ~ In (lead p) (forest_word ts ++ forest_word (rev done)) ->
  (forall i, In i (forest_word ts ++ forest_word (rev done) ++ trail p :: B) -> dat h (fst i) <> None) ->
  incl (forest_word ts ++ forest_word (rev done) ++ trail p :: B) W ->
  seg h (forest_word (rev done) ++ trail p :: B) ->
  Forall (fun t => seg h (tree_word t)) ts ->
  (forall l1 n ks l2, ts = l1 ++ TNode n ks :: l2 -> increment h (trail n) = Some (hd (trail p) (forest_word l2))) ->
  exists h',
    (forall fuel, length ts < fuel -> reverse_append fuel h (hd (trail p) (forest_word ts)) (trail p)
        (hd (trail p) (forest_word (rev done))) = Some (h', hd (trail p) (forest_word (rev (done ++ ts))))) /\
    frame h h' W /\ (forall i, ~ In i (forest_word ts ++ forest_word (rev done)) -> nx h' i = nx h i) /\
    (forall i, ~ In i (forest_word ts ++ forest_word (rev done) ++ [trail p]) -> px h' i = px h i) /\
    seg h' (forest_word (rev (done ++ ts)) ++ trail p :: B).
Proof.
  induction ts as [|[n ks] ts IH]; intros h done p B W Hd Hp Ha HW Hs Hf Hi.
  - exists h. rewrite app_nil_r. cbn [forest_word flat_map app] in *. split; [|split; [apply frame_refl|split; [auto|split; [auto|exact Hs]]]].
    intros fuel Hfu. destruct fuel as [|fuel]; [lia|]. cbn [reverse_append hd]. now rewrite iter_eqb_refl.
  - rewrite forest_word_cons, tree_word_eq in *.
    apply Forall_cons_iff in Hf. destruct Hf as (Hf0 & Hf). rewrite tree_word_eq in Hf0.
    set (R := forest_word (rev done)) in *. set (K := forest_word ks) in *. set (X := forest_word ts) in *.
    set (res := hd (trail p) R).
    assert (Hres : In res (R ++ trail p :: B)).
    { unfold res. destruct R; cbn; auto. }
    assert (HresHd : res = hd (trail p) (R ++ trail p :: B)) by (unfold res; destruct R; reflexivity).
    assert (EW : ((lead n :: K ++ [trail n]) ++ X) ++ R ++ trail p :: B = lead n :: K ++ trail n :: X ++ R ++ trail p :: B) by now lapp.
    assert (EP : ((lead n :: K ++ [trail n]) ++ X) ++ R = lead n :: K ++ trail n :: X ++ R) by now lapp.
    rewrite EW in Hd, Ha, HW. rewrite EP in Hp.
    destruct (set_next_ok h (trail n) res) as (h1 & S1).
    { apply (Ha (trail n)). right. rewrite in_app_iff. right; left. reflexivity. }
    { apply Ha. right. rewrite in_app_iff. right; right. rewrite in_app_iff. auto. }
    (* NoDup consequences *)
    pose proof Hd as Hd0.
    rewrite app_comm_cons in Hd. apply nodup_app_iff in Hd. destruct Hd as (HdA & HdB & HdAB).
    apply NoDup_cons_iff in HdB. destruct HdB as (HdB1 & HdB2).
    apply nodup_app_iff in HdB2. destruct HdB2 as (HdX & HdR & HdXR).
    assert (HresT : res <> trail n).
    { intros E. apply HdB1. rewrite in_app_iff. right. rewrite <- E. exact Hres. }
    assert (Hinc : increment h (trail n) = Some (hd (trail p) X)) by (apply (Hi [] n ks ts); reflexivity).
    destruct (IH h1 (done ++ [TNode n ks]) p B W) as (h' & E & Fr & Fn & Fp & Hseg); clear IH.
    + (* NoDup of the rest *)
      rewrite rev_app_distr. cbn [rev app]. rewrite forest_word_cons, tree_word_eq. fold R K X.
      eapply Permutation_NoDup; [|exact Hd0]. lapp.
      etransitivity; [|apply Permutation_app_comm]. lapp. apply perm_skip. apply Permutation_app_head.
      apply perm_skip. etransitivity; [apply Permutation_app_comm|]. lapp. reflexivity.
    + rewrite rev_app_distr. cbn [rev app]. rewrite forest_word_cons, tree_word_eq. fold R K X.
      intros Hin. apply Hp. revert Hin. cbn [app In]. repeat (rewrite in_app_iff; cbn [app In]). tauto.
    + intros i Hin. rewrite (sn_dat _ _ _ _ S1). apply Ha. revert Hin.
      rewrite rev_app_distr. cbn [rev app]. rewrite forest_word_cons, tree_word_eq. fold R K X.
      cbn [app In]. repeat (rewrite in_app_iff; cbn [app In]). tauto.
    + intros i Hin. apply HW. revert Hin.
      rewrite rev_app_distr. cbn [rev app]. rewrite forest_word_cons, tree_word_eq. fold R K X.
      cbn [app In]. repeat (rewrite in_app_iff; cbn [app In]). tauto.
    + (* the processed part *)
      rewrite rev_app_distr. cbn [rev app]. rewrite forest_word_cons, tree_word_eq. fold R K.
      replace ((lead n :: K ++ [trail n]) ++ R) with (lead n :: K ++ trail n :: R) by now lapp.
      cbn [app seg]. cbn [seg] in Hf0.
      replace ((K ++ trail n :: R) ++ trail p :: B) with (K ++ trail n :: (R ++ trail p :: B)) by now lapp.
      destruct (R ++ trail p :: B) as [|q Q] eqn:EQ; [destruct R; discriminate|].
      cbn [hd] in HresHd. rewrite HresHd in S1.
      eapply chain_join; [exact S1| | |exact Hf0|exact Hs].
      * apply NoDup_cons_iff in HdA. destruct HdA as (_ & HdK).
        apply nodup_app_iff. split; [exact HdK|]. split.
        { apply NoDup_cons; [|exact HdR]. intros Hin. apply HdB1. rewrite in_app_iff. auto. }
        { intros i Hi1 Hi2. apply (HdAB i); [right; exact Hi1|]. destruct Hi2 as [->|Hi2]; [left; reflexivity|].
          right. rewrite in_app_iff. auto. }
      * discriminate.
    + (* the remaining trees *)
      apply Forall_forall. intros t Ht. rewrite Forall_forall in Hf. specialize (Hf t Ht).
      assert (HtX : incl (tree_word t) X).
      { intros i Hin. unfold X, forest_word. apply in_flat_map. eauto. }
      destruct t as [m kk]. rewrite tree_word_eq in *. cbn [seg] in *.
      eapply chain_set_next; [exact S1| | |exact Hf].
      * intros Hin. apply removelast_in in Hin. apply HdB1. rewrite in_app_iff. left. apply HtX. exact Hin.
      * intros Hin. apply (HdXR res); [apply HtX; right; exact Hin|exact Hres].
    + intros l1 m kk l2 El.
      assert (HmX : In (trail m) X).
      { unfold X. rewrite El, forest_word_app, forest_word_cons, tree_word_eq. rewrite in_app_iff. right. right.
        rewrite !in_app_iff. cbn; auto. }
      eapply increment_frame; [exact S1| |apply (Hi (TNode n ks :: l1) m kk l2); rewrite El; reflexivity|].
      * intros Em. apply HdB1. rewrite in_app_iff. left. rewrite <- Em. exact HmX.
      * intros Er. destruct l2 as [|[m2 kk2] l2].
        { cbn [forest_word flat_map hd fst trail] in Er. unfold res in Er.
          destruct R as [|q R']; cbn [hd] in Er; [discriminate|]. subst q. apply Hp. right. rewrite !in_app_iff.
          right; right. rewrite in_app_iff. right; left; reflexivity. }
        { rewrite forest_word_cons, tree_word_eq in Er. cbn [app hd fst lead] in Er.
          apply (HdXR res); [|exact Hres]. rewrite Er. unfold X.
          rewrite El, forest_word_app, !forest_word_cons, !tree_word_eq. rewrite !in_app_iff. right; right. left. left. reflexivity. }
    + exists h'.
      assert (Edone : (done ++ [TNode n ks]) ++ ts = done ++ TNode n ks :: ts) by now lapp.
      rewrite Edone in E, Hseg.
      assert (ER : forest_word (rev (done ++ [TNode n ks])) = lead n :: K ++ trail n :: R).
      { rewrite rev_app_distr. cbn [rev app]. rewrite forest_word_cons, tree_word_eq. fold R K. now lapp. }
      rewrite ER in E, Fn, Fp.
      split; [|split; [|split; [|split; [|exact Hseg]]]].
      * intros fuel Hfu. destruct fuel as [|fuel]; [cbn in Hfu; lia|]. cbn [reverse_append app hd].
        rewrite iter_eqb_neq by discriminate. unfold child_increment.
        change (pivot_of (lead n)) with (trail n). rewrite Hinc. fold res.
        rewrite (sn_eq _ _ _ _ S1). cbn [hd] in E. apply E. cbn [length] in Hfu. lia.
      * eapply frame_trans; [|exact Fr]. eapply frame_set_next; [exact S1| |]; apply HW.
        { right. rewrite in_app_iff. right; left. reflexivity. }
        { right. rewrite in_app_iff. right; right. rewrite in_app_iff. auto. }
      * intros i Hin. rewrite Fn.
        { rewrite (sn_nx _ _ _ _ S1), iter_eqb_neq; [reflexivity|]. intros ->. apply Hin.
          cbn [app In]. repeat (rewrite in_app_iff; cbn [app In]). auto 10. }
        { intros Hin2. apply Hin. revert Hin2. cbn [app In]. repeat (rewrite in_app_iff; cbn [app In]). tauto. }
      * intros i Hin. rewrite Fp.
        { rewrite (sn_px _ _ _ _ S1), iter_eqb_neq; [reflexivity|]. intros ->. apply Hin.
          cbn [app In]. repeat (rewrite in_app_iff; cbn [app In]).
          unfold res. destruct R; cbn; auto. }
        { intros Hin2. apply Hin. revert Hin2. cbn [app In]. repeat (rewrite in_app_iff; cbn [app In]). tauto. }
Qed.

Lemma chain_seg_app (h : store) s a u b : chain h s (a ++ u ++ b) -> seg h u.
Proof. rewrite chain_app. intros (_ & H). rewrite chain_app in H. exact (chain_seg _ _ _ (proj1 H)). Qed.
Lemma chain_seg_suffix (h : store) s a b : chain h s (a ++ b) -> seg h b.
Proof. rewrite chain_app. intros (_ & H). exact (chain_seg _ _ _ H). Qed.

Lemma in_forest_trees ts t i : In t ts -> In i (tree_word t) -> In i (forest_word ts).
Proof. intros. unfold forest_word. apply in_flat_map. eauto. Qed.

Lemma forest_word_rev_perm ts : Permutation (forest_word (rev ts)) (forest_word ts).
Proof.
  induction ts as [|t ts IH]; [reflexivity|]. cbn [rev]. rewrite forest_word_app, !forest_word_cons.
  cbn [forest_word flat_map]. rewrite app_nil_r. etransitivity; [apply Permutation_app_comm|].
  apply Permutation_app_head. exact IH.
Qed.

Lemma circle_word_perm r w w' : Permutation (circle (r, w')) (circle (r, w)) -> Permutation w' w.
Proof.
  unfold circle; cbn [fst snd]. intros H. apply Permutation_cons_inv in H.
  apply Permutation_app_inv_r in H. exact H.
Qed.

Lemma circle_head_cases r w a p X B : circle (r, w) = a ++ lead p :: X ++ trail p :: B ->
  NoDup (circle (r, w)) -> (a = [] -> p = r) /\ (a <> [] -> exists a', a = lead r :: a').
Proof.
  unfold circle; cbn [fst snd]. destruct a as [|i a]; cbn [app]; intros E _.
  - injection E as E _. split; [congruence|congruence].
  - injection E as <- _. split; [discriminate|eauto].
Qed.

Lemma reverse_ok (h : store) s k r w a p ts B w' : inv h s [] -> nth_error (words s) k = Some (r, w) ->
  circle (r, w) = a ++ lead p :: forest_word ts ++ trail p :: B ->
  circle (r, w') = a ++ lead p :: forest_word (rev ts) ++ trail p :: B ->
  exists h',
    (forall fuel, length ts < fuel ->
      (let* b := child_begin h (lead p) in reverse fuel h b (child_end (lead p))) = Some h') /\
    inv h' (SS (upd (words s) k (r, w')) (vals s)) [].
Proof.
  intros I Hk E E'.
  pose proof (i_nested _ _ _ I _ _ _ Hk) as Hn. pose proof (i_nodup _ _ _ I _ _ _ Hk) as Hd.
  pose proof (i_ring _ _ _ I _ _ _ Hk) as Hr.
  assert (Hb : child_begin h (lead p) = Some (hd (trail p) (forest_word ts))).
  { unfold child_begin. change (leading_of (lead p)) with (lead p).
    destruct (forest_word ts) as [|x X] eqn:EX; cbn [hd].
    - eapply ring_increment; [exact Hn|exact Hd|exact Hr|exact E].
    - eapply ring_increment; [exact Hn|exact Hd|exact Hr|exact E]. }
  assert (Hpr : decrement h (hd (trail p) (forest_word ts)) = Some (lead p)).
  { destruct (forest_word ts) as [|x X] eqn:EX; cbn [hd]; (eapply ring_decrement; [exact Hn|exact Hd|exact Hr|exact E]). }
  pose proof Hd as Hd1. rewrite E in Hd1. pose proof Hr as Hr1. unfold ring in Hr1. rewrite E in Hr1.
  pose proof Hd1 as Hd2. apply nodup_app_iff in Hd2. destruct Hd2 as (Hda & Hd2 & HdaX).
  apply NoDup_cons_iff in Hd2. destruct Hd2 as (Hp1 & Hd2).
  assert (Hin : forall i, In i (a ++ lead p :: forest_word ts ++ trail p :: B) -> dat h (fst i) <> None).
  { intros i Hi. rewrite <- E in Hi. eapply inv_alive; [exact I|exact Hk|exact Hi]. }
  destruct (reverse_append_ok ts h [] p B (circle (r, w))) as (h1 & E1 & Fr & Fn & Fp & Hseg).
  - cbn [rev forest_word flat_map app]. exact Hd2.
  - cbn [rev forest_word flat_map app]. rewrite app_nil_r. intros Hi. apply Hp1. rewrite in_app_iff. auto.
  - cbn [rev forest_word flat_map app]. intros i Hi. apply Hin. rewrite in_app_iff. right; right. exact Hi.
  - cbn [rev forest_word flat_map app]. intros i Hi. rewrite E, in_app_iff. right; right. exact Hi.
  - cbn [rev forest_word flat_map app].
    apply (chain_seg_suffix h (trail r) (a ++ lead p :: forest_word ts)).
    replace ((a ++ lead p :: forest_word ts) ++ trail p :: B) with (a ++ lead p :: forest_word ts ++ trail p :: B) by now lapp.
    exact Hr1.
  - apply Forall_forall. intros t Ht. apply in_split in Ht. destruct Ht as (l1 & l2 & ->).
    rewrite forest_word_app, forest_word_cons in Hr1.
    apply (chain_seg_app h (trail r) (a ++ lead p :: forest_word l1) _ (forest_word l2 ++ trail p :: B)).
    replace ((a ++ lead p :: forest_word l1) ++ tree_word t ++ forest_word l2 ++ trail p :: B)
      with (a ++ lead p :: (forest_word l1 ++ tree_word t ++ forest_word l2) ++ trail p :: B) by now lapp.
    exact Hr1.
  - intros l1 n ks l2 ->.
    rewrite forest_word_app, forest_word_cons, tree_word_eq in E.
    replace (a ++ lead p :: (forest_word l1 ++ (lead n :: forest_word ks ++ [trail n]) ++ forest_word l2) ++ trail p :: B)
      with ((a ++ lead p :: forest_word l1 ++ lead n :: forest_word ks) ++ trail n :: (forest_word l2 ++ trail p :: B)) in E by now lapp.
    destruct (forest_word l2) as [|x X] eqn:EX; cbn [hd app] in *;
      (eapply ring_increment; [exact Hn|exact Hd|exact Hr|exact E]).
  - cbn [rev app] in E1, Hseg. cbn [rev forest_word flat_map app hd] in E1, Fn, Fp. rewrite app_nil_r in Fn.
    change (flat_map tree_word ts) with (forest_word ts) in *.
    set (R := forest_word (rev ts)) in *.
    destruct (set_next_ok h1 (lead p) (hd (trail p) R)) as (h2 & S2).
    { rewrite (proj1 (proj2 Fr)). apply Hin. rewrite in_app_iff. right; left. reflexivity. }
    { rewrite (proj1 (proj2 Fr)). apply Hin. rewrite in_app_iff. right; right. rewrite in_app_iff.
      destruct R as [|x R'] eqn:ER; [right; left; reflexivity|left]. cbn [hd].
      apply (Permutation_in x (forest_word_rev_perm ts)). unfold R in ER. rewrite ER. left; reflexivity. }
    assert (Hperm : Permutation (circle (r, w')) (circle (r, w))).
    { rewrite E, E'. fold R. apply Permutation_app_head, perm_skip, Permutation_app_tail, forest_word_rev_perm. }
    assert (Hd' : NoDup (circle (r, w'))) by (eapply Permutation_NoDup; [symmetry; exact Hperm|exact Hd]).
    exists h2. split.
    + intros fuel Hfu. rewrite Hb. unfold reverse. rewrite Hpr. change (child_end (lead p)) with (trail p).
      rewrite (E1 fuel Hfu). exact (sn_eq _ _ _ _ S2).
    + eapply inv_relink; [exact I|exact Hk| | | |].
      * rewrite app_nil_r. eapply frame_trans; [exact Fr|]. eapply frame_set_next; [exact S2| |].
        { rewrite E, in_app_iff. right; left; reflexivity. }
        { eapply Permutation_in; [exact Hperm|]. rewrite E'. fold R. rewrite in_app_iff. right; right.
          destruct R; cbn; auto. }
      * (* nested *)
        assert (Hc' : nested (circle (r, w'))).
        { rewrite E'. fold R. change (a ++ lead p :: R ++ trail p :: B) with (a ++ [lead p] ++ R ++ trail p :: B).
          rewrite app_assoc. apply nested_insert; [apply nested_forest_word|].
          pose proof (circle_nested r w Hn) as Hc. rewrite E in Hc.
          change (a ++ lead p :: forest_word ts ++ trail p :: B) with (a ++ [lead p] ++ forest_word ts ++ trail p :: B) in Hc.
          rewrite app_assoc in Hc. apply nested_remove in Hc; [exact Hc|apply nested_forest_word]. }
        unfold circle in Hc'; cbn [fst snd] in Hc'. unfold nested in Hc'. cbn [nest lead] in Hc'.
        apply nest_close in Hc'. destruct Hc' as (B1 & B2 & EB & HB1 & HB2).
        destruct B2 as [|x B2] using rev_ind.
        { apply app_inj_tail in EB. destruct EB as (-> & _). exact HB1. }
        { exfalso. change (B1 ++ trail r :: B2 ++ [x]) with (B1 ++ (trail r :: B2) ++ [x]) in EB. rewrite app_assoc in EB.
          apply app_inj_tail in EB. destruct EB as (-> & <-).
          apply nodup_circle in Hd'. destruct Hd' as (_ & _ & Hd'). apply Hd'. rewrite in_app_iff. right; left; reflexivity. }
      * unfold ring. rewrite E'. fold R.
        destruct (R ++ trail p :: B) as [|q Q] eqn:EQ; [destruct R; discriminate|].
        assert (Eq : hd (trail p) R = q) by (destruct R; cbn [app hd] in *; congruence).
        rewrite Eq in S2. eapply chain_join; [exact S2| | | |].
        { rewrite E' in Hd'. exact Hd'. }
        { discriminate. }
        { assert (C0 : chain h (trail r) (a ++ [lead p])) by (apply chain_cons_app in Hr1; tauto).
          eapply chain_frame; [| |exact C0].
          - intros i Hi. apply Fn. intros Hi2.
            change (trail r :: a ++ [lead p]) with ((trail r :: a) ++ [lead p]) in Hi. rewrite removelast_app in Hi by discriminate.
            cbn [removelast] in Hi. rewrite app_nil_r in Hi. destruct Hi as [<-|Hi].
            + (* trail r is the last of the circle *)
              destruct B as [|y B'] using rev_ind.
              * change (a ++ lead p :: forest_word ts ++ [trail p]) with (a ++ (lead p :: forest_word ts) ++ [trail p]) in E.
                rewrite app_assoc in E. apply circle_tail_inj in E. destruct E as (Ep & _).
                rewrite <- Ep in Hi2. apply nodup_app_iff in Hd2. destruct Hd2 as (_ & _ & Hd2). apply (Hd2 _ Hi2). left; reflexivity.
              * clear IHB'. replace (a ++ lead p :: forest_word ts ++ trail p :: B' ++ [y])
                  with ((a ++ lead p :: forest_word ts ++ trail p :: B') ++ [y]) in E by now lapp.
                apply circle_tail_inj in E. destruct E as (Ep & _). subst y.
                apply nodup_app_iff in Hd2. destruct Hd2 as (_ & _ & Hd2). apply (Hd2 _ Hi2). right. rewrite in_app_iff. right; left; reflexivity.
            + apply (HdaX _ Hi). right. rewrite in_app_iff. auto.
          - intros i Hi. apply Fp. intros Hi2. rewrite in_app_iff in Hi, Hi2.
            assert (Hi3 : In i (forest_word ts ++ trail p :: B)).
            { rewrite in_app_iff. destruct Hi2 as [?|[<-|[]]]; [auto|right; left; reflexivity]. }
            destruct Hi as [Hi|[<-|[]]].
            + apply (HdaX _ Hi). right. exact Hi3.
            + apply Hp1. exact Hi3. }
        { cbn [seg] in Hseg. exact Hseg. }
      * rewrite !app_nil_r. exact (circle_word_perm r w w' Hperm).
Qed.

(** ** insert(pos, first, last) and the copy constructor *)
Definition ren_of (ren : list (nat * nat)) (n : nat) : nat :=
  match find (fun p => fst p =? n) ren with Some p => snd p | None => n end.

Lemma renumber_trail k ren n w : renumber k ren (trail n :: w) = trail (ren_of ren n) :: renumber k ren w.
Proof. reflexivity. Qed.

Lemma fok_same f r w w' : fok f (r, w) -> node_count w = node_count w' -> fok f (r, w').
Proof. intros (H1 & H2) E. split; [exact H1|]. cbn [snd] in *. now rewrite <- E. Qed.

Lemma vals_grow (vs : list (option T)) x u :
  (forall i, In i u -> fst i < length vs) ->
  map (fun i : iter => nth (fst i) (vs ++ [x]) None) (filter snd u) = map (fun i : iter => nth (fst i) vs None) (filter snd u).
Proof.
  intros H. apply map_ext_in. intros i Hi. apply filter_In in Hi. apply app_nth1. apply H. tauto.
Qed.

Lemma insert_range_ok q : forall (h : store) s f k kx r r' a t0 ren b P c,
  inv h s [] -> k <> kx ->
  nth_error (words s) k = Some (r, a ++ map (fun n => trail (ren_of ren n)) t0 ++ b) ->
  nth_error (words s) kx = Some (r', P ++ q ++ c) ->
  fok f (r, a ++ map (fun n => trail (ren_of ren n)) t0 ++ b) ->
  nest t0 q = Some [] -> (forall m, In m t0 -> ~ In (lead m) q) ->
  let w' := a ++ renumber (length (vals s)) ren q ++ b in
  exists h' f',
    (forall fuel, length q < fuel ->
       insert_range fuel h f (hd (trail r) (map (fun n => trail (ren_of ren n)) t0 ++ b))
         (hd (trail r') (q ++ c)) (hd (trail r') c) = Some (h', f', hd (trail r) b)) /\
    inv h' (SS (upd (words s) k (r, w'))
               (vals s ++ map (fun i : iter => nth (fst i) (vals s) None) (filter snd q))) [] /\
    fok f' (r, w').
Proof.
  induction q as [|[n e] q IH]; intros h s f k kx r r' a t0 ren b P c I Hkk Hk Hkx Hf Hn Ht w'.
  - cbn [nest] in Hn. injection Hn as ->. cbn [map app] in *. exists h, f. split; [|split].
    + intros fuel Hfu. destruct fuel as [|fuel]; [lia|]. cbn [insert_range]. now rewrite iter_eqb_refl.
    + unfold w'. cbn [renumber app filter map]. rewrite app_nil_r, (upd_self _ _ _ Hk). destruct s; exact I.
    + exact Hf.
  - assert (Hne : iter_eqb (n, e) (hd (trail r') c) = false).
    { apply iter_eqb_neq. exact (pos_neq _ _ _ _ _ _ _ _ _ I Hkx). }
    assert (Hnd : NoDup (P ++ (n, e) :: q ++ c)).
    { pose proof (i_nodup _ _ _ I _ _ _ Hkx) as Hd. apply nodup_circle in Hd. exact (proj1 Hd). }
    destruct e.
    + (* leading edge: insert a copy *)
      set (t := map (fun n => trail (ren_of ren n)) t0) in *.
      destruct (i_some _ _ _ I (n, true)) as (v & Hv).
      { left. exists kx, r', (P ++ ((n, true) :: q) ++ c). split; [exact Hkx|]. rewrite in_app_iff. right; left. reflexivity. }
      cbn [fst] in Hv.
      assert (Hde : deref h (n, true) = Some v).
      { rewrite deref_dat. rewrite (i_in _ _ _ I (n, true)); [exact Hv|]. left. eapply mem_at; [exact Hkx|].
        apply in_circle. right; left. rewrite in_app_iff. right; left. reflexivity. }
      destruct (insert_ok h s k f r a (t ++ b) v I Hk Hf) as (h1 & f1 & E1 & I1 & F1).
      set (m := length (vals s)) in *.
      set (s1 := SS (upd (words s) k (r, a ++ lead m :: trail m :: t ++ b)) (vals s ++ [Some v])) in *.
      assert (Hk1 : nth_error (words s1) k = Some (r, (a ++ [lead m]) ++ (trail m :: t) ++ b)).
      { unfold s1; cbn [words]. rewrite (nth_upd_same _ _ _ _ Hk). now lapp. }
      assert (Hkx1 : nth_error (words s1) kx = Some (r', (P ++ [(n, true)]) ++ q ++ c)).
      { unfold s1; cbn [words]. rewrite nth_error_upd_other by congruence. rewrite Hkx. now lapp. }
      assert (Hinc : increment h1 (n, true) = Some (hd (trail r') (q ++ c))).
      { pose proof (inv_incr _ _ _ _ _ _ _ I1 Hkx1) as Hi. rewrite last_app_cons in Hi. exact Hi. }
      assert (Hinp : increment h1 (lead m) = Some (trail m)).
      { pose proof (inv_incr _ _ _ _ _ _ _ I1 Hk1) as Hi. rewrite last_app_cons in Hi. exact Hi. }
      assert (Et : map (fun j => trail (ren_of ((n, m) :: ren) j)) (n :: t0) = trail m :: t).
      { cbn [map]. f_equal.
        - unfold ren_of; cbn [find fst snd]. now rewrite Nat.eqb_refl.
        - unfold t. apply map_ext_in. intros j Hj. unfold ren_of; cbn [find fst snd].
          destruct (Nat.eqb_spec n j) as [->|]; [|reflexivity]. exfalso. apply (Ht j Hj). left; reflexivity. }
      destruct (IH h1 s1 f1 k kx r r' (a ++ [lead m]) (n :: t0) ((n, m) :: ren) b (P ++ [(n, true)]) c)
        as (h' & f' & E & I' & F').
      * exact I1.
      * exact Hkk.
      * rewrite Et. exact Hk1.
      * exact Hkx1.
      * rewrite Et. replace ((a ++ [lead m]) ++ (trail m :: t) ++ b) with (a ++ lead m :: trail m :: t ++ b) by now lapp. exact F1.
      * exact Hn.
      * intros j [<-|Hj].
        { intros Hi. apply NoDup_remove_2 in Hnd. apply Hnd. rewrite !in_app_iff. auto. }
        { intros Hi. apply (Ht j Hj). right. exact Hi. }
      * rewrite Et in E. exists h', f'.
        assert (Ew : (a ++ [lead m]) ++ renumber (length (vals s1)) ((n, m) :: ren) q ++ b = w').
        { unfold w', s1; cbn [vals]. rewrite app_length. cbn [length renumber app]. fold m.
          replace (m + 1) with (S m) by lia. now lapp. }
        rewrite Ew in I', F'. split; [|split; [|exact F']].
        { intros fuel Hfu. destruct fuel as [|fuel]; [cbn in Hfu; lia|]. cbn [insert_range app hd].
          rewrite Hne. cbn [snd]. rewrite Hde, E1, Hinc, Hinp. cbn [app hd] in E. apply E. cbn [length] in Hfu. lia. }
        { unfold s1 in I'; cbn [words vals] in I'. rewrite upd_upd in I'. cbn [filter map fst snd].
          rewrite Hv. rewrite <- app_assoc in I'. cbn [app] in I'.
          rewrite vals_grow in I'; [exact I'|].
          intros i Hi. rewrite <- (i_len _ _ _ I). apply (inv_lt _ _ _ i I). left. eapply mem_at; [exact Hkx|].
          apply in_circle. right; left. rewrite !in_app_iff. right; left; right. exact Hi. }
    + (* trailing edge: step over *)
      cbn [nest] in Hn. destruct t0 as [|m0 t0]; [discriminate|].
      destruct (Nat.eqb_spec m0 n) as [->|]; [|discriminate]. cbn [map] in *.
      set (t := map (fun n => trail (ren_of ren n)) t0) in *. set (m := ren_of ren n) in *.
      assert (Hk1 : nth_error (words s) k = Some (r, (a ++ [trail m]) ++ t ++ b)) by (rewrite Hk; now lapp).
      assert (Hkx1 : nth_error (words s) kx = Some (r', (P ++ [(n, false)]) ++ q ++ c)) by (rewrite Hkx; now lapp).
      assert (Hinc : increment h (n, false) = Some (hd (trail r') (q ++ c))).
      { pose proof (inv_incr _ _ _ _ _ _ _ I Hkx1) as Hi. rewrite last_app_cons in Hi. exact Hi. }
      assert (Hinp : increment h (trail m) = Some (hd (trail r) (t ++ b))).
      { pose proof (inv_incr _ _ _ _ _ _ _ I Hk1) as Hi. rewrite last_app_cons in Hi. exact Hi. }
      destruct (IH h s f k kx r r' (a ++ [trail m]) t0 ren b (P ++ [(n, false)]) c) as (h' & f' & E & I' & F').
      * exact I.
      * exact Hkk.
      * exact Hk1.
      * exact Hkx1.
      * fold t. replace ((a ++ [trail m]) ++ t ++ b) with (a ++ (trail m :: t) ++ b) by now lapp. exact Hf.
      * exact Hn.
      * intros j Hj Hi. apply (Ht j); [right; exact Hj|right; exact Hi].
      * assert (Ew : (a ++ [trail m]) ++ renumber (length (vals s)) ren q ++ b = w').
        { unfold w'. change ((n, false) :: q) with (trail n :: q). rewrite renumber_trail. fold m. now lapp. }
        rewrite Ew in I', F'. exists h', f'. split; [|split; [exact I'|exact F']].
        intros fuel Hfu. destruct fuel as [|fuel]; [cbn in Hfu; lia|]. cbn [insert_range app hd].
        rewrite Hne. cbn [snd]. rewrite Hinc, Hinp. apply E. cbn [length] in Hfu. lia.
Qed.

Lemma copy_ok (h : store) s kx x r' w : inv h s [] -> nth_error (words s) kx = Some (r', w) -> tail x = r' ->
  let n := length (vals s) in
  let w' := renumber (S n) [] w in
  exists h' f',
    (forall fuel, length w < fuel -> copy fuel h x = Some (h', f')) /\
    inv h' (SS (words s ++ [(n, w')]) (vals s ++ None :: map (fun i : iter => nth (fst i) (vals s) None) (filter snd w))) [] /\
    fok f' (n, w').
Proof.
  intros I Hkx Hx n w'. unfold copy.
  destruct (new_forest_ok h s I) as (En & I0). fold n in En, I0. rewrite En.
  set (h0 := h ++ [Some (Node n n n n None)]) in *.
  set (s0 := SS (words s ++ [(n, [])]) (vals s ++ [None])) in *.
  assert (Hlt : kx < length (words s)) by (apply nth_error_Some; congruence).
  assert (Hkx0 : nth_error (words s0) kx = Some (r', [] ++ w ++ [])).
  { unfold s0; cbn [words]. rewrite nth_error_app1 by exact Hlt. rewrite Hkx. now rewrite app_nil_r. }
  assert (Hk0 : nth_error (words s0) (length (words s)) = Some (n, [] ++ map (fun j => trail (ren_of [] j)) [] ++ [])).
  { unfold s0; cbn [words]. rewrite nth_error_app2, Nat.sub_diag by lia. reflexivity. }
  rewrite (begin_ok h0 s0 [] kx x r' w I0) by (auto; rewrite Hkx0; now rewrite app_nil_r).
  destruct (insert_range_ok w h0 s0 (F n 0) (length (words s)) kx n r' [] [] [] [] [] [] I0) as (h' & f' & E & I' & F').
  - lia.
  - exact Hk0.
  - exact Hkx0.
  - split; [reflexivity|left; reflexivity].
  - exact (i_nested _ _ _ I _ _ _ Hkx).
  - intros m [].
  - cbn [map app hd] in E, I', F'. rewrite app_nil_r in *.
    assert (Elen : length (vals s0) = S n) by (unfold s0; cbn [vals]; rewrite app_length; cbn; unfold n; lia).
    rewrite Elen in I', F'. fold w' in I', F'.
    exists h', f'. split; [|split; [|exact F']].
    + intros fuel Hfu. specialize (E fuel Hfu). unfold end_. cbn [tail]. rewrite Hx. now rewrite E.
    + unfold s0 in I'; cbn [words vals] in I'.
      assert (Eu : upd (words s ++ [(n, [])]) (length (words s)) (n, w') = words s ++ [(n, w')]).
      { clear. induction (words s) as [|y l IH]; cbn; [reflexivity|]. now rewrite IH. }
      rewrite vals_grow in I'.
      * rewrite <- app_assoc in I'. cbn [app] in I'. rewrite <- Eu. exact I'.
      * intros i Hi. rewrite <- (i_len _ _ _ I). apply (inv_lt _ _ _ i I). left. eapply mem_at; [exact Hkx|].
        apply in_circle. auto.
Qed.

End Ops3.
