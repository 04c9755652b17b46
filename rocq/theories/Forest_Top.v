(** Every operation of the machine simulates the specification. *)
From Coq Require Import Permutation.
From Verif Require Import Prelude Forest_Model Forest_Spec Forest_Words Forest_Links Forest_Inv Forest_Ops Forest_Ops2 Forest_Ops3 Forest_Ops4 Forest_Ops5.
Ltac Zify.zify_post_hook ::= idtac.

Section Top.
Context {T : Type}.
Notation store := (store (T := T)).
Notation sstate := (sstate T).
Variable eqb : T -> T -> bool.

Record rel (m : mstate (T := T)) (s : sstate) : Prop := {
  r_inv : inv (mstore m) s [];
  r_len : length (forests m) = length (words s);
  r_fok : forall k f rw, nth_error (forests m) k = Some f -> nth_error (words s) k = Some rw -> fok f rw }.

Lemma rel_at m s k rw : rel m s -> at_ s k rw -> exists f, nth_error (forests m) k = Some f /\ fok f rw.
Proof.
  intros R Hk. unfold at_ in Hk. assert (Hlt : k < length (words s)) by (apply nth_error_Some; congruence).
  rewrite <- (r_len _ _ R) in Hlt. apply nth_error_Some in Hlt.
  destruct (nth_error (forests m) k) as [f|] eqn:E; [|congruence]. exists f. split; [reflexivity|].
  eapply (r_fok _ _ R); eauto.
Qed.

Lemma rel_upd1 m s k rw f' rw' h' vs : rel m s -> at_ s k rw ->
  inv h' (SS (upd (words s) k rw') vs) [] -> fok f' rw' ->
  rel (MS h' (upd (forests m) k f')) (SS (upd (words s) k rw') vs).
Proof.
  intros R Hk I' F'. split; cbn [mstore forests words].
  - exact I'.
  - rewrite !upd_length. exact (r_len _ _ R).
  - intros j f0 rw0 Hf Hw. apply nth_upd_cases in Hf, Hw.
    destruct Hf as [(-> & ->)|(Hj & Hf)]; destruct Hw as [(Hj' & ->)|(Hj' & Hw)]; try congruence.
    eapply (r_fok _ _ R); eauto.
Qed.

Lemma rel_upd2 m s k kx rw rwx f' x' rw' rwx' h' vs : rel m s -> k <> kx -> at_ s k rw -> at_ s kx rwx ->
  inv h' (SS (upd (upd (words s) k rw') kx rwx') vs) [] -> fok f' rw' -> fok x' rwx' ->
  rel (MS h' (upd (upd (forests m) k f') kx x')) (SS (upd (upd (words s) k rw') kx rwx') vs).
Proof.
  intros R Hkk Hk Hkx I' F' X'. split; cbn [mstore forests words].
  - exact I'.
  - rewrite !upd_length. exact (r_len _ _ R).
  - intros j f0 rw0 Hf Hw. apply nth_upd_cases in Hf, Hw.
    destruct Hf as [(-> & ->)|(Hj & Hf)]; destruct Hw as [(Hj' & ->)|(Hj' & Hw)]; try congruence.
    apply nth_upd_cases in Hf, Hw.
    destruct Hf as [(-> & ->)|(Hj2 & Hf)]; destruct Hw as [(Hj2' & ->)|(Hj2' & Hw)]; try congruence.
    eapply (r_fok _ _ R); eauto.
Qed.

(** An update of the store and of one word that keeps the node count. *)
Lemma rel_links m s k r w w' h' : rel m s -> at_ s k (r, w) -> node_count w' = node_count w ->
  inv h' (SS (upd (words s) k (r, w')) (vals s)) [] ->
  rel (MS h' (forests m)) (SS (upd (words s) k (r, w')) (vals s)).
Proof.
  intros R Hk Hc I'. destruct (rel_at _ _ _ _ R Hk) as (f & Ef & Ff).
  rewrite <- (upd_self _ _ _ Ef). eapply rel_upd1; [exact R|exact Hk|exact I'|].
  eapply fok_same; [exact Ff|congruence].
Qed.

Lemma node_count_perm u w : Permutation u w -> node_count u = node_count w.
Proof.
  intros P. unfold node_count.
  induction P as [|x l l' P IH|x y l|l l' l'' P1 IH1 P2 IH2].
  - reflexivity.
  - cbn [filter]. destruct (snd x); cbn [length]; congruence.
  - cbn [filter]. destruct (snd x), (snd y); reflexivity.
  - congruence.
Qed.

Lemma without_none n w : ~ In (lead n) w -> ~ In (trail n) w -> without (Nat.eqb n) w = w.
Proof.
  intros H1 H2. apply without_all. intros [m e] Hi. cbn [fst]. apply Nat.eqb_neq. intros ->.
  destruct e; auto.
Qed.

Lemma without_node n a b c : NoDup (a ++ lead n :: b ++ trail n :: c) ->
  without (Nat.eqb n) a = a /\ without (Nat.eqb n) b = b /\ without (Nat.eqb n) c = c.
Proof.
  intros Hd.
  assert (Hl : ~ In (lead n) a /\ ~ In (lead n) b /\ ~ In (lead n) c).
  { pose proof (NoDup_remove_2 _ _ _ Hd) as H. rewrite !in_app_iff in H. cbn [In] in H. tauto. }
  assert (Ht : ~ In (trail n) a /\ ~ In (trail n) b /\ ~ In (trail n) c).
  { rewrite app_comm_cons, app_assoc in Hd. pose proof (NoDup_remove_2 _ _ _ Hd) as H.
    rewrite !in_app_iff in H. cbn [In] in H. tauto. }
  repeat apply conj; apply without_none; tauto.
Qed.

Lemma without_cons_node n e w : without (Nat.eqb n) ((n, e) :: w) = without (Nat.eqb n) w.
Proof. apply without_cons_in. cbn [fst]. apply Nat.eqb_refl. Qed.

Lemma splice_all_ok (h : store) s k kx f x r a b r' w' :
  inv h s [] -> k <> kx -> nth_error (words s) k = Some (r, a ++ b) -> nth_error (words s) kx = Some (r', w') ->
  fok f (r, a ++ b) -> fok x (r', w') ->
  exists h' f' x', (forall fuel, length w' + 1 < fuel ->
      splice_all fuel h f x (hd (trail r) b) = Some (h', f', x', hd (trail r) (w' ++ b))) /\
    inv h' (SS (upd (upd (words s) k (r, a ++ w' ++ b)) kx (r', [])) (vals s)) [] /\
    fok f' (r, a ++ w' ++ b) /\ fok x' (r', []).
Proof.
  intros I Hkk Hk Hkx Hf Hx. unfold splice_all.
  rewrite (begin_ok h s [] kx x r' w' I Hkx (proj1 Hx)), (size_valid_ok h s [] kx x r' w' I Hkx (proj1 Hx)).
  pose proof (i_nested _ _ _ I _ _ _ Hkx) as Hw'.
  assert (Hkx' : nth_error (words s) kx = Some (r', [] ++ w' ++ [])) by (rewrite app_nil_r; exact Hkx).
  set (vx := (negb (size_m x =? 0) || is_nil w')%bool).
  assert (Hsz : exists x0 count, (forall fuel, length w' + 1 < fuel ->
      (if vx then size fuel h x else Some (x, 0)) = Some (x0, count)) /\ fok x0 (r', w') /\ (count = 0 \/ count = node_count w')).
  { destruct vx.
    - destruct (size_ok h s kx x r' w' I Hkx Hx) as (x0 & Ex & Fx). exists x0, (node_count w'). auto.
    - exists x, 0. auto. }
  destruct Hsz as (x0 & count & Es & Fx0 & Hc).
  destruct (splice_other_ok h s k kx f x0 r a b r' [] w' [] count I Hkk Hk Hkx' Hf) as (h' & f' & x' & E & I' & F' & X').
  - rewrite app_nil_r. exact Fx0.
  - exact Hw'.
  - exact Hc.
  - exists h', f', x'. cbn [app] in I', X'. split; [|auto].
    intros fuel Hfu. rewrite (Es fuel Hfu). rewrite app_nil_r in E. cbn [hd] in E.
    unfold end_. rewrite (proj1 Fx0). cbn [fst]. exact E.
Qed.

Lemma erase_split n e a b : nested (a ++ (n, e) :: b) -> NoDup (a ++ (n, e) :: b) ->
  exists a1 b1 c1, a ++ (n, e) :: b = a1 ++ lead n :: b1 ++ trail n :: c1 /\ nested b1 /\
       without (Nat.eqb n) (a ++ b) = a1 ++ b1 ++ c1 /\
       without (Nat.eqb n) b = (if e then b1 ++ c1 else c1).
Proof.
  intros Hn Hd.
      destruct e.
      - destruct (nested_split_lead _ _ _ Hn) as (b1 & c1 & -> & Hb1). exists a, b1, c1.
        destruct (without_node n a b1 c1 Hd) as (Wa & Wb & Wc).
        split; [reflexivity|]. split; [exact Hb1|].
        rewrite !without_app. rewrite (without_cons_node n false c1 : without _ (trail n :: c1) = _). rewrite Wa, Wb, Wc. auto.
      - destruct (nested_split_trail _ _ _ Hn) as (a1 & b1 & -> & Hb1). exists a1, b1, b.
        assert (Hd2 : NoDup (a1 ++ lead n :: b1 ++ trail n :: b)) by (rewrite <- app_assoc in Hd; exact Hd).
        destruct (without_node n a1 b1 b Hd2) as (Wa & Wb & Wc).
        split; [now lapp|]. split; [exact Hb1|].
        rewrite !without_app. rewrite (without_cons_node n true b1 : without _ (lead n :: b1) = _). rewrite Wa, Wb, Wc.
        split; [now lapp|reflexivity]. 
Qed.

Theorem step_sim o s s' x m : sstep eqb o s s' x -> rel m s ->
  exists N m', (forall fuel, N <= fuel -> mstep eqb fuel o m = Some (m', x)) /\ rel m' s'.
Proof.
  intros St R. pose proof (r_inv _ _ R) as I.
  destruct St; unfold mstep.
  - (* new *)
    destruct (new_forest_ok (mstore m) s I) as (E & I'). rewrite E.
    exists 0. eexists. split; [intros; reflexivity|]. split; cbn [mstore forests words].
    + exact I'.
    + rewrite !app_length, (r_len _ _ R). reflexivity.
    + intros k f rw Hf Hw. destruct (Nat.lt_ge_cases k (length (words s))) as [Hlt|Hge].
      * rewrite nth_error_app1 in Hw by exact Hlt. rewrite nth_error_app1 in Hf by (rewrite (r_len _ _ R); exact Hlt).
        eapply (r_fok _ _ R); eauto.
      * rewrite nth_error_app2 in Hw by exact Hge. rewrite nth_error_app2 in Hf by (rewrite (r_len _ _ R); exact Hge).
        rewrite (r_len _ _ R) in Hf. destruct (k - length (words s)) as [|j]; [|destruct j; discriminate].
        cbn in Hf, Hw. injection Hf as <-. injection Hw as <-. split; [reflexivity|left; reflexivity].
  - (* insert *)
    destruct (rel_at _ _ _ _ R H) as (fo & Ef & Ff). rewrite Ef.
    destruct (insert_ok (mstore m) s f fo r a b v I H Ff) as (h' & f' & E & I' & F').
    exists 0. eexists. split; [intros; unfold put1; rewrite E; reflexivity|].
    eapply rel_upd1; eauto.
  - (* push_front *)
    destruct (rel_at _ _ _ _ R H) as (fo & Ef & Ff). rewrite Ef.
    destruct (insert_ok (mstore m) s f fo r [] w v I H Ff) as (h' & f' & E & I' & F').
    exists 0. eexists. split.
    + intros. unfold push_front. rewrite (begin_ok _ _ _ _ _ _ _ I H (proj1 Ff)), E. reflexivity.
    + eapply rel_upd1; eauto.
  - (* push_back *)
    destruct (rel_at _ _ _ _ R H) as (fo & Ef & Ff). rewrite Ef.
    destruct (insert_ok (mstore m) s f fo r w [] v I) as (h' & f' & E & I' & F').
    1, 2: rewrite app_nil_r; assumption.
    exists 0. eexists. split.
    + intros. unfold push_back, end_. rewrite (proj1 Ff). cbn [hd fst] in E |- *. rewrite E. reflexivity.
    + eapply rel_upd1; eauto.
  - (* pop_front *)
    destruct (rel_at _ _ _ _ R H) as (fo & Ef & Ff). rewrite Ef.
    pose proof (i_nested _ _ _ I _ _ _ H) as Hn.
    pose proof (i_nodup _ _ _ I _ _ _ H) as Hd. apply nodup_circle in Hd. destruct Hd as (Hd & _).
    pose proof (begin_ok _ _ _ _ _ _ _ I H (proj1 Ff)) as Eb. cbn [hd] in Eb.
    destruct (erase_split n true [] w Hn Hd) as (a1 & b1 & c1 & Ew & Hb1 & W1 & W2).
    change (lead n :: w = a1 ++ lead n :: b1 ++ trail n :: c1) in Ew.
    unfold at_ in H. rewrite Ew in H, Ff.
    destruct (erase_ok (mstore m) s f fo r a1 n b1 c1 true I H Hb1 Ff) as (h' & f' & E & I' & F').
    exists 0. eexists. split.
    + intros. unfold pop_front. rewrite Eb. unfold lead. rewrite E. reflexivity.
    + cbn [app] in W1. rewrite W1. eapply rel_upd1; eauto.
  - (* pop_back *)
    destruct (rel_at _ _ _ _ R H) as (fo & Ef & Ff). rewrite Ef.
    pose proof (i_nested _ _ _ I _ _ _ H) as Hn.
    pose proof (i_nodup _ _ _ I _ _ _ H) as Hd. apply nodup_circle in Hd. destruct Hd as (Hd & _).
    assert (Eb : decrement (mstore m) (end_ fo) = Some (trail n)).
    { assert (K : nth_error (words s) f = Some (r, (w ++ [trail n]) ++ [])) by (rewrite app_nil_r; exact H).
      pose proof (inv_decr _ _ _ _ _ _ _ I K) as Ed. cbn [hd] in Ed. rewrite last_last in Ed.
      unfold end_. rewrite (proj1 Ff). exact Ed. }
    destruct (erase_split n false w [] Hn Hd) as (a1 & b1 & c1 & Ew & Hb1 & W1 & W2).
    change (w ++ [trail n] = a1 ++ lead n :: b1 ++ trail n :: c1) in Ew.
    unfold at_ in H. rewrite Ew in H, Ff.
    destruct (erase_ok (mstore m) s f fo r a1 n b1 c1 false I H Hb1 Ff) as (h' & f' & E & I' & F').
    exists 0. eexists. split.
    + intros. unfold pop_back. rewrite Eb. unfold trail. rewrite E. reflexivity.
    + rewrite app_nil_r in W1. rewrite W1. eapply rel_upd1; eauto.
  - (* erase *)
    destruct (rel_at _ _ _ _ R H) as (fo & Ef & Ff). rewrite Ef.
    pose proof (i_nested _ _ _ I _ _ _ H) as Hn.
    pose proof (i_nodup _ _ _ I _ _ _ H) as Hd. apply nodup_circle in Hd. destruct Hd as (Hd & _).
    destruct (erase_split n e a b Hn Hd) as (a1 & b1 & c1 & Ew & Hb1 & W1 & W2).
    unfold at_ in H. rewrite Ew in H, Ff.
    destruct (erase_ok (mstore m) s f fo r a1 n b1 c1 e I H Hb1 Ff) as (h' & f' & E & I' & F').
    exists 0. eexists. split.
    + intros. unfold put1. rewrite E, W2. destruct e; reflexivity.
    + rewrite W1. eapply rel_upd1; eauto.
  - (* erase_range *)
    destruct (rel_at _ _ _ _ R H) as (fo & Ef & Ff). rewrite Ef.
    destruct (erase_range_ok (mstore m) s fo f r a u b I H Ff) as (h' & f' & E & I' & F').
    exists (S (length u)). eexists. split; [intros fuel Hfu; unfold put1; rewrite E by lia; reflexivity|].
    eapply rel_upd1; eauto.
  - (* clear *)
    destruct (rel_at _ _ _ _ R H) as (fo & Ef & Ff). rewrite Ef.
    destruct (clear_ok (mstore m) s fo f r w I H Ff) as (h' & f' & E & I' & F').
    exists (S (length w)). eexists. split; [intros fuel Hfu; rewrite E by lia; reflexivity|].
    eapply rel_upd1; eauto.
  - (* splice_same_none *)
    destruct (rel_at _ _ _ _ R H) as (fo & Ef & Ff). rewrite Ef.
    exists 0. eexists. split; [intros; unfold splice_same; rewrite iter_eqb_refl; reflexivity|].
    destruct m; exact R.
  - (* splice_same_left *)
    destruct (rel_at _ _ _ _ R H) as (fo & Ef & Ff). rewrite Ef.
    destruct b as [|i b].
    + exists 0, m. cbn [app] in *. split.
      * intros. unfold splice_same. replace (hd (trail r) (u ++ c)) with (hd (trail r) u) by (destruct u; [congruence|reflexivity]).
        rewrite iter_eqb_refl, orb_true_r. destruct m; reflexivity.
      * rewrite (upd_self _ _ _ H). destruct s; exact R.
    + destruct (splice_same_ok (mstore m) s f r a ((i :: b) ++ c) (a ++ i :: b) u c I) as (h' & E & I').
      * unfold at_ in H. rewrite H. now lapp.
      * assumption.
      * assumption.
      * now lapp.
      * destruct u as [|j u]; [congruence|]. cbn [app hd]. intros ->.
        pose proof (i_nodup _ _ _ I _ _ _ H) as Hd. apply nodup_circle in Hd. destruct Hd as (Hd & _).
        apply nodup_app_iff in Hd. destruct Hd as (_ & Hd & _). apply nodup_app_iff in Hd. destruct Hd as (_ & _ & Hd).
        apply (Hd i); left; reflexivity.
      * cbn [app hd] in E |- *. exists 0. eexists. split; [intros; rewrite E; reflexivity|].
        eapply rel_links; [exact R|exact H| |exact I'].
        apply node_count_perm, Permutation_app_head. cbn [app].
        exact (Permutation_app_swap_app u (i :: b) c).
  - (* splice_same_right *)
    destruct (rel_at _ _ _ _ R H) as (fo & Ef & Ff). rewrite Ef.
    destruct (splice_same_ok (mstore m) s f r (a ++ b) c a u (b ++ c) I H) as (h' & E & I').
    + assumption.
    + assumption.
    + now lapp.
    + destruct u as [|j u]; [congruence|]. cbn [hd].
      assert (H' : nth_error (words s) f = Some (r, a ++ j :: (u ++ b) ++ c)) by (unfold at_ in H; rewrite H; now lapp).
      exact (pos_neq _ _ _ _ _ _ _ _ _ I H').
    + exists 0. eexists. split; [intros; rewrite E; reflexivity|].
      rewrite <- app_assoc in I'. eapply rel_links; [exact R|exact H| |exact I'].
      rewrite !node_count_app. lia.
  - (* splice *)
    destruct (rel_at _ _ _ _ R H0) as (fo & Ef & Ff). rewrite Ef.
    destruct (rel_at _ _ _ _ R H1) as (xo & Ex & Fx). rewrite Ex.
    destruct (splice_other_ok (mstore m) s f x fo xo r a b r' a' u b' 0 I H H0 H1 Ff Fx H2 (or_introl eq_refl))
      as (h' & f' & x' & E & I' & F' & X').
    exists 0. eexists. split; [intros; unfold put2; rewrite E; reflexivity|].
    eapply rel_upd2; eauto.
  - (* splice_node *)
    destruct (rel_at _ _ _ _ R H0) as (fo & Ef & Ff). rewrite Ef.
    destruct (rel_at _ _ _ _ R H1) as (xo & Ex & Fx). rewrite Ex.
    unfold splice_node. change (leading_of (n, e)) with (lead n).
    assert (K1 : nth_error (words s) x = Some (r', (a' ++ lead n :: u) ++ trail n :: b')) by (unfold at_ in H1; rewrite H1; now lapp).
    assert (K2 : nth_error (words s) x = Some (r', a' ++ lead n :: u ++ trail n :: b')) by (unfold at_ in H1; rewrite H1; now lapp).
    unfold child_increment. change (pivot_of (lead n)) with (trail n).
    rewrite (inv_step _ _ _ _ _ _ _ _ I K1).
    rewrite (has_children_ok _ _ _ _ _ _ _ _ _ true I K2 : has_children (mstore m) (lead n) = _).
    destruct (splice_other_ok (mstore m) s f x fo xo r a b r' a' (lead n :: u ++ [trail n]) b' (if negb (is_nil u) then 0 else 1) I H H0 H1 Ff Fx)
      as (h' & f' & x' & E & I' & F' & X').
    + now apply nested_wrap.
    + destruct u; cbn [is_nil negb]; [right; reflexivity|left; reflexivity].
    + cbn [app hd] in E. exists 0. eexists. split; [intros; unfold put2; rewrite E; reflexivity|].
      eapply rel_upd2; eauto.
  - (* splice_all *)
    destruct (rel_at _ _ _ _ R H0) as (fo & Ef & Ff). rewrite Ef.
    destruct (rel_at _ _ _ _ R H1) as (xo & Ex & Fx). rewrite Ex.
    destruct (splice_all_ok (mstore m) s f x fo xo r a b r' w' I H H0 H1 Ff Fx) as (h' & f' & x' & E & I' & F' & X').
    exists (length w' + 2). eexists. split; [intros fuel Hfu; unfold put2; rewrite E by lia; reflexivity|].
    eapply rel_upd2; eauto.
  - (* move *)
    destruct (rel_at _ _ _ _ R H0) as (fo & Ef & Ff). rewrite Ef.
    destruct (rel_at _ _ _ _ R H1) as (xo & Ex & Fx). rewrite Ex.
    destruct (clear_ok (mstore m) s fo f r w I H0 Ff) as (h1 & f1 & E1 & I1 & F1).
    set (s1 := SS (upd (words s) f (r, [])) (vals s)) in *.
    assert (K1 : nth_error (words s1) f = Some (r, [] ++ [])) by (unfold s1; cbn [words app]; exact (nth_upd_same _ _ _ _ H0)).
    assert (K2 : nth_error (words s1) x = Some (r', w')) by (unfold s1; cbn [words]; rewrite nth_error_upd_other by congruence; exact H1).
    destruct (splice_all_ok h1 s1 f x f1 xo r [] [] r' w' I1 H K1 K2 F1 Fx) as (h' & f' & x' & E & I' & F' & X').
    exists (length w + length w' + 2). eexists. split.
    + intros fuel Hfu. rewrite E1 by lia. unfold put2. cbn [hd] in E.
      replace (end_ f1) with (trail r) by (unfold end_; now rewrite (proj1 F1)). rewrite E by lia. reflexivity.
    + cbn [app] in I', F'. rewrite app_nil_r in I', F'. unfold s1 in I'; cbn [words vals] in I'. rewrite upd_upd in I'.
      eapply rel_upd2; eauto.
  - (* insert_parent *)
    destruct (rel_at _ _ _ _ R H) as (fo & Ef & Ff). rewrite Ef.
    destruct (insert_parent_ok (mstore m) s f fo r a u b v I H Ff H0) as (h' & f' & E & I' & F').
    exists 0. eexists. split; [intros; unfold put1; rewrite E; reflexivity|].
    eapply rel_upd1; eauto.
  - (* reverse *)
    destruct (rel_at _ _ _ _ R H) as (fo & Ef & Ff). rewrite Ef.
    destruct (reverse_ok (mstore m) s f r w a p ts b w' I H H0 H1) as (h' & E & I').
    exists (S (length ts)). eexists. split.
    + intros fuel Hfu. specialize (E fuel ltac:(lia)).
      destruct (child_begin (mstore m) (lead p)) as [b0|]; [|discriminate]. rewrite E. reflexivity.
    + eapply rel_links; [exact R|exact H| |exact I'].
      apply node_count_perm, (circle_word_perm r). rewrite H0, H1.
      apply Permutation_app_head, perm_skip, Permutation_app_tail, forest_word_rev_perm.
  - (* insert_range *)
    destruct (rel_at _ _ _ _ R H0) as (fo & Ef & Ff). rewrite Ef.
    destruct (rel_at _ _ _ _ R H1) as (xo & Ex & Fx). rewrite Ex.
    destruct (insert_range_ok u (mstore m) s fo f x r r' a [] [] b a' b' I H H0 H1 Ff H2) as (h' & f' & E & I' & F').
    + intros q [].
    + cbn [map app] in E. exists (S (length u)). eexists. split; [intros fuel Hfu; unfold put1; rewrite E by lia; reflexivity|].
      eapply rel_upd1; eauto.
  - (* transform *)
    destruct (rel_at _ _ _ _ R H0) as (fo & Ef & Ff). rewrite Ef.
    destruct (rel_at _ _ _ _ R H1) as (xo & Ex & Fx). rewrite Ex.
    destruct (transform_ok g u (mstore m) s fo f x r r' a [] [] b a' b' I H H0 H1 Ff H2) as (h' & f' & E & I' & F').
    + intros q [].
    + cbn [map app] in E. exists (S (length u)). eexists. split; [intros fuel Hfu; rewrite E by lia; reflexivity|].
      eapply rel_upd1; eauto.
  - (* copy *)
    destruct (rel_at _ _ _ _ R H) as (xo & Ex & Fx). rewrite Ex.
    destruct (copy_ok (mstore m) s x xo r w I H (proj1 Fx)) as (h' & f' & E & I' & F').
    exists (S (length w)). eexists. split; [intros fuel Hfu; rewrite E by lia; reflexivity|].
    split; cbn [mstore forests words].
    + exact I'.
    + rewrite !app_length, (r_len _ _ R). reflexivity.
    + intros k f rw Hf Hw. destruct (Nat.lt_ge_cases k (length (words s))) as [Hlt|Hge].
      * rewrite nth_error_app1 in Hw by exact Hlt. rewrite nth_error_app1 in Hf by (rewrite (r_len _ _ R); exact Hlt).
        eapply (r_fok _ _ R); eauto.
      * rewrite nth_error_app2 in Hw by exact Hge. rewrite nth_error_app2 in Hf by (rewrite (r_len _ _ R); exact Hge).
        rewrite (r_len _ _ R) in Hf. destruct (k - length (words s)) as [|j]; [|destruct j; discriminate].
        cbn in Hf, Hw. injection Hf as <-. injection Hw as <-. exact F'.
  - (* size *)
    destruct (rel_at _ _ _ _ R H) as (fo & Ef & Ff). rewrite Ef.
    destruct (size_ok (mstore m) s f fo r w I H Ff) as (f' & E & F').
    exists (length w + 2). eexists. split; [intros fuel Hfu; rewrite E by lia; reflexivity|].
    destruct s as [ws vs]. cbn [words vals] in *. unfold at_ in H; cbn [words] in H.
    pose proof (rel_upd1 m (SS ws vs) f (r, w) f' (r, w) (mstore m) vs R H) as K. cbn [words] in K.
    rewrite (upd_self _ _ _ H) in K. exact (K I F').
  - (* parent *)
    destruct (rel_at _ _ _ _ R H) as (fo & Ef & Ff). rewrite Ef.
    rewrite forest_word_app, forest_word_cons, tree_word_eq in H0.
    assert (E : circle (r, w) = (a ++ lead p :: forest_word ts ++ lead n :: forest_word kids) ++ trail n :: forest_word ts' ++ trail p :: b).
    { rewrite H0. now lapp. }
    exists (S (length ts')). eexists. split.
    + intros fuel Hfu. rewrite (find_parent_ok _ _ _ _ _ _ _ _ _ _ n e I H E) by lia. reflexivity.
    + exact R.
  - (* empty *)
    destruct (rel_at _ _ _ _ R H) as (fo & Ef & Ff). rewrite Ef.
    exists 0. eexists. split; [|exact R]. intros. unfold empty.
    rewrite (begin_ok _ _ _ _ _ _ _ I H (proj1 Ff)). unfold end_. rewrite (proj1 Ff). cbn [fst].
    destruct w as [|i w]; cbn [hd].
    + now rewrite iter_eqb_refl.
    + rewrite iter_eqb_neq; [reflexivity|]. assert (K : nth_error (words s) f = Some (r, [] ++ i :: w ++ [])) by (rewrite app_nil_r; exact H).
      exact (pos_neq _ _ _ _ _ _ _ _ _ I K).
  - (* has_children *)
    destruct (rel_at _ _ _ _ R H) as (fo & Ef & Ff). rewrite Ef.
    exists 0. eexists. split.
    + intros. rewrite (has_children_circle _ _ _ _ _ _ _ _ _ _ e I H H0). reflexivity.
    + exact R.
  - (* equal *)
    destruct (rel_at _ _ _ _ R H) as (fo & Ef & Ff). rewrite Ef.
    destruct (rel_at _ _ _ _ R H0) as (xo & Ex & Fx). rewrite Ex.
    destruct (equal_ok eqb (mstore m) s f x fo xo r r' w w' I H H0 Ff Fx) as (f' & x' & E & F' & X').
    exists (length w + length w' + 2). eexists. split; [intros fuel Hfu; rewrite E by lia; reflexivity|].
    split; cbn [mstore forests].
    + exact I.
    + rewrite !upd_length. exact (r_len _ _ R).
    + intros k f0 rw Hf Hw. apply nth_upd_cases in Hf. destruct Hf as [(-> & ->)|(Hj & Hf)].
      * unfold at_ in H0. rewrite H0 in Hw. injection Hw as <-. exact X'.
      * apply nth_upd_cases in Hf. destruct Hf as [(-> & ->)|(Hj2 & Hf)].
        { unfold at_ in H. rewrite H in Hw. injection Hw as <-. exact F'. }
        { eapply (r_fok _ _ R); eauto. }
Qed.

Theorem run_sim ops s s' xs m : ssteps eqb ops s s' xs -> rel m s ->
  exists N m', (forall fuel, N <= fuel -> mrun eqb fuel ops m = Some (m', xs)) /\ rel m' s'.
Proof.
  intros St. revert m. induction St as [s|o ops s s1 s2 x xs H St IH]; intros m R.
  - exists 0, m. split; [reflexivity|exact R].
  - destruct (step_sim _ _ _ _ _ H R) as (N1 & m1 & E1 & R1).
    destruct (IH m1 R1) as (N2 & m2 & E2 & R2).
    exists (N1 + N2), m2. split; [|exact R2]. intros fuel Hfu. cbn [mrun].
    rewrite E1 by lia. rewrite E2 by lia. reflexivity.
Qed.

Lemma rel_init : rel (MS [] []) (SS [] []).
Proof.
  split; [|reflexivity|intros [|k] f rw H; discriminate]. split; cbn.
  - intros [|k] r w H; discriminate.
  - intros [|k] r w H; discriminate.
  - intros [|k] r w H; discriminate.
  - intros [|k1] k2 rw1 rw2 i H; discriminate.
  - intros i [].
  - constructor.
  - reflexivity.
  - intros i [(k & rw & H & _)|[]]. destruct k; discriminate.
  - intros n H. exfalso. apply H. unfold dat, get. destruct n; reflexivity.
  - intros i [(k & r & w & H & _)|[]]. destruct k; discriminate.
Qed.

(** Walking forwards and backwards over a forest. *)
Lemma walk_forward m s k r w : rel m s -> at_ s k (r, w) -> steps (increment (mstore m)) (lead r) w (trail r).
Proof.
  intros R Hk. pose proof (r_inv _ _ R) as I.
  assert (Hgen : forall b a i, nth_error (words s) k = Some (r, a ++ i :: b) -> steps (increment (mstore m)) i b (trail r)).
  { induction b as [|j b IH]; intros a i Hk'; cbn [steps].
    - rewrite (inv_step _ _ _ _ _ _ _ _ I Hk'). reflexivity.
    - split; [rewrite (inv_step _ _ _ _ _ _ _ _ I Hk'); reflexivity|].
      apply (IH (a ++ [i]) j). rewrite Hk'. now lapp. }
  destruct w as [|j w]; cbn [steps].
  - exact (inv_incr _ _ _ _ _ [] [] I Hk).
  - split; [exact (inv_incr _ _ _ _ _ [] (j :: w) I Hk)|]. exact (Hgen w [] j Hk).
Qed.

Lemma walk_backward m s k r w : rel m s -> at_ s k (r, w) -> steps (decrement (mstore m)) (trail r) (rev w) (lead r).
Proof.
  intros R Hk. pose proof (r_inv _ _ R) as I. unfold at_ in Hk.
  assert (Hgen : forall a b, nth_error (words s) k = Some (r, a ++ b) ->
            steps (decrement (mstore m)) (hd (trail r) b) (rev a) (lead r)).
  { induction a as [|j a IH] using rev_ind; intros b Hk'.
    - cbn [rev steps]. exact (inv_decr _ _ _ _ _ [] b I Hk').
    - rewrite rev_app_distr. cbn [rev app steps]. split.
      + pose proof (inv_decr _ _ _ _ _ _ _ I Hk') as E. rewrite last_app_cons in E. exact E.
      + apply (IH (j :: b)). rewrite Hk'. now lapp. }
  apply (Hgen w []). now rewrite app_nil_r.
Qed.

End Top.
