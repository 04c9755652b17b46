(** The queries: size, find_parent, has_children, operator==. *)
From Coq Require Import Permutation.
From Verif Require Import Prelude Forest_Model Forest_Spec Forest_Words Forest_Links Forest_Inv Forest_Ops Forest_Ops2 Forest_Ops3.
Ltac Zify.zify_post_hook ::= idtac.

Section Ops4.
Context {T : Type}.
Notation store := (store (T := T)).
Notation sstate := (sstate T).

Lemma inv_step (h : store) s D k r a i b : inv h s D -> nth_error (words s) k = Some (r, a ++ i :: b) ->
  increment h i = Some (hd (trail r) b).
Proof.
  intros I Hk. assert (Hk2 : nth_error (words s) k = Some (r, (a ++ [i]) ++ b)) by (rewrite Hk; now lapp).
  pose proof (inv_incr _ _ _ _ _ _ _ I Hk2) as Hi. rewrite last_app_cons in Hi. exact Hi.
Qed.

Lemma inv_wrap (h : store) s D k r w : inv h s D -> nth_error (words s) k = Some (r, w) ->
  increment h (trail r) = Some (lead r).
Proof.
  intros I Hk. pose proof (i_ring _ _ _ I _ _ _ Hk) as Hr. unfold ring, circle in Hr; cbn [fst snd chain] in Hr.
  destruct Hr as ((H1 & H2) & _). unfold trail, lead in *. rewrite increment_trail, H1. cbn [fst] in *.
  rewrite H2. cbn [fst]. now rewrite Nat.eqb_refl.
Qed.

Lemma circle_step (h : store) s D k r w A a b B : inv h s D -> nth_error (words s) k = Some (r, w) ->
  circle (r, w) = A ++ a :: b :: B -> increment h a = Some b.
Proof.
  intros I Hk E. eapply ring_increment; [exact (i_nested _ _ _ I _ _ _ Hk)|exact (i_nodup _ _ _ I _ _ _ Hk)|exact (i_ring _ _ _ I _ _ _ Hk)|exact E].
Qed.

(** ** size *)
Definition next_lead (r : nat) (w : word) : iter := hd (lead r) (filter snd w).

Lemma find_edge_ok (h : store) s D k r b : forall a, inv h s D -> nth_error (words s) k = Some (r, a ++ b) ->
  forall fuel, S (length b) < fuel -> find_edge fuel h (hd (trail r) b) true = Some (next_lead r b).
Proof.
  induction b as [|[n e] b IH]; intros a I Hk fuel Hfu.
  - cbn [hd]. destruct fuel as [|[|fuel]]; [lia|cbn in Hfu; lia|]. cbn [find_edge snd trail Bool.eqb].
    change (r, false) with (trail r). rewrite (inv_wrap _ _ _ _ _ _ I Hk). cbn [find_edge snd lead Bool.eqb]. reflexivity.
  - destruct fuel as [|fuel]; [lia|]. cbn [hd find_edge snd]. destruct e; cbn [Bool.eqb].
    + reflexivity.
    + rewrite (inv_step _ _ _ _ _ _ _ _ I Hk).
      assert (Hk2 : nth_error (words s) k = Some (r, (a ++ [(n, false)]) ++ b)) by (rewrite Hk; now lapp).
      rewrite (IH (a ++ [(n, false)]) I Hk2); [|cbn [length] in Hfu; lia]. reflexivity.
Qed.

Lemma split_next_lead (b : word) : filter snd b = [] \/
  exists c n d, b = c ++ lead n :: d /\ filter snd c = [].
Proof.
  induction b as [|[n [|]] b IH]; [auto| |].
  - right. exists [], n, b. auto.
  - cbn [filter snd]. destruct IH as [IH|(c & m & d & -> & Hc)]; [auto|].
    right. exists ((n, false) :: c), m, d. auto.
Qed.

Lemma preorder_distance_ok (h : store) s D k r m : forall a b, length b < m -> inv h s D -> nth_error (words s) k = Some (r, a ++ b) ->
  forall fuel, length b + 1 < fuel ->
    preorder_distance fuel h (next_lead r b) (lead r) = Some (node_count b).
Proof.
  induction m as [|m IH]; intros a b Hm I Hk fuel Hfu; [lia|].
  destruct fuel as [|fuel]; [lia|]. cbn [preorder_distance].
  destruct (split_next_lead b) as [E|(c & n & d & -> & Hc)].
  - unfold next_lead, node_count. rewrite E. cbn [hd length]. now rewrite iter_eqb_refl.
  - assert (Ef : filter snd (c ++ lead n :: d) = lead n :: filter snd d).
    { transitivity (filter snd c ++ filter snd (lead n :: d)); [apply filter_app|]. now rewrite Hc. }
    assert (En : next_lead r (c ++ lead n :: d) = lead n) by (unfold next_lead; now rewrite Ef).
    assert (Ec : node_count (c ++ lead n :: d) = S (node_count d)) by (unfold node_count; now rewrite Ef).
    rewrite En, Ec.
    assert (Hne : lead n <> lead r).
    { intros E. pose proof (i_nodup _ _ _ I _ _ _ Hk) as Hd. apply nodup_circle in Hd. destruct Hd as (_ & Hd & _).
      apply Hd. rewrite <- E, !in_app_iff. right; right; left. reflexivity. }
    rewrite iter_eqb_neq by exact Hne. unfold edge_increment.
    assert (Hk2 : nth_error (words s) k = Some (r, (a ++ c) ++ lead n :: d)) by (rewrite Hk; now lapp).
    rewrite (inv_step _ _ _ _ _ _ _ _ I Hk2).
    assert (Hk3 : nth_error (words s) k = Some (r, ((a ++ c) ++ [lead n]) ++ d)) by (rewrite Hk; now lapp).
    rewrite app_length in Hm, Hfu. cbn [length] in Hm, Hfu.
    rewrite (find_edge_ok _ _ _ _ _ _ _ I Hk3) by lia.
    rewrite (IH ((a ++ c) ++ [lead n]) d) by (auto; lia). reflexivity.
Qed.

Lemma size_ok (h : store) s k f r w : inv h s [] -> nth_error (words s) k = Some (r, w) -> fok f (r, w) ->
  exists f', (forall fuel, length w + 1 < fuel -> size fuel h f = Some (f', node_count w)) /\ fok f' (r, w).
Proof.
  intros I Hk Hf. destruct Hf as (Ht & Hs). cbn [fst snd] in *.
  unfold size. rewrite (size_valid_ok h s [] k f r w I Hk Ht).
  destruct (Nat.eqb_spec (size_m f) 0) as [E|E]; cbn [negb orb].
  - destruct w as [|x w]; cbn [is_nil].
    + exists f. split; [|split; [exact Ht|auto]]. intros. rewrite E. reflexivity.
    + exists (F (tail f) (node_count (x :: w))). split; [|split; [exact Ht|right; reflexivity]].
      intros fuel Hfu. rewrite (begin_ok h s [] k f r (x :: w) I Hk Ht).
      assert (Hk1 : nth_error (words s) k = Some (r, [] ++ x :: w)) by exact Hk.
      rewrite (find_edge_ok _ _ _ _ _ _ _ I Hk1) by lia.
      assert (Hk2 : nth_error (words s) k = Some (r, (x :: w) ++ [])) by (rewrite app_nil_r; exact Hk).
      unfold end_. rewrite Ht.
      pose proof (find_edge_ok _ _ _ _ _ _ _ I Hk2 fuel) as Hfe. cbn [length hd] in Hfe. rewrite Hfe by (cbn [length] in Hfu; lia).
      cbn [next_lead filter hd]. change (next_lead r []) with (lead r).
      rewrite (preorder_distance_ok h s [] k r (S (length (x :: w))) [] (x :: w)); [reflexivity|lia|exact I|exact Hk|lia].
  - exists f. split; [|split; auto]. intros. destruct Hs as [?|Hs]; [congruence|]. now rewrite Hs.
Qed.

(** ** find_parent, has_children *)
Lemma find_parent_ok (h : store) s D k r w p b ts' : forall A n e, inv h s D -> nth_error (words s) k = Some (r, w) ->
  circle (r, w) = A ++ trail n :: forest_word ts' ++ trail p :: b ->
  forall fuel, length ts' < fuel -> find_parent fuel h (n, e) = Some (trail p).
Proof.
  induction ts' as [|[m kids] ts' IH]; intros A n e I Hk E fuel Hfu; (destruct fuel as [|fuel]; [lia|]); cbn [find_parent].
  - change (trailing_of (n, e)) with (trail n).
    rewrite (circle_step _ _ _ _ _ _ _ _ _ _ I Hk E). reflexivity.
  - change (trailing_of (n, e)) with (trail n).
    rewrite forest_word_cons, tree_word_eq in E. cbn [app] in E.
    rewrite (circle_step _ _ _ _ _ _ _ _ _ _ I Hk E). cbn [snd lead].
    assert (E2 : circle (r, w) = (A ++ trail n :: lead m :: forest_word kids) ++ trail m :: forest_word ts' ++ trail p :: b).
    { rewrite E. now lapp. }
    apply (IH _ m true I Hk E2). cbn [length] in Hfu. lia.
Qed.

Lemma has_children_circle (h : store) s D k r w a n kids b e : inv h s D -> nth_error (words s) k = Some (r, w) ->
  circle (r, w) = a ++ tree_word (TNode n kids) ++ b ->
  has_children h (n, e) = Some (match kids with [] => false | _ => true end).
Proof.
  intros I Hk E. unfold has_children. change (leading_of (n, e)) with (lead n).
  rewrite tree_word_eq in E. destruct kids as [|[m kk] kids].
  - cbn [forest_word flat_map app] in E. rewrite (circle_step _ _ _ _ _ _ _ _ _ _ I Hk E).
    unfold equal_node; cbn [fst trail]. now rewrite Nat.eqb_refl.
  - rewrite forest_word_cons, tree_word_eq in E. cbn [app] in E.
    rewrite (circle_step _ _ _ _ _ _ _ _ _ _ I Hk E). unfold equal_node; cbn [fst lead].
    pose proof (i_nodup _ _ _ I _ _ _ Hk) as Hd. rewrite E in Hd.
    destruct (Nat.eqb_spec n m) as [->|]; [exfalso|reflexivity].
    apply NoDup_remove_2 in Hd. apply Hd. rewrite in_app_iff. right; left. reflexivity.
Qed.

(** ** operator== *)
Variable eqb : T -> T -> bool.

Lemma same_forest_length (vs : list (option T)) u : forall w, same_forest eqb vs u w = true -> length u = length w.
Proof.
  induction u as [|[n e] u IH]; intros [|[m e'] w]; cbn [same_forest length]; try discriminate; [auto|].
  rewrite !andb_true_iff. intros (_ & H). now rewrite (IH _ H).
Qed.
Lemma same_forest_count (vs : list (option T)) u : forall w, same_forest eqb vs u w = true -> node_count u = node_count w.
Proof.
  induction u as [|[n e] u IH]; intros [|[m e'] w]; cbn [same_forest]; try discriminate; [auto|].
  rewrite !andb_true_iff. intros ((H1 & _) & H). apply IH in H. unfold node_count in *. cbn [filter snd].
  destruct e, e'; cbn [length]; try discriminate; congruence.
Qed.

Lemma nested_length w : nested w -> length w = 2 * node_count w.
Proof.
  intros H. destruct (nested_forest w H) as (ts & ->). clear H.
  assert (Ht : forall t, length (tree_word t) = 2 * node_count (tree_word t)).
  { fix IHt 1. intros [n kids]. rewrite tree_word_eq.
    change (lead n :: forest_word kids ++ [trail n]) with ([lead n] ++ forest_word kids ++ [trail n]).
    rewrite !node_count_app, !app_length. cbn.
    assert (Hk : length (forest_word kids) = 2 * node_count (forest_word kids)).
    { revert kids. fix IHk 1. intros [|k kids]; [reflexivity|]. rewrite forest_word_cons, node_count_app, app_length.
      rewrite (IHt k), (IHk kids). lia. }
    rewrite Hk. lia. }
  induction ts as [|t ts IH]; [reflexivity|]. rewrite forest_word_cons, node_count_app, app_length, IH, (Ht t). lia.
Qed.

Lemma equal_loop_ok (h : store) s D kx ky rx ry u : forall w a b, inv h s D ->
  nth_error (words s) kx = Some (rx, a ++ u) -> nth_error (words s) ky = Some (ry, b ++ w) -> length u = length w ->
  forall fuel, length u < fuel ->
    equal_loop eqb fuel h (hd (trail rx) u) (trail rx) (hd (trail ry) w) = Some (same_forest eqb (vals s) u w).
Proof.
  induction u as [|[n e] u IH]; intros w a b I Hx Hy Hlen fuel Hfu; (destruct fuel as [|fuel]; [lia|]); cbn [equal_loop hd].
  - destruct w; [|discriminate]. rewrite iter_eqb_refl. reflexivity.
  - destruct w as [|[m e'] w]; [discriminate|]. cbn [hd length] in *.
    assert (Hne : (n, e) <> trail rx).
    { intros E. pose proof (i_nodup _ _ _ I _ _ _ Hx) as Hd. apply nodup_circle in Hd. destruct Hd as (_ & _ & Hd).
      apply Hd. rewrite <- E, in_app_iff. right; left. reflexivity. }
    rewrite iter_eqb_neq by exact Hne. cbn [snd same_forest].
    destruct (Bool.eqb e e') eqn:Ee; cbn [negb andb]; [|reflexivity].
    assert (Hval : forall k0 r0 p i q, nth_error (words s) k0 = Some (r0, p ++ i :: q) ->
              exists v, deref h i = Some v /\ nth (fst i) (vals s) None = Some v).
    { intros k0 r0 p i q Hk0. destruct (i_some _ _ _ I i) as (v & Hv).
      - left. exists k0, r0, (p ++ i :: q). split; [exact Hk0|]. rewrite in_app_iff. right; left; reflexivity.
      - exists v. split; [|exact Hv]. rewrite deref_dat, (i_in _ _ _ I i); [exact Hv|]. left. eapply mem_at; [exact Hk0|].
        apply in_circle. right; left. rewrite in_app_iff. right; left; reflexivity. }
    destruct (Hval _ _ _ _ _ Hx) as (v & Dv & Vv). destruct (Hval _ _ _ _ _ Hy) as (v' & Dv' & Vv'). cbn [fst] in *.
    rewrite Dv, Dv', Vv, Vv'.
    rewrite (inv_step _ _ _ _ _ _ _ _ I Hx), (inv_step _ _ _ _ _ _ _ _ I Hy).
    assert (HIH : equal_loop eqb fuel h (hd (trail rx) u) (trail rx) (hd (trail ry) w) = Some (same_forest eqb (vals s) u w)).
    { apply (IH w (a ++ [(n, e)]) (b ++ [(m, e')])); auto; [rewrite Hx; now lapp|rewrite Hy; now lapp|lia]. }
    destruct e; cbn [andb].
    + destruct (eqb v v'); cbn [negb andb]; [exact HIH|reflexivity].
    + exact HIH.
Qed.

Lemma equal_ok (h : store) s kx ky x y rx ry u w : inv h s [] ->
  nth_error (words s) kx = Some (rx, u) -> nth_error (words s) ky = Some (ry, w) -> fok x (rx, u) -> fok y (ry, w) ->
  exists x' y',
  (forall fuel, length u + length w + 1 < fuel -> equal eqb fuel h x y = Some (x', y', same_forest eqb (vals s) u w)) /\
  fok x' (rx, u) /\ fok y' (ry, w).
Proof.
  intros I Hx Hy Fx Fy.
  destruct (size_ok h s kx x rx u I Hx Fx) as (x' & Ex & Fx').
  destruct (size_ok h s ky y ry w I Hy Fy) as (y' & Ey & Fy').
  exists x', y'. split; [|auto]. intros fuel Hfu. unfold equal. rewrite Ex, Ey by lia.
  destruct (Nat.eqb_spec (node_count u) (node_count w)) as [En|En]; cbn [negb].
  - rewrite (begin_ok h s [] kx x' rx u I Hx (proj1 Fx')), (begin_ok h s [] ky y' ry w I Hy (proj1 Fy')).
    unfold end_. rewrite (proj1 Fx'). cbn [fst].
    rewrite (equal_loop_ok h s [] kx ky rx ry u w [] []); auto; [|lia].
    rewrite (nested_length u), (nested_length w); [lia|exact (i_nested _ _ _ I _ _ _ Hy)|exact (i_nested _ _ _ I _ _ _ Hx)].
  - destruct (same_forest eqb (vals s) u w) eqn:E; [|reflexivity]. apply same_forest_count in E. congruence.
Qed.

End Ops4.
