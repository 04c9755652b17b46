(** transform_forest *)
From Coq Require Import Permutation.
From Verif Require Import Prelude Forest_Model Forest_Spec Forest_Words Forest_Links Forest_Inv Forest_Ops Forest_Ops2 Forest_Ops3.
Ltac Zify.zify_post_hook ::= idtac.

Section Ops5.
Context {T : Type}.
Notation store := (store (T := T)).
Notation sstate := (sstate T).

Lemma vals_grow_map (g : T -> T) (vs : list (option T)) x u :
  (forall i, In i u -> fst i < length vs) ->
  map (fun i : iter => option_map g (nth (fst i) (vs ++ [x]) None)) (filter snd u) =
  map (fun i : iter => option_map g (nth (fst i) vs None)) (filter snd u).
Proof.
  intros H. apply map_ext_in. intros i Hi. apply filter_In in Hi. rewrite app_nth1; [reflexivity|]. apply H. tauto.
Qed.

Lemma transform_ok (g : T -> T) q : forall (h : store) s f k kx r r' a t0 ren b P c,
  inv h s [] -> k <> kx ->
  nth_error (words s) k = Some (r, a ++ map (fun n => trail (ren_of ren n)) t0 ++ b) ->
  nth_error (words s) kx = Some (r', P ++ q ++ c) ->
  fok f (r, a ++ map (fun n => trail (ren_of ren n)) t0 ++ b) ->
  nest t0 q = Some [] -> (forall m, In m t0 -> ~ In (lead m) q) ->
  let w' := a ++ renumber (length (vals s)) ren q ++ b in
  exists h' f',
    (forall fuel, length q < fuel ->
       transform_forest fuel h f g (hd (trail r') (q ++ c)) (hd (trail r') c) (hd (trail r) b)
         (map (fun n => trail (ren_of ren n)) t0 ++ [hd (trail r) b]) = Some (h', f')) /\
    inv h' (SS (upd (words s) k (r, w'))
               (vals s ++ map (fun i : iter => option_map g (nth (fst i) (vals s) None)) (filter snd q))) [] /\
    fok f' (r, w').
Proof.
  induction q as [|[n e] q IH]; intros h s f k kx r r' a t0 ren b P c I Hkk Hk Hkx Hf Hn Ht w'.
  - cbn [nest] in Hn. injection Hn as ->. cbn [map app] in *. exists h, f. split; [|split].
    + intros fuel Hfu. destruct fuel as [|fuel]; [lia|]. cbn [transform_forest]. now rewrite iter_eqb_refl.
    + unfold w'. cbn [renumber app filter map]. rewrite app_nil_r, (upd_self _ _ _ Hk). destruct s; exact I.
    + exact Hf.
  - assert (Hne : iter_eqb (n, e) (hd (trail r') c) = false).
    { apply iter_eqb_neq. exact (pos_neq _ _ _ _ _ _ _ _ _ I Hkx). }
    assert (Hnd : NoDup (P ++ (n, e) :: q ++ c)).
    { pose proof (i_nodup _ _ _ I _ _ _ Hkx) as Hd. apply nodup_circle in Hd. exact (proj1 Hd). }
    destruct e.
    + (* leading edge: insert a copy *)
      set (t := map (fun n => trail (ren_of ren n)) t0) in *.
      destruct (i_some _ _ _ I (n, true)) as (v & Hv).
      { left. exists kx, r', (P ++ ((n, true) :: q) ++ c). split; [exact Hkx|]. rewrite in_app_iff. right; left. reflexivity. }
      cbn [fst] in Hv.
      assert (Hde : deref h (n, true) = Some v).
      { rewrite deref_dat. rewrite (i_in _ _ _ I (n, true)); [exact Hv|]. left. eapply mem_at; [exact Hkx|].
        apply in_circle. right; left. rewrite in_app_iff. right; left. reflexivity. }
      destruct (insert_ok h s k f r a (t ++ b) (g v) I Hk Hf) as (h1 & f1 & E1 & I1 & F1).
      set (m := length (vals s)) in *.
      set (s1 := SS (upd (words s) k (r, a ++ lead m :: trail m :: t ++ b)) (vals s ++ [Some (g v)])) in *.
      assert (Hk1 : nth_error (words s1) k = Some (r, (a ++ [lead m]) ++ (trail m :: t) ++ b)).
      { unfold s1; cbn [words]. rewrite (nth_upd_same _ _ _ _ Hk). now lapp. }
      assert (Hkx1 : nth_error (words s1) kx = Some (r', (P ++ [(n, true)]) ++ q ++ c)).
      { unfold s1; cbn [words]. rewrite nth_error_upd_other by congruence. rewrite Hkx. now lapp. }
      assert (Hinc : increment h1 (n, true) = Some (hd (trail r') (q ++ c))).
      { pose proof (inv_incr _ _ _ _ _ _ _ I1 Hkx1) as Hi. rewrite last_app_cons in Hi. exact Hi. }
      assert (Hinp : increment h1 (lead m) = Some (trail m)).
      { pose proof (inv_incr _ _ _ _ _ _ _ I1 Hk1) as Hi. rewrite last_app_cons in Hi. exact Hi. }
      assert (Et : map (fun j => trail (ren_of ((n, m) :: ren) j)) (n :: t0) = trail m :: t).
      { cbn [map]. f_equal.
        - unfold ren_of; cbn [find fst snd]. now rewrite Nat.eqb_refl.
        - unfold t. apply map_ext_in. intros j Hj. unfold ren_of; cbn [find fst snd].
          destruct (Nat.eqb_spec n j) as [->|]; [|reflexivity]. exfalso. apply (Ht j Hj). left; reflexivity. }
      destruct (IH h1 s1 f1 k kx r r' (a ++ [lead m]) (n :: t0) ((n, m) :: ren) b (P ++ [(n, true)]) c)
        as (h' & f' & E & I' & F').
      * exact I1.
      * exact Hkk.
      * rewrite Et. exact Hk1.
      * exact Hkx1.
      * rewrite Et. replace ((a ++ [lead m]) ++ (trail m :: t) ++ b) with (a ++ lead m :: trail m :: t ++ b) by now lapp. exact F1.
      * exact Hn.
      * intros j [<-|Hj].
        { intros Hi. apply NoDup_remove_2 in Hnd. apply Hnd. rewrite !in_app_iff. auto. }
        { intros Hi. apply (Ht j Hj). right. exact Hi. }
      * rewrite Et in E. exists h', f'.
        assert (Ew : (a ++ [lead m]) ++ renumber (length (vals s1)) ((n, m) :: ren) q ++ b = w').
        { unfold w', s1; cbn [vals]. rewrite app_length. cbn [length renumber app]. fold m.
          replace (m + 1) with (S m) by lia. now lapp. }
        rewrite Ew in I', F'. split; [|split; [|exact F']].
        { intros fuel Hfu. destruct fuel as [|fuel]; [cbn in Hfu; lia|]. cbn [transform_forest app hd].
          rewrite Hne. cbn [snd]. rewrite Hde.
          replace (match t ++ [hd (trail r) b] with [] => hd (trail r) b | s0 :: _ => s0 end) with (hd (trail r) (t ++ b))
            by (destruct t; reflexivity).
          rewrite E1. change (trailing_of (lead m)) with (trail m). rewrite Hinc. cbn [app] in E. apply E. cbn [length] in Hfu. lia. }
        { unfold s1 in I'; cbn [words vals] in I'. rewrite upd_upd in I'. cbn [filter map fst snd].
          rewrite Hv. cbn [option_map]. rewrite <- app_assoc in I'. cbn [app] in I'.
          rewrite vals_grow_map in I'; [exact I'|].
          intros i Hi. rewrite <- (i_len _ _ _ I). apply (inv_lt _ _ _ i I). left. eapply mem_at; [exact Hkx|].
          apply in_circle. right; left. rewrite !in_app_iff. right; left; right. exact Hi. }
    + (* trailing edge: step over *)
      cbn [nest] in Hn. destruct t0 as [|m0 t0]; [discriminate|].
      destruct (Nat.eqb_spec m0 n) as [->|]; [|discriminate]. cbn [map] in *.
      set (t := map (fun n => trail (ren_of ren n)) t0) in *. set (m := ren_of ren n) in *.
      assert (Hk1 : nth_error (words s) k = Some (r, (a ++ [trail m]) ++ t ++ b)) by (rewrite Hk; now lapp).
      assert (Hkx1 : nth_error (words s) kx = Some (r', (P ++ [(n, false)]) ++ q ++ c)) by (rewrite Hkx; now lapp).
      assert (Hinc : increment h (n, false) = Some (hd (trail r') (q ++ c))).
      { pose proof (inv_incr _ _ _ _ _ _ _ I Hkx1) as Hi. rewrite last_app_cons in Hi. exact Hi. }
      assert (Hinp : increment h (trail m) = Some (hd (trail r) (t ++ b))).
      { pose proof (inv_incr _ _ _ _ _ _ _ I Hk1) as Hi. rewrite last_app_cons in Hi. exact Hi. }
      destruct (IH h s f k kx r r' (a ++ [trail m]) t0 ren b (P ++ [(n, false)]) c) as (h' & f' & E & I' & F').
      * exact I.
      * exact Hkk.
      * exact Hk1.
      * exact Hkx1.
      * fold t. replace ((a ++ [trail m]) ++ t ++ b) with (a ++ (trail m :: t) ++ b) by now lapp. exact Hf.
      * exact Hn.
      * intros j Hj Hi. apply (Ht j); [right; exact Hj|right; exact Hi].
      * assert (Ew : (a ++ [trail m]) ++ renumber (length (vals s)) ren q ++ b = w').
        { unfold w'. change ((n, false) :: q) with (trail n :: q). rewrite renumber_trail. fold m. now lapp. }
        rewrite Ew in I', F'. exists h', f'. split; [|split; [exact I'|exact F']].
        intros fuel Hfu. destruct fuel as [|fuel]; [cbn in Hfu; lia|]. cbn [transform_forest app hd].
        rewrite Hne. cbn [snd]. rewrite Hinc. apply E. cbn [length] in Hfu. lia.
Qed.


End Ops5.
