(** The member functions of forest preserve the invariant and do what the
    specification says. *)
From Coq Require Import Permutation.
From Verif Require Import Prelude Forest_Model Forest_Spec Forest_Words Forest_Links Forest_Inv.
Ltac Zify.zify_post_hook ::= idtac.

Section Ops.
Context {T : Type}.
Notation store := (store (T := T)).
Notation sstate := (sstate T).

(** A forest object represents (root, word): its cached size is right or unknown. *)
Definition fok (f : forest) (rw : nat * word) : Prop :=
  tail f = fst rw /\ (size_m f = 0 \/ size_m f = node_count (snd rw)).

Definition is_nil {A} (l : list A) : bool := match l with [] => true | _ => false end.

Lemma begin_ok (h : store) s D k f r w : inv h s D -> nth_error (words s) k = Some (r, w) -> tail f = r ->
  begin h f = Some (hd (trail r) w).
Proof. intros I Hk <-. exact (inv_incr h s D k (tail f) [] w I Hk). Qed.

Lemma empty_ok (h : store) s D k f r w : inv h s D -> nth_error (words s) k = Some (r, w) -> tail f = r ->
  empty h f = Some (is_nil w).
Proof.
  intros I Hk Ht. unfold empty. rewrite (begin_ok h s D k f r w I Hk Ht). f_equal. unfold end_. rewrite Ht.
  destruct w as [|x w]; cbn [hd is_nil]; [apply iter_eqb_refl|]. apply iter_eqb_neq. intros ->.
  pose proof (i_nodup _ _ _ I _ _ _ Hk) as Hd. apply nodup_circle in Hd. destruct Hd as (_ & _ & Hd). apply Hd. cbn; auto.
Qed.

Lemma size_valid_ok (h : store) s D k f r w : inv h s D -> nth_error (words s) k = Some (r, w) -> tail f = r ->
  size_valid h f = Some (negb (size_m f =? 0) || is_nil w)%bool.
Proof. intros I Hk Ht. unfold size_valid. now rewrite (empty_ok h s D k f r w I Hk Ht). Qed.

(** ++size_m and --size_m when valid *)
Lemma fok_grow f r w w' : fok f (r, w) -> node_count w' = S (node_count w) ->
  fok (if (negb (size_m f =? 0) || is_nil w)%bool then F (tail f) (S (size_m f)) else f) (r, w').
Proof.
  intros (Ht & Hs) Hc. cbn [fst snd] in *. unfold fok; cbn [fst snd].
  destruct (Nat.eqb_spec (size_m f) 0) as [E|E]; cbn [negb orb].
  - destruct w as [|x w]; cbn [is_nil tail size_m]; [split; [exact Ht|]|split; [exact Ht|left; exact E]].
    right. rewrite E, Hc. reflexivity.
  - cbn [tail size_m]. split; [exact Ht|]. right. destruct Hs; lia.
Qed.
Lemma fok_shrink f r w w' : fok f (r, w) -> S (node_count w') = node_count w ->
  fok (if (negb (size_m f =? 0) || is_nil w)%bool then F (tail f) (size_m f - 1) else f) (r, w').
Proof.
  intros (Ht & Hs) Hc. cbn [fst snd] in *. unfold fok; cbn [fst snd].
  destruct (Nat.eqb_spec (size_m f) 0) as [E|E]; cbn [negb orb].
  - destruct w as [|x w]; [discriminate|]. cbn [is_nil]. auto.
  - cbn [tail size_m]. split; [exact Ht|]. right. destruct Hs; lia.
Qed.

(** ** insert *)
Lemma insert_ok (h : store) s k f r a b v : inv h s [] -> nth_error (words s) k = Some (r, a ++ b) -> fok f (r, a ++ b) ->
  let n := length (vals s) in let w' := a ++ lead n :: trail n :: b in
  exists h' f', insert h f (hd (trail r) b) v = Some (h', f', lead n) /\
    inv h' (SS (upd (words s) k (r, w')) (vals s ++ [Some v])) [] /\ fok f' (r, w').
Proof.
  intros I Hk Hf n w'. unfold insert.
  destruct (new_node_ok h s v I) as (E & I1 & Hseg). fold n in E, I1, Hseg. rewrite E.
  set (h0 := h ++ [Some (Node n n n n (Some v))]) in *.
  set (s1 := SS (words s) (vals s ++ [Some v])) in *.
  assert (Hk1 : nth_error (words s1) k = Some (r, a ++ b)) by exact Hk.
  rewrite (size_valid_ok h0 s1 _ k f r (a ++ b) I1 Hk1 (proj1 Hf)).
  rewrite (inv_decr h0 s1 _ k r a b I1 Hk1).
  destruct (attach_ok h0 s1 k r a [lead n; trail n] b I1 Hk1) as (h1 & h2 & S1 & S2 & I2 & Hseg2);
    [apply (nested_wrap n []), nested_nil|exact Hseg|discriminate|].
  cbn [hd] in S1. rewrite (sn_eq _ _ _ _ S1).
  assert (Ei : increment h1 (lead n) = Some (trail n)).
  { cbn [seg chain] in Hseg2. destruct Hseg2 as ((Hn & _) & _). unfold lead in *. rewrite increment_lead, Hn.
    cbn [fst trail]. rewrite Nat.eqb_refl. reflexivity. }
  rewrite Ei. cbn [last] in S2. rewrite (sn_eq _ _ _ _ S2).
  eexists _, _. split; [reflexivity|]. split; [exact I2|].
  apply fok_grow; [exact Hf|]. unfold w'. rewrite !node_count_app. unfold node_count. cbn. lia.
Qed.

(** ** erase(position) *)
Lemma has_children_ok (h : store) s D k r a n b c e : inv h s D ->
  nth_error (words s) k = Some (r, a ++ lead n :: b ++ trail n :: c) ->
  has_children h (n, e) = Some (negb (is_nil b)).
Proof.
  intros I Hk. unfold has_children, leading_of; cbn [fst].
  assert (Hk' : nth_error (words s) k = Some (r, (a ++ [lead n]) ++ b ++ trail n :: c)) by (rewrite Hk; now lapp).
  pose proof (inv_incr _ _ _ _ _ _ _ I Hk') as Hi. rewrite last_app_cons in Hi. cbn [last] in Hi. unfold lead in Hi at 1.
  rewrite Hi. f_equal. f_equal. unfold equal_node; cbn [fst].
  destruct b as [|x b]; cbn [app hd is_nil]; [apply Nat.eqb_refl|].
  apply Nat.eqb_neq. intros E. pose proof (i_nodup _ _ _ I _ _ _ Hk) as Hd. apply nodup_circle in Hd.
  destruct Hd as (Hd & _). destruct x as [m e']; cbn [fst] in E; subst m.
  apply nodup_app_iff in Hd. destruct Hd as (_ & Hd & _).
  destruct e'.
  - apply NoDup_cons_iff in Hd. destruct Hd as (Hd & _). apply Hd. cbn; auto.
  - apply NoDup_cons_iff in Hd. destruct Hd as (_ & Hd). apply NoDup_cons_iff in Hd. destruct Hd as (Hd & _).
    apply Hd. rewrite in_app_iff. cbn; auto.
Qed.

Lemma remove_two_ok (h : store) s k r a n b c : inv h s [] ->
  nth_error (words s) k = Some (r, a ++ lead n :: b ++ trail n :: c) -> nested b -> b <> [] ->
  exists h1 h2, set_next_spec h (last a (lead r)) (hd (trail r) b) h1 /\
    set_next_spec h1 (last b (lead r)) (hd (trail r) c) h2 /\
    inv h2 (SS (upd (words s) k (r, a ++ b ++ c)) (vals s)) [lead n; trail n].
Proof.
  intros I Hk Hb Hne.
  set (w := a ++ lead n :: b ++ trail n :: c) in *.
  pose proof (i_nodup _ _ _ I _ _ _ Hk) as Hd. pose proof (i_ring _ _ _ I _ _ _ Hk) as Hr. unfold ring in Hr.
  assert (Ew : w = a ++ [lead n] ++ (b ++ trail n :: c)) by reflexivity.
  assert (Hs : trail r <> last a (lead r)) by (eapply (trail_root_not_before h s [] k r a); eauto).
  assert (Ehd : hd (trail r) (b ++ trail n :: c) = hd (trail r) b) by (destruct b; [congruence|reflexivity]).
  assert (Hin : forall i, In i w -> dat h (fst i) <> None).
  { intros i Hi. eapply inv_alive; [exact I|exact Hk|]. apply in_circle; auto. }
  assert (Hhb : In (hd (trail r) b) w).
  { unfold w. rewrite in_app_iff; right; right. rewrite in_app_iff; left. destruct b; [congruence|cbn; auto]. }
  assert (Hlb : In (last b (lead r)) b) by (now apply last_in).
  assert (Hlbw : In (last b (lead r)) w).
  { unfold w. rewrite in_app_iff; right; right. rewrite in_app_iff; left. exact Hlb. }
  assert (Hpc : In (last a (lead r)) (circle (r, w))) by (apply in_pos_before).
  assert (Hqc : In (hd (trail r) c) (circle (r, w))).
  { unfold w. replace (a ++ lead n :: b ++ trail n :: c) with ((a ++ lead n :: b ++ [trail n]) ++ c) by now lapp.
    apply in_pos_after. }
  destruct (set_next_ok h (last a (lead r)) (hd (trail r) b)) as (h1 & S1);
    [eapply inv_alive; eauto|auto|].
  destruct (set_next_ok h1 (last b (lead r)) (hd (trail r) c)) as (h2 & S2);
    [rewrite (sn_dat _ _ _ _ S1); auto|rewrite (sn_dat _ _ _ _ S1); eapply inv_alive; eauto|].
  exists h1, h2. split; [exact S1|]. split; [exact S2|].
  (* step 1: the ring without lead n *)
  rewrite Ew in Hd, Hr. rewrite circle_split3 in Hd, Hr. rewrite Ehd in Hd, Hr.
  pose proof (chain_unlink _ _ _ _ _ _ _ _ S1 Hd Hs Hr) as C1.
  assert (Hperm : NoDup (circle (r, a ++ b ++ trail n :: c))).
  { pose proof (i_nodup _ _ _ I _ _ _ Hk) as Hd0. apply nodup_circle in Hd0. apply nodup_circle.
    destruct Hd0 as (H1 & H2 & H3). unfold w in *. split; [|split].
    - apply NoDup_remove_1 in H1. exact H1.
    - rewrite in_app_iff in *. cbn [In] in *. tauto.
    - rewrite in_app_iff in *. cbn [In] in *. tauto. }
  rewrite <- Ehd, <- circle_split in C1.
  (* step 2: without trail n *)
  replace (a ++ b ++ trail n :: c) with ((a ++ b) ++ [trail n] ++ c) in C1, Hperm by now lapp.
  rewrite circle_split3 in C1, Hperm.
  assert (El : last (a ++ b) (lead r) = last b (lead r)).
  { destruct b as [|x b]; [congruence|]. now rewrite last_app_cons, last_cons. }
  rewrite El in C1, Hperm.
  assert (Hs2 : trail r <> last b (lead r)).
  { intros E. rewrite <- E in Hlbw. pose proof (i_nodup _ _ _ I _ _ _ Hk) as Hd0. apply nodup_circle in Hd0. tauto. }
  pose proof (chain_unlink _ _ _ _ _ _ _ _ S2 Hperm Hs2 C1) as C2.
  rewrite <- El, <- circle_split in C2.
  eapply inv_relink; [exact I|exact Hk| | | |].
  - eapply frame_trans; [eapply frame_set_next; [exact S1| |]|eapply frame_set_next; [exact S2| |]];
      rewrite in_app_iff; left; auto; apply in_circle; auto.
  - pose proof (i_nested _ _ _ I _ _ _ Hk) as Hw. unfold w in Hw.
    apply nested_insert; [exact Hb|].
    apply (nested_remove a (lead n :: b ++ [trail n]) c); [now apply nested_wrap|].
    replace (a ++ (lead n :: b ++ [trail n]) ++ c) with (a ++ lead n :: b ++ trail n :: c) by now lapp. exact Hw.
  - unfold ring. rewrite app_assoc. exact C2.
  - rewrite app_nil_r. unfold w. rewrite <- !app_assoc. apply Permutation_app_head.
    etransitivity; [rewrite app_assoc; apply Permutation_app_comm|]. cbn [app]. apply perm_skip.
    apply Permutation_middle.
Qed.

Lemma erase_ok (h : store) s k f r a n b c e : inv h s [] ->
  nth_error (words s) k = Some (r, a ++ lead n :: b ++ trail n :: c) -> nested b ->
  fok f (r, a ++ lead n :: b ++ trail n :: c) ->
  exists h' f', erase h f (n, e) = Some (h', f', if e then hd (trail r) (b ++ c) else hd (trail r) c) /\
    inv h' (SS (upd (words s) k (r, a ++ b ++ c)) (vals s)) [] /\ fok f' (r, a ++ b ++ c).
Proof.
  intros I Hk Hb Hf. unfold erase.
  rewrite (size_valid_ok h s _ k f r _ I Hk (proj1 Hf)).
  assert (Hf' : fok (if (negb (size_m f =? 0) || is_nil (a ++ lead n :: b ++ trail n :: c))%bool
                     then F (tail f) (size_m f - 1) else f) (r, a ++ b ++ c)).
  { apply fok_shrink; [exact Hf|]. rewrite !node_count_app.
    change (lead n :: b ++ trail n :: c) with ([lead n] ++ b ++ [trail n] ++ c). rewrite !node_count_app. cbn. lia. }
  set (f' := if (negb (size_m f =? 0) || is_nil (a ++ lead n :: b ++ trail n :: c))%bool
             then F (tail f) (size_m f - 1) else f) in *.
  change (leading_of (n, e)) with (lead n). change (trailing_of (n, e)) with (trail n). cbn [fst snd].
  assert (K1 : nth_error (words s) k = Some (r, a ++ (lead n :: b ++ trail n :: c))) by exact Hk.
  assert (K2 : nth_error (words s) k = Some (r, (a ++ [lead n]) ++ (b ++ trail n :: c))) by (rewrite Hk; now lapp).
  assert (K3 : nth_error (words s) k = Some (r, (a ++ lead n :: b) ++ (trail n :: c))) by (rewrite Hk; now lapp).
  assert (K4 : nth_error (words s) k = Some (r, (a ++ lead n :: b ++ [trail n]) ++ c)) by (rewrite Hk; now lapp).
  pose proof (inv_decr _ _ _ _ _ _ _ I K1) as E1. cbn [hd] in E1.  rewrite E1.
  pose proof (inv_incr _ _ _ _ _ _ _ I K2) as E2. rewrite last_app_cons in E2. cbn [last] in E2.  rewrite E2.
  pose proof (inv_decr _ _ _ _ _ _ _ I K3) as E3. cbn [hd] in E3.  rewrite E3.
  pose proof (inv_incr _ _ _ _ _ _ _ I K4) as E4.
  replace (a ++ lead n :: b ++ [trail n]) with ((a ++ lead n :: b) ++ [trail n]) in E4 by now lapp.
  rewrite last_app_cons in E4. cbn [last] in E4.  rewrite E4.
  rewrite (has_children_ok h s [] k r a n b c e I Hk).
  assert (Hrel : exists h1, (if negb (is_nil b) then
              match set_next h (last a (lead r)) (hd (trail r) (b ++ trail n :: c)) with
              | Some h0 => set_next h0 (last (a ++ lead n :: b) (lead r)) (hd (trail r) c) | None => None end
              else set_next h (last a (lead r)) (hd (trail r) c)) = Some h1 /\
           inv h1 (SS (upd (words s) k (r, a ++ b ++ c)) (vals s)) [lead n; trail n]).
  { destruct b as [|x b'] eqn:Eb; cbn [is_nil negb].
    - destruct (detach_ok h s k r a [lead n; trail n] c I) as (h1 & S1 & I1 & _).
      + rewrite Hk. reflexivity.
      + apply (nested_wrap n []), nested_nil.
      + exists h1. split; [exact (sn_eq _ _ _ _ S1)|exact I1].
    - rewrite <- Eb in *.
      destruct (remove_two_ok h s k r a n b c I Hk Hb) as (h1 & h2 & S1 & S2 & I2); [rewrite Eb; discriminate|].
      exists h2. split; [|exact I2].
      assert (Ehd : hd (trail r) (b ++ trail n :: c) = hd (trail r) b) by (rewrite Eb; reflexivity).
      assert (El : last (a ++ lead n :: b) (lead r) = last b (lead r)).
      { rewrite last_app_cons. rewrite Eb. now rewrite !last_cons. }
      rewrite Ehd, El, (sn_eq _ _ _ _ S1). exact (sn_eq _ _ _ _ S2). }
  destruct Hrel as (h1 & -> & I1).
  destruct (delete_ok _ _ _ I1) as (h2 & Ed & I2). rewrite Ed.
  exists h2, f'. split; [|split; [exact I2|exact Hf']].
  destruct e; [|reflexivity].
  assert (Hk2 : nth_error (words (SS (upd (words s) k (r, a ++ b ++ c)) (vals s))) k = Some (r, a ++ (b ++ c))).
  { cbn [words]. apply nth_error_upd_same. apply nth_error_Some. congruence. }
  rewrite (inv_incr _ _ _ _ _ _ _ I2 Hk2). reflexivity.
Qed.

End Ops.
