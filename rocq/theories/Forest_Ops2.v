(** erase of ranges, clear, splice and insert_parent. *)
From Coq Require Import Permutation.
From Verif Require Import Prelude Forest_Model Forest_Spec Forest_Words Forest_Links Forest_Inv Forest_Ops.
Ltac Zify.zify_post_hook ::= idtac.

Lemma upd_upd {A} (l : list A) k x y : upd (upd l k x) k y = upd l k y.
Proof. revert k; induction l as [|z l IH]; intros [|k]; cbn; auto. now rewrite IH. Qed.
Lemma upd_comm {A} (l : list A) j k x y : j <> k -> upd (upd l j x) k y = upd (upd l k y) j x.
Proof. revert j k; induction l as [|z l IH]; intros [|j] [|k] H; cbn; auto; try congruence. rewrite IH; congruence. Qed.
Lemma upd_self {A} (l : list A) k x : nth_error l k = Some x -> upd l k x = l.
Proof. revert k; induction l as [|z l IH]; intros [|k] H; cbn in *; try discriminate; [congruence|]. now rewrite IH. Qed.
Lemma nth_upd_same {A} (l : list A) k x y : nth_error l k = Some y -> nth_error (upd l k x) k = Some x.
Proof. intros H. apply nth_error_upd_same. apply nth_error_Some. congruence. Qed.

Lemma nodup_split_unique {A} (P P' Q Q' : list A) x :
  NoDup (P ++ x :: Q) -> P ++ x :: Q = P' ++ x :: Q' -> P = P' /\ Q = Q'.
Proof.
  revert P'; induction P as [|y P IH]; intros P' Hd E; destruct P' as [|y' P']; cbn [app] in *.
  - injection E as ->. auto.
  - injection E as <- ->. apply NoDup_cons_iff in Hd. destruct Hd as (Hd & _). exfalso. apply Hd. rewrite in_app_iff; cbn; auto.
  - injection E as -> <-. apply NoDup_cons_iff in Hd. destruct Hd as (Hd & _). exfalso. apply Hd. rewrite in_app_iff; cbn; auto.
  - injection E as <- E. apply NoDup_cons_iff in Hd. destruct Hd as (_ & Hd).
    destruct (IH P' Hd E) as (-> & ->). auto.
Qed.

Lemma nest_in s w s' m : nest s w = Some s' -> In m s' -> In m s \/ In (lead m) w.
Proof.
  revert s; induction w as [|[n e] w IH]; intros s; cbn [nest]; [intros E; injection E as ->; auto|].
  destruct e; intros H Hm.
  - destruct (IH _ H Hm) as [[->|Hi]|Hi]; cbn [In]; auto.
  - destruct s as [|q s]; [discriminate|]. destruct (q =? n); [|discriminate].
    destruct (IH _ H Hm) as [Hi|Hi]; cbn [In]; auto.
Qed.

Lemma inside_both_spec u n : inside_both u n = true <-> In (lead n) u /\ In (trail n) u.
Proof.
  unfold inside_both. rewrite andb_true_iff, !existsb_exists. split.
  - intros ((i & Hi & Ei) & (j & Hj & Ej)).
    destruct (iter_eqb_spec (lead n) i); [subst i|discriminate]. destruct (iter_eqb_spec (trail n) j); [subst j|discriminate]. auto.
  - intros (H1 & H2). split; [exists (lead n)|exists (trail n)]; split; auto using iter_eqb_refl.
Qed.

Lemma bool_ext (a b : bool) : (a = true <-> b = true) -> a = b.
Proof. destruct a, b; intuition congruence. Qed.

Lemma without_cons_in p i w : p (fst i) = true -> without p (i :: w) = without p w.
Proof. intros H. unfold without; cbn [filter]. rewrite H. reflexivity. Qed.

Lemma without_both_step T1 n T2 u2 : NoDup (T1 ++ lead n :: T2 ++ trail n :: u2) ->
  without (inside_both ((T1 ++ lead n :: T2) ++ trail n :: u2)) ((T1 ++ lead n :: T2) ++ trail n :: u2) =
  without (inside_both ((T1 ++ T2) ++ u2)) ((T1 ++ T2) ++ u2).
Proof.
  intros Hnd.
  assert (Hb : inside_both ((T1 ++ lead n :: T2) ++ trail n :: u2) n = true).
  { apply inside_both_spec. rewrite !in_app_iff. cbn [In]. auto. }
  set (p := inside_both ((T1 ++ lead n :: T2) ++ trail n :: u2)) in *.
  rewrite !without_app, !without_cons_in by exact Hb. rewrite <- !without_app. apply without_ext.
  intros [q e] Hq. cbn [fst].
  assert (Hqn : q <> n).
  { intros ->. rewrite !in_app_iff in Hq. destruct e.
    - apply NoDup_remove_2 in Hnd. apply Hnd. rewrite !in_app_iff. cbn [In]. unfold lead; tauto.
    - rewrite app_comm_cons, app_assoc in Hnd. apply NoDup_remove_2 in Hnd. apply Hnd. rewrite !in_app_iff.
      cbn [In]. unfold trail; tauto. }
  unfold p. apply bool_ext. rewrite !inside_both_spec, !in_app_iff. cbn [In].
  assert (lead n <> lead q /\ trail n <> trail q /\ lead n <> trail q /\ trail n <> lead q) as (? & ? & ? & ?)
    by (unfold lead, trail; repeat apply conj; congruence).
  tauto.
Qed.

Section Ops2.
Context {T : Type}.
Notation store := (store (T := T)).
Notation sstate := (sstate T).

Lemma pos_neq (h : store) s D k r a x b c : inv h s D -> nth_error (words s) k = Some (r, a ++ x :: b ++ c) ->
  x <> hd (trail r) c.
Proof.
  intros I Hk E. pose proof (i_nodup _ _ _ I _ _ _ Hk) as Hd. apply nodup_circle in Hd. destruct Hd as (Hd & _ & Ht).
  destruct c as [|y c]; cbn [hd] in E; subst x.
  - apply Ht. rewrite in_app_iff; cbn; auto.
  - apply NoDup_remove_2 in Hd. apply Hd. rewrite !in_app_iff; cbn; auto.
Qed.

Lemma erase_loop_ok u2 : forall (h : store) s f k r A1 Tw s0 s1 t B,
  inv h s [] -> nth_error (words s) k = Some (r, A1 ++ Tw ++ u2 ++ B) -> fok f (r, A1 ++ Tw ++ u2 ++ B) ->
  nest [] A1 = Some s0 -> nest s0 Tw = Some (t ++ s1) ->
  (forall n, In (lead n) Tw -> In n t) -> (forall n, In n t -> In (lead n) Tw /\ ~ In (trail n) Tw) ->
  let u := Tw ++ u2 in let w' := A1 ++ without (inside_both u) u ++ B in
  exists h' f',
    (forall fuel, length u2 < fuel ->
       erase_loop fuel h f (hd (trail r) (u2 ++ B)) (hd (trail r) B) (length t) = Some (h', f')) /\
    inv h' (SS (upd (words s) k (r, w')) (vals s)) [] /\ fok f' (r, w').
Proof.
  induction u2 as [|[n e] u2 IH]; intros h s f k r A1 Tw s0 s1 t B I Hk Hf Hn0 Hn1 Ht1 Ht2 u w'.
  - (* done *)
    assert (Ew : w' = A1 ++ Tw ++ B).
    { unfold w', u. rewrite app_nil_r, without_all; [reflexivity|]. intros i Hi.
      destruct (inside_both Tw (fst i)) eqn:Eb; [|reflexivity]. exfalso. apply inside_both_spec in Eb.
      destruct Eb as (E1 & E2). apply Ht1 in E1. destruct (Ht2 _ E1) as (_ & E3). auto. }
    cbn [app] in Hk, Hf. exists h, f. split; [|split].
    + intros fuel Hfu. destruct fuel as [|fuel]; [lia|]. cbn [erase_loop app]. now rewrite iter_eqb_refl.
    + rewrite Ew, (upd_self _ _ _ Hk). destruct s; exact I.
    + rewrite Ew. exact Hf.
  - pose proof (i_nested _ _ _ I _ _ _ Hk) as Hnest. pose proof (i_nodup _ _ _ I _ _ _ Hk) as Hnd.
    apply nodup_circle in Hnd. destruct Hnd as (Hnd & _ & _).
    assert (Hk' : nth_error (words s) k = Some (r, (A1 ++ Tw) ++ (n, e) :: u2 ++ B)) by (rewrite Hk; now lapp).
    assert (Hne : iter_eqb (n, e) (hd (trail r) B) = false) by (apply iter_eqb_neq; eapply pos_neq; eauto).
    assert (Hinc : increment h (n, e) = Some (hd (trail r) (u2 ++ B))).
    { assert (Hk2 : nth_error (words s) k = Some (r, ((A1 ++ Tw) ++ [(n, e)]) ++ u2 ++ B)) by (rewrite Hk; now lapp).
      pose proof (inv_incr _ _ _ _ _ _ _ I Hk2) as Hi. rewrite last_app_cons in Hi. exact Hi. }
    destruct e.
    + (* a leading edge *)
      destruct (IH h s f k r A1 (Tw ++ [lead n]) s0 s1 (n :: t) B) as (h' & f' & E & I' & F').
      * exact I.
      * rewrite Hk. now lapp.
      * replace (A1 ++ (Tw ++ [lead n]) ++ u2 ++ B) with (A1 ++ Tw ++ ((n, true) :: u2) ++ B) by now lapp. exact Hf.
      * exact Hn0.
      * rewrite nest_app, Hn1. reflexivity.
      * intros m Hm. rewrite in_app_iff in Hm. destruct Hm as [Hm|[Em|[]]]; [right; auto|left; now injection Em].
      * intros m [<-|Hm].
        { split; [rewrite in_app_iff; cbn; auto|]. rewrite in_app_iff. intros [Hi|[Hi|[]]]; [|discriminate].
          assert (Hnest2 : nested ((A1 ++ Tw) ++ lead n :: u2 ++ B)) by (rewrite <- app_assoc; exact Hnest).
          assert (Hnd2 : NoDup ((A1 ++ Tw) ++ lead n :: u2 ++ B)) by (rewrite <- app_assoc; exact Hnd).
          clear Hnd; rename Hnd2 into Hnd.
          destruct (nested_split_lead _ _ _ Hnest2) as (B1 & B2 & EB & _). rewrite EB in Hnd.
          apply nodup_app_iff in Hnd. destruct Hnd as (_ & _ & Hnd). apply (Hnd (trail n)).
          - rewrite in_app_iff; auto.
          - right. rewrite in_app_iff; cbn; auto. }
        { destruct (Ht2 m Hm) as (H1 & H2). split; [rewrite in_app_iff; auto|].
          rewrite in_app_iff. intros [Hi|[Hi|[]]]; [auto|discriminate]. }
      * assert (Eu : (Tw ++ [lead n]) ++ u2 = u) by (unfold u; now lapp). rewrite Eu in I', F'. fold w' in I', F'.
        exists h', f'. split; [|split; [exact I'|exact F']].
        intros fuel Hfu. destruct fuel as [|fuel]; [cbn in Hfu; lia|]. cbn [erase_loop app hd length].
        rewrite Hne. cbn [snd]. rewrite Hinc. apply E. cbn [length] in Hfu. lia.
    + destruct t as [|m t].
      * (* closes a node opened before the range *)
        cbn [app] in Hn1.
        assert (Hs1 : exists s1', s1 = n :: s1').
        { unfold nested in Hnest. rewrite nest_app, Hn0, nest_app, Hn1 in Hnest. cbn [app nest] in Hnest.
          destruct s1 as [|q s1]; [discriminate|]. destruct (Nat.eqb_spec q n); [subst; eauto|discriminate]. }
        destruct Hs1 as (s1' & ->).
        destruct (IH h s f k r A1 (Tw ++ [trail n]) s0 s1' [] B) as (h' & f' & E & I' & F').
        -- exact I.
        -- rewrite Hk. now lapp.
        -- replace (A1 ++ (Tw ++ [trail n]) ++ u2 ++ B) with (A1 ++ Tw ++ ((n, false) :: u2) ++ B) by now lapp. exact Hf.
        -- exact Hn0.
        -- rewrite nest_app, Hn1. unfold trail; cbn [nest]. rewrite Nat.eqb_refl. reflexivity.
        -- intros q Hq. rewrite in_app_iff in Hq. destruct Hq as [Hq|[Eq|[]]]; [exact (Ht1 _ Hq)|discriminate].
        -- intros q [].
        -- assert (Eu : (Tw ++ [trail n]) ++ u2 = u) by (unfold u; now lapp). rewrite Eu in I', F'. fold w' in I', F'.
           exists h', f'. split; [|split; [exact I'|exact F']].
           intros fuel Hfu. destruct fuel as [|fuel]; [cbn in Hfu; lia|]. cbn [erase_loop app hd length].
           rewrite Hne. cbn [snd]. change (0 <? 0) with false. cbv beta iota. rewrite Hinc. apply E. cbn [length] in Hfu. lia.
      * (* erases the innermost open node *)
        assert (m = n).
        { unfold nested in Hnest. rewrite nest_app, Hn0, nest_app, Hn1 in Hnest. cbn [app nest] in Hnest.
          destruct (Nat.eqb_spec m n); [auto|discriminate]. }
        subst m.
        destruct (Ht2 n (or_introl eq_refl)) as (Hin & Hnin).
        apply in_split in Hin. destruct Hin as (T1 & T2 & ET). subst Tw.
        assert (HX : nest [] (A1 ++ T1 ++ lead n :: T2) = Some (n :: t ++ s1)) by (rewrite nest_app, Hn0; exact Hn1).
        destruct (nest_open _ _ _ HX) as (X1 & X2 & EX & HX1 & HX2).
        assert (HndX : NoDup ((A1 ++ T1) ++ lead n :: T2)).
        { rewrite app_assoc in Hnd. apply nodup_app_iff in Hnd. rewrite <- app_assoc. tauto. }
        rewrite app_assoc in EX. destruct (nodup_split_unique _ _ _ _ _ HndX EX) as (<- & <-).
        assert (Hnt : ~ In n (t ++ s1)).
        { intros Hi. destruct (nest_in _ _ _ _ HX1 Hi) as [[]|Hi'].
          apply NoDup_remove_2 in HndX. apply HndX. rewrite in_app_iff; auto. }
        assert (Hk2 : nth_error (words s) k = Some (r, (A1 ++ T1) ++ lead n :: T2 ++ trail n :: (u2 ++ B))) by (rewrite Hk; now lapp).
        assert (Hf2 : fok f (r, (A1 ++ T1) ++ lead n :: T2 ++ trail n :: (u2 ++ B))).
        { replace ((A1 ++ T1) ++ lead n :: T2 ++ trail n :: (u2 ++ B)) with (A1 ++ (T1 ++ lead n :: T2) ++ ((n, false) :: u2) ++ B) by now lapp. exact Hf. }
        destruct (erase_ok h s k f r (A1 ++ T1) n T2 (u2 ++ B) false I Hk2 HX2 Hf2) as (h1 & f1 & E1 & I1 & F1).
        set (st1 := SS (upd (words s) k (r, (A1 ++ T1) ++ T2 ++ u2 ++ B)) (vals s)) in *.
        assert (Hk3 : nth_error (words st1) k = Some (r, A1 ++ (T1 ++ T2) ++ u2 ++ B)).
        { unfold st1; cbn [words]. rewrite (nth_upd_same _ _ _ _ Hk). now lapp. }
        assert (Hs' : exists s', nest s0 T1 = Some s').
        { rewrite nest_app in Hn1. destruct (nest s0 T1); [eauto|discriminate]. }
        destruct Hs' as (s' & Hs').
        assert (Es' : s' = t ++ s1).
        { rewrite nest_app, Hs' in Hn1. cbn [nest lead] in Hn1. rewrite (nested_nest _ _ HX2) in Hn1. cbn [app] in Hn1.
          congruence. }
        destruct (IH h1 st1 f1 k r A1 (T1 ++ T2) s0 s1 t B) as (h' & f' & E & I' & F').
        -- exact I1.
        -- exact Hk3.
        -- replace (A1 ++ (T1 ++ T2) ++ u2 ++ B) with ((A1 ++ T1) ++ T2 ++ u2 ++ B) by now lapp. exact F1.
        -- exact Hn0.
        -- rewrite nest_app, Hs', (nested_nest _ _ HX2). now rewrite Es'.
        -- intros q Hq. rewrite in_app_iff in Hq.
           destruct (Ht1 q) as [Eq|Hq']; [rewrite in_app_iff; cbn [In]; tauto| |exact Hq'].
           exfalso. subst q. apply NoDup_remove_2 in HndX. apply HndX. rewrite !in_app_iff. tauto.
        -- intros q Hq. destruct (Ht2 q (or_intror Hq)) as (Hq1 & Hq2).
           assert (q <> n) by (intros ->; apply Hnt; rewrite in_app_iff; auto).
           rewrite in_app_iff in Hq1, Hq2. cbn [In] in Hq1, Hq2. rewrite !in_app_iff. split; [|tauto].
           destruct Hq1 as [?|[Eq|?]]; [auto|injection Eq as Eq; congruence|auto].
        -- assert (Ew : A1 ++ without (inside_both ((T1 ++ T2) ++ u2)) ((T1 ++ T2) ++ u2) ++ B = w').
           { unfold w'. f_equal. f_equal. unfold u. symmetry. apply without_both_step.
             assert (Hnd2 : NoDup (A1 ++ (T1 ++ lead n :: T2 ++ trail n :: u2) ++ B)) by (revert Hnd; lapp; auto).
             apply nodup_app_iff in Hnd2. destruct Hnd2 as (_ & Hnd2 & _). apply nodup_app_iff in Hnd2. tauto. }
           rewrite Ew in I', F'. exists h', f'. split; [|split; [|exact F']].
           ++ intros fuel Hfu. destruct fuel as [|fuel]; [cbn in Hfu; lia|]. cbn [erase_loop app hd].
              rewrite Hne. cbn [snd length]. change (0 <? S (length t)) with true. cbv beta iota. rewrite E1.
              replace (S (length t) - 1) with (length t) by lia. apply E. cbn [length] in Hfu. lia.
           ++ unfold st1 in I'; cbn [words vals] in I'. rewrite upd_upd in I'. exact I'.
Qed.

Lemma erase_range_ok (h : store) s f k r a u b :
  inv h s [] -> nth_error (words s) k = Some (r, a ++ u ++ b) -> fok f (r, a ++ u ++ b) ->
  let w' := a ++ without (inside_both u) u ++ b in
  exists h' f',
    (forall fuel, length u < fuel ->
       erase_range fuel h f (hd (trail r) (u ++ b)) (hd (trail r) b) = Some (h', f', hd (trail r) b)) /\
    inv h' (SS (upd (words s) k (r, w')) (vals s)) [] /\ fok f' (r, w').
Proof.
  intros I Hk Hf w'.
  assert (Hs : exists s0, nest [] a = Some s0).
  { pose proof (i_nested _ _ _ I _ _ _ Hk) as Hn. unfold nested in Hn. rewrite nest_app in Hn.
    destruct (nest [] a); [eauto|discriminate]. }
  destruct Hs as (s0 & Hs).
  destruct (erase_loop_ok u h s f k r a [] s0 s0 [] b) as (h' & f' & E & I' & F');
    [exact I|exact Hk|exact Hf|exact Hs|reflexivity|intros n []|intros n []|].
  - exists h', f'. split; [|split; [exact I'|exact F']].
    intros fuel Hfu. unfold erase_range. cbn [length] in E. now rewrite (E fuel Hfu).
Qed.

Lemma without_both_nested w : nested w -> without (inside_both w) w = [].
Proof.
  intros Hw. destruct (without (inside_both w) w) as [|i l] eqn:E; [reflexivity|]. exfalso.
  assert (Hi : In i (without (inside_both w) w)) by (rewrite E; cbn; auto).
  apply in_without in Hi. destruct Hi as (Hi & Hb).
  assert (Hb' : inside_both w (fst i) = true).
  { apply inside_both_spec. destruct i as [n [|]]; cbn [fst].
    - split; [exact Hi|]. now apply nested_both.
    - split; [|exact Hi]. now apply nested_both. }
  congruence.
Qed.

Lemma clear_ok (h : store) s f k r w :
  inv h s [] -> nth_error (words s) k = Some (r, w) -> fok f (r, w) ->
  exists h' f', (forall fuel, length w < fuel -> clear fuel h f = Some (h', f')) /\
    inv h' (SS (upd (words s) k (r, [])) (vals s)) [] /\ fok f' (r, []).
Proof.
  intros I Hk Hf.
  assert (Hk' : nth_error (words s) k = Some (r, [] ++ w ++ [])) by (rewrite app_nil_r; exact Hk).
  destruct (erase_range_ok h s f k r [] w [] I Hk') as (h' & f' & E & I' & F').
  - cbn [app]. now rewrite app_nil_r.
  - rewrite without_both_nested in I', F' by exact (i_nested _ _ _ I _ _ _ Hk). cbn [app] in *.
    exists h', f'. split; [|auto]. intros fuel Hfu. unfold clear.
    rewrite (begin_ok h s [] k f r w I Hk (proj1 Hf)).
    specialize (E fuel Hfu). rewrite app_nil_r in E. cbn [hd] in E. unfold end_. rewrite (proj1 Hf). cbn [fst]. now rewrite E.
Qed.

(** ** splice *)
Lemma pivot_pivot i : pivot_of (pivot_of i) = i.
Proof. destruct i as [n [|]]; reflexivity. Qed.

Lemma splice_links_ok (h : store) s k kx r a b r' a' u b' :
  inv h s [] -> nth_error (words s) kx = Some (r', a' ++ u ++ b') -> nested u -> u <> [] ->
  nth_error (upd (words s) kx (r', a' ++ b')) k = Some (r, a ++ b) ->
  exists h', splice_links h (hd (trail r) b) (hd (trail r') u) (hd (trail r') b') = Some (h', hd (trail r') u) /\
    inv h' (SS (upd (upd (words s) kx (r', a' ++ b')) k (r, a ++ u ++ b)) (vals s)) [].
Proof.
  intros I Hkx Hu Hne Hk. unfold splice_links.
  assert (Hkx' : nth_error (words s) kx = Some (r', (a' ++ u) ++ b')) by (rewrite Hkx; now lapp).
  pose proof (inv_decr _ _ _ _ _ _ _ I Hkx') as E1. rewrite E1.
  pose proof (inv_decr _ _ _ _ _ _ _ I Hkx) as E2.
  assert (Ehd : hd (trail r') (u ++ b') = hd (trail r') u) by (destruct u; [congruence|reflexivity]).
  rewrite Ehd in E2. unfold child_decrement. rewrite E2, pivot_pivot.
  destruct (detach_ok h s kx r' a' u b' I Hkx Hu) as (h1 & S1 & I1 & Hseg).
  rewrite (sn_eq _ _ _ _ S1).
  rewrite (inv_decr _ _ _ _ _ _ _ I1 Hk).
  destruct (attach_ok _ _ _ _ _ _ _ I1 Hk Hu Hseg Hne) as (h2 & h3 & S2 & S3 & I3 & _).
  assert (Eh : hd (trail r) u = hd (trail r') u) by (destruct u; [congruence|reflexivity]).
  assert (El : last (a' ++ u) (lead r') = last u (lead r)).
  { destruct u as [|x u]; [congruence|]. now rewrite last_app_cons, last_cons. }
  rewrite Eh in S2. rewrite (sn_eq _ _ _ _ S2), El, (sn_eq _ _ _ _ S3).
  exists h3. split; [reflexivity|exact I3].
Qed.

Lemma splice_same_ok (h : store) s k r a b a' u b' :
  inv h s [] -> nth_error (words s) k = Some (r, a' ++ u ++ b') -> nested u -> u <> [] -> a' ++ b' = a ++ b ->
  hd (trail r) u <> hd (trail r) b ->
  exists h', splice_same h (hd (trail r) b) (hd (trail r) u) (hd (trail r) b') = Some (h', hd (trail r) u) /\
    inv h' (SS (upd (words s) k (r, a ++ u ++ b)) (vals s)) [].
Proof.
  intros I Hk Hu Hne Eab Hfp. unfold splice_same.
  assert (Hfl : hd (trail r) u <> hd (trail r) b').
  { destruct u as [|x u]; [congruence|]. cbn [hd]. eapply pos_neq; eauto. }
  rewrite !iter_eqb_neq by assumption. cbn [orb].
  destruct (splice_links_ok h s k k r a b r a' u b' I Hk Hu Hne) as (h' & E & I').
  - rewrite (nth_upd_same _ _ _ _ Hk), Eab. reflexivity.
  - rewrite upd_upd in I'. eauto.
Qed.

(** what splice does to the cached sizes *)
Lemma fok_unknown r w : fok (F r 0) (r, w).
Proof. split; [reflexivity|]. left; reflexivity. Qed.

Lemma fok_add f r w w' c : fok f (r, w) -> c <> 0 -> node_count w' = node_count w + c ->
  fok (if (negb (size_m f =? 0) || is_nil w)%bool then F (tail f) (size_m f + c) else f) (r, w').
Proof.
  intros (Ht & Hs) Hc Hw. cbn [fst snd] in *. unfold fok; cbn [fst snd].
  destruct (Nat.eqb_spec (size_m f) 0) as [E|E]; cbn [negb orb].
  - destruct w as [|x w]; cbn [is_nil tail size_m]; [split; [exact Ht|]|split; [exact Ht|left; exact E]].
    right. rewrite E, Hw. reflexivity.
  - cbn [tail size_m]. split; [exact Ht|]. right. destruct Hs; lia.
Qed.
Lemma fok_sub f r w w' c : fok f (r, w) -> c <> 0 -> node_count w' + c = node_count w ->
  fok (if (negb (size_m f =? 0) || is_nil w)%bool then F (tail f) (size_m f - c) else f) (r, w').
Proof.
  intros (Ht & Hs) Hc Hw. cbn [fst snd] in *. unfold fok; cbn [fst snd].
  destruct (Nat.eqb_spec (size_m f) 0) as [E|E]; cbn [negb orb].
  - destruct w as [|x w]; [cbn in Hw; lia|]. cbn [is_nil]. auto.
  - cbn [tail size_m]. split; [exact Ht|]. right. destruct Hs; lia.
Qed.

Lemma splice_other_ok (h : store) s k kx f x r a b r' a' u b' count :
  inv h s [] -> k <> kx -> nth_error (words s) k = Some (r, a ++ b) -> nth_error (words s) kx = Some (r', a' ++ u ++ b') ->
  fok f (r, a ++ b) -> fok x (r', a' ++ u ++ b') -> nested u -> (count = 0 \/ count = node_count u) ->
  exists h' f' x', splice_other h f x (hd (trail r) b) (hd (trail r') (u ++ b')) (hd (trail r') b') count
      = Some (h', f', x', hd (trail r) (u ++ b)) /\
    inv h' (SS (upd (upd (words s) k (r, a ++ u ++ b)) kx (r', a' ++ b')) (vals s)) [] /\
    fok f' (r, a ++ u ++ b) /\ fok x' (r', a' ++ b').
Proof.
  intros I Hkk Hk Hkx Hf Hx Hu Hcount. unfold splice_other.
  destruct u as [|i u0] eqn:Eu.
  - cbn [app]. rewrite iter_eqb_refl. cbn [orb]. exists h, f, x. split; [reflexivity|].
    cbn [app] in *. rewrite (upd_self _ _ _ Hk), (upd_self _ _ _ Hkx). split; [destruct s; exact I|]. split; [exact Hf|exact Hx].
  - rewrite <- Eu in *. assert (Hne : u <> []) by (rewrite Eu; discriminate).
    assert (Ehd : forall d q, hd d (u ++ q) = i) by (intros d q; rewrite Eu; reflexivity).
    assert (Ehd0 : forall d, hd d u = i) by (intros d; rewrite Eu; reflexivity).
    rewrite !Ehd.
    assert (N1 : i <> hd (trail r') b') by (rewrite Eu in Hkx; eapply pos_neq; eauto).
    assert (N2 : i <> hd (trail r) b).
    { intros E. apply Hkk. eapply (i_disj _ _ _ I) with (i := i); [exact Hk|exact Hkx| |].
      - rewrite E. apply in_pos_after.
      - apply in_circle. right; left. rewrite Eu, in_app_iff. cbn; auto. }
    rewrite !iter_eqb_neq by assumption. cbn [orb].
    assert (Hsz : exists f' x',
       (if count =? 0 then Some (F (tail f) 0, F (tail x) 0) else
        match size_valid h f with
        | Some vf => match size_valid h x with
                     | Some vx => Some (if vf then F (tail f) (size_m f + count) else f,
                                        if vx then F (tail x) (size_m x - count) else x)
                     | None => None end
        | None => None end) = Some (f', x') /\ fok f' (r, a ++ u ++ b) /\ fok x' (r', a' ++ b')).
    { destruct (Nat.eqb_spec count 0) as [Ec|Ec].
      - eexists _, _. split; [reflexivity|]. rewrite (proj1 Hf), (proj1 Hx). cbn [fst]. split; apply fok_unknown.
      - destruct Hcount as [?|Hc]; [congruence|].
        rewrite (size_valid_ok h s [] k f r _ I Hk (proj1 Hf)), (size_valid_ok h s [] kx x r' _ I Hkx (proj1 Hx)).
        eexists _, _. split; [reflexivity|]. split.
        + apply fok_add; [exact Hf|exact Ec|]. rewrite !node_count_app. lia.
        + apply fok_sub; [exact Hx|exact Ec|]. rewrite !node_count_app. lia. }
    destruct Hsz as (f' & x' & Esz & Hf' & Hx').
    destruct (splice_links_ok h s k kx r a b r' a' u b' I Hkx Hu Hne) as (h' & E & I').
    { rewrite nth_error_upd_other by congruence. exact Hk. }
    rewrite Ehd0 in E.
    exists h', f', x'. split; [|split; [|split; [exact Hf'|exact Hx']]].
    + destruct (count =? 0).
      * injection Esz as <- <-. now rewrite E.
      * destruct (size_valid h f) as [vf|]; [|discriminate]. destruct (size_valid h x) as [vx|]; [|discriminate].
        injection Esz as <- <-. now rewrite E.
    + rewrite upd_comm by congruence. exact I'.
Qed.

(** ** insert_parent *)
Lemma insert_parent_ok (h : store) s k f r a u b v : inv h s [] ->
  nth_error (words s) k = Some (r, a ++ u ++ b) -> fok f (r, a ++ u ++ b) -> nested u ->
  let n := length (vals s) in let w' := a ++ lead n :: u ++ trail n :: b in
  exists h' f', insert_parent h f (hd (trail r) (u ++ b)) (hd (trail r) b) v = Some (h', f', lead n) /\
    inv h' (SS (upd (words s) k (r, w')) (vals s ++ [Some v])) [] /\ fok f' (r, w').
Proof.
  intros I Hk Hf Hu n w'. unfold insert_parent.
  assert (Hk' : nth_error (words s) k = Some (r, (a ++ u) ++ b)) by (rewrite Hk; now lapp).
  destruct (insert_ok h s k f r (a ++ u) b v I Hk') as (h1 & f1 & E & I1 & F1).
  { now rewrite <- app_assoc. }
  fold n in E, I1, F1. rewrite E.
  assert (Hcase : u = [] \/ exists i u0, u = i :: u0) by (destruct u; eauto).
  destruct Hcase as [->|(i & u0 & Eu)].
  - cbn [app]. rewrite iter_eqb_refl. exists h1, f1. split; [reflexivity|]. rewrite app_nil_r in I1, F1. auto.
  - assert (Hne : u <> []) by (rewrite Eu; discriminate).
    assert (Ehd : forall d q, hd d (u ++ q) = i) by (intros d q; rewrite Eu; reflexivity).
    assert (Ehd0 : forall d, hd d u = i) by (intros d; rewrite Eu; reflexivity).
    assert (N1 : i <> hd (trail r) b) by (rewrite Eu in Hk; exact (pos_neq _ _ _ _ _ _ _ _ _ I Hk)).
    rewrite Ehd, iter_eqb_neq by exact N1.
    set (s1 := SS (upd (words s) k (r, (a ++ u) ++ lead n :: trail n :: b)) (vals s ++ [Some v])) in *.
    assert (Hk1 : nth_error (words s1) k = Some (r, a ++ u ++ lead n :: trail n :: b)).
    { unfold s1; cbn [words]. rewrite (nth_upd_same _ _ _ _ Hk). now lapp. }
    destruct (splice_same_ok h1 s1 k r (a ++ [lead n]) (trail n :: b) a u (lead n :: trail n :: b) I1 Hk1 Hu Hne)
      as (h2 & E2 & I2); [now lapp| |].
    + rewrite Ehd0. cbn [hd]. rewrite Eu in Hk1.
      replace (a ++ (i :: u0) ++ lead n :: trail n :: b) with (a ++ i :: (u0 ++ [lead n]) ++ (trail n :: b)) in Hk1 by now lapp.
      exact (pos_neq _ _ _ _ _ _ _ _ _ I1 Hk1).
    + cbn [hd] in E2. rewrite Ehd0 in E2. change (trailing_of (lead n)) with (trail n). rewrite E2.
      exists h2, f1. split; [reflexivity|]. unfold s1 in I2; cbn [words vals] in I2. rewrite upd_upd in I2.
      replace ((a ++ [lead n]) ++ u ++ trail n :: b) with w' in I2 by (unfold w'; now lapp).
      split; [exact I2|]. destruct F1 as (Ht & Hs). split; [exact Ht|]. cbn [snd] in *.
      destruct Hs as [Hs|Hs]; [auto|right]. rewrite Hs. unfold w'.
      change (lead n :: u ++ trail n :: b) with ([lead n] ++ u ++ [trail n] ++ b).
      change (lead n :: trail n :: b) with ([lead n] ++ [trail n] ++ b). rewrite !node_count_app. lia.
Qed.

End Ops2.
