From Coq Require Import Permutation.
From Verif Require Import Prelude ClosedHash_Model ClosedHash_Proofs ClosedHash_Inv ClosedHash_Ops ClosedHash_Spec.
Local Open Scope nat_scope.
Ltac Zify.zify_post_hook ::= idtac.

Lemma perm_filter {A} (f : A -> bool) l l' : Permutation l l' -> Permutation (filter f l) (filter f l').
Proof.
  induction 1 as [|x l l' _ IH|x y l|l l' l'' _ IH1 _ IH2]; cbn.
  - constructor.
  - destruct (f x); [constructor|]; exact IH.
  - destruct (f x), (f y); try apply perm_swap; apply Permutation_refl.
  - eapply Permutation_trans; eassumption.
Qed.
Lemma map_id_in {A} (f : A -> A) l : (forall x, In x l -> f x = x) -> map f l = l.
Proof. intros H. rewrite <- (map_id l) at 2. apply map_ext_in. exact H. Qed.

Section Top.
Context {V K : Type} (key : V -> K) (hash : K -> nat) (key_eq : K -> K -> bool).
Hypothesis req : hash_requirements key_eq hash.
Set Default Proof Using "All".
Let eq_refl' := req_refl _ _ req.
Let eq_sym := req_sym _ _ req.
Let eq_trans := req_trans _ _ req.
Let eq_hash := req_hash _ _ req.
Notation table := (@table V).
Implicit Types t : table.
Notation bucket := (bucket (V:=V) hash).
Notation Inv := (Inv key hash).
Notation lookup := (lookup key key_eq).
Notation put := (put key key_eq).
Notation remove := (remove key key_eq).
Notation distinct := (distinct key key_eq).

Lemma key_eq_left a b c : key_eq a b = true -> key_eq a c = key_eq b c.
Proof.
  intros H. destruct (key_eq a c) eqn:E1, (key_eq b c) eqn:E2; auto.
  - rewrite <- E2. symmetry. apply (eq_trans b a c); [now rewrite eq_sym|exact E1].
  - rewrite <- E1. apply (eq_trans a b c); assumption.
Qed.

(** ** The specification respects permutation *)
Lemma distinct_perm l l' : Permutation l l' -> distinct l -> distinct l'.
Proof.
  induction 1 as [|x l l' P IH|x y l|l l' l'' _ IH1 _ IH2]; cbn.
  - auto.
  - intros [H1 H2]. split; [|auto]. intros b Hb. apply H1. apply (Permutation_in _ (Permutation_sym P) Hb).
  - intros (H1 & H2 & H3). split; [|split; [|exact H3]].
    + intros b [<-|Hb]; [rewrite eq_sym; apply H1; now left|auto].
    + intros b Hb. apply H1. now right.
  - auto.
Qed.
Lemma distinct_app l1 : forall l2, distinct (l1 ++ l2) <->
  distinct l1 /\ distinct l2 /\ (forall a b, In a l1 -> In b l2 -> key_eq (key a) (key b) = false).
Proof.
  induction l1 as [|x l1 IH]; intros l2; cbn [app ClosedHash_Spec.distinct].
  - split; [intros H; repeat split; auto; intros a b []|tauto].
  - rewrite IH. split.
    + intros (H1 & H2 & H3 & H4). split; [|split; [exact H3|]].
      * split; [|exact H2]. intros b Hb. apply H1, in_app_iff. auto.
      * intros a b [<-|Ha] Hb; [apply H1, in_app_iff; auto|auto].
    + intros ((H1 & H2) & H3 & H4). split; [|split; [exact H2|split; [exact H3|]]].
      * intros b Hb. apply in_app_iff in Hb as [Hb|Hb]; [auto|apply H4; [now left|exact Hb]].
      * intros a b Ha. apply H4. now right.
Qed.
Lemma lookup_some k l v : lookup k l = Some v -> In v l /\ key_eq k (key v) = true.
Proof. intros H. apply find_some in H. exact H. Qed.
Lemma lookup_none k l : lookup k l = None <-> forall v, In v l -> key_eq k (key v) = false.
Proof.
  split; [intros H v Hv; apply (find_none _ _ H v Hv)|]. apply (list_find_none (fun v => key_eq k (key v))).
Qed.
Lemma lookup_unique k l v : distinct l -> In v l -> key_eq k (key v) = true -> lookup k l = Some v.
Proof.
  induction l as [|a l IH]; [intros _ []|]. intros [H1 H2] [->|Hin] Hk; cbn.
  - now rewrite Hk.
  - destruct (key_eq k (key a)) eqn:E.
    + exfalso. specialize (H1 v Hin). rewrite <- (key_eq_left k) in H1; [congruence|exact E].
    + apply IH; auto.
Qed.
Lemma lookup_perm k l l' : Permutation l l' -> distinct l -> lookup k l = lookup k l'.
Proof.
  intros P D. destruct (lookup k l) as [v|] eqn:E.
  - apply lookup_some in E as [H1 H2]. symmetry. apply lookup_unique; [eapply distinct_perm; eassumption| |exact H2].
    apply (Permutation_in _ P H1).
  - symmetry. apply lookup_none. intros v Hv. pose proof (proj1 (lookup_none k l) E) as H. apply H. apply (Permutation_in _ (Permutation_sym P) Hv).
Qed.
Lemma put_perm x l l' : Permutation l l' -> distinct l -> Permutation (put x l) (put x l').
Proof.
  intros P D. unfold ClosedHash_Spec.put. rewrite (lookup_perm _ _ _ P D). destruct (is_none _).
  - now constructor.
  - now apply Permutation_map.
Qed.
Lemma put_distinct x l : distinct l -> distinct (put x l).
Proof.
  intros D. unfold ClosedHash_Spec.put. destruct (lookup (key x) l) as [v|] eqn:E; cbn [is_none].
  - clear E. induction l as [|a l IH]; [exact I|]. destruct D as [H1 H2]. cbn [map ClosedHash_Spec.distinct]. split; [|apply IH, H2].
    intros b Hb. apply in_map_iff in Hb as (c & <- & Hc). specialize (H1 c Hc).
    destruct (key_eq (key x) (key a)) eqn:Ea, (key_eq (key x) (key c)) eqn:Ec.
    + exfalso. rewrite (key_eq_left _ _ _ Ea) in Ec. congruence.
    + exact Ec.
    + rewrite eq_sym. exact Ea.
    + exact H1.
  - cbn. split; [|exact D]. intros b Hb. apply (proj1 (lookup_none _ _) E b Hb).
Qed.
Lemma remove_distinct k l : distinct l -> distinct (remove k l).
Proof.
  induction l as [|a l IH]; intros D; [exact I|]. destruct D as [H1 H2]. cbn. destruct (negb _); [|apply IH, H2].
  cbn. split; [|apply IH, H2]. intros b Hb. apply H1. unfold ClosedHash_Spec.remove in Hb. apply filter_In in Hb as [Hb _]. exact Hb.
Qed.
Lemma put_length x l : length (put x l) <= S (length l).
Proof. unfold ClosedHash_Spec.put. destruct (is_none _); cbn; [|rewrite map_length]; lia. Qed.
Lemma remove_length k l : length (remove k l) <= length l.
Proof. unfold ClosedHash_Spec.remove. induction l as [|a l IH]; cbn; [lia|]. destruct (negb _); cbn; lia. Qed.

(** ** Representation *)
Definition Rep t (vs : list V) : Prop := exists gs free, Inv t gs free /\ map (val t) (flat gs) = map Some vs.

Lemma rep_size t vs : Rep t vs -> size t = length vs.
Proof. intros (gs & free & I & M). rewrite (inv_size _ _ _ _ _ I). apply (map_some_length _ _ _ M). Qed.
Lemma rep_le t vs : Rep t vs -> size t <= capacity t.
Proof. intros (gs & free & I & M). rewrite (inv_size _ _ _ _ _ I). pose proof (inv_count _ _ _ _ _ I). lia. Qed.

Lemma matches_lookup t k l vs : map (val t) l = map Some vs ->
  match List.find (matches key key_eq t k) l with Some r => val t r | None => None end = lookup k vs.
Proof.
  revert vs. induction l as [|r l IH]; intros [|v vs] M; try discriminate; [reflexivity|].
  cbn [map] in M. injection M as M1 M2. cbn. unfold matches at 1. rewrite M1. destruct (key_eq k (key v)); [exact M1|].
  apply IH, M2.
Qed.
Lemma matches_none t k l vs : map (val t) l = map Some vs -> List.find (matches key key_eq t k) l = None <-> lookup k vs = None.
Proof.
  revert vs. induction l as [|r l IH]; intros [|v vs] M; try discriminate; [tauto|].
  cbn [map] in M. injection M as M1 M2. cbn. unfold matches at 1. rewrite M1. destruct (key_eq k (key v)); [split; discriminate|].
  apply IH, M2.
Qed.

Lemma insert_home_rep t gs f1 node f2 x vs : Inv t gs (f1 ++ node :: f2) -> map (val t) (flat gs) = map Some vs ->
  bucket t (key x) = node ->
  exists t', insert_home t node x = Some (t', (node, true)) /\ Rep t' (x :: vs) /\ val t' node = Some x /\ capacity t' = capacity t.
Proof.
  intros I M Hb. destruct (insert_home_spec key hash t gs f1 node f2 x I Hb) as (t' & H1 & H2 & H3 & H4).
  exists t'. split; [exact H1|]. split; [|split; [rewrite H3; apply set_ref_same|exact H4]].
  exists ((node, []) :: gs), (f1 ++ f2). split; [exact H2|]. rewrite flat_cons. cbn [app map]. rewrite H3, set_ref_same. f_equal.
  rewrite map_set_ref; [exact M|]. intros Hin. apply (inv_disj _ _ _ _ _ _ I Hin). apply in_app_iff. right. now left.
Qed.

Lemma insert_core_rep t vs x : Rep t vs -> distinct vs -> size t < capacity t ->
  exists t' r b vs', insert_core key hash key_eq t x = Some (t', (r, b)) /\ Rep t' vs' /\ Permutation vs' (put x vs) /\
    val t' r = Some x /\ b = is_none (lookup (key x) vs) /\ capacity t' = capacity t.
Proof.
  intros (gs & free & I & M) D Hlt. unfold insert_core. set (node := bucket t (key x)).
  pose proof (inv_count _ _ _ _ _ I) as Hc. rewrite (inv_size _ _ _ _ _ I) in Hlt.
  destruct (st t node) eqn:Es.
  - (* free *)
    assert (Hn : lookup (key x) vs = None).
    { apply (matches_none t _ _ _ M). apply (no_home_none key hash key_eq eq_hash t gs free); [exact I|]. fold node. congruence. }
    destruct (bucket_in key hash t gs free (key x) I) as [Hin|Hin]; fold node in Hin.
    { destruct (good_used_st _ _ _ _ _ (inv_good _ _ _ _ _ I) Hin); congruence. }
    apply in_split in Hin as (f1 & f2 & ->).
    destruct (insert_home_rep t gs f1 node f2 x vs I M eq_refl) as (t' & H1 & H2 & H3 & H4).
    exists t', node, true, (x :: vs). rewrite Hn. repeat split; auto. unfold ClosedHash_Spec.put. rewrite Hn. cbn. apply Permutation_refl.
  - (* home *)
    destruct (home_group key hash t gs free (key x) I Es) as (g1 & ms & g2 & Eg & G1). fold node in Eg, G1.
    rewrite (find_group key hash key_eq eq_hash t gs free g1 node ms g2 (key x) I Eg eq_refl).
    destruct (List.find (matches key key_eq t (key x)) (flat gs)) as [r|] eqn:Ef.
    + destruct (list_find_split _ _ _ Ef) as (l1 & l2 & El & Hm & Hl1).
      assert (Hrin : In r (flat gs)) by (rewrite El, in_app_iff; right; now left).
      rewrite ref_eqb_neq by (apply (inv_notail _ _ _ _ _ r I), in_app_iff; now left). cbn [negb].
      pose proof M as M'. rewrite El in M'. apply map_some_split in M' as (v1 & v & v2 & -> & M1 & Mr & M2).
      rewrite Mr. unfold matches in Hm. rewrite Mr in Hm.
      exists (set_val t r (Some x)), r, false, (v1 ++ x :: v2).
      assert (Nr : ~ In r l1 /\ ~ In r l2).
      { pose proof (inv_nodup _ _ _ _ _ I) as Hnd. apply nodup_app in Hnd as (Nu & _ & _). rewrite El in Nu.
        apply NoDup_remove_2 in Nu. rewrite in_app_iff in Nu. tauto. }
      split; [reflexivity|].
      assert (Hlk : lookup (key x) (v1 ++ v :: v2) <> None).
      { rewrite <- (matches_none t (key x) (flat gs)); [congruence|]. rewrite El, !map_app. cbn [map]. now rewrite M1, Mr, M2. }
      split; [|split; [|split; [apply set_ref_same|split; [|reflexivity]]]].
      * exists gs, free. split.
        -- apply (inv_set_val key hash t gs free r v x I Hrin Mr). unfold ClosedHash_Model.bucket. now rewrite (eq_hash _ _ Hm).
        -- rewrite El, !map_app. cbn [map]. change (val (set_val t r (Some x))) with (set_ref (val t) r (Some x)).
           rewrite set_ref_same, !map_set_ref by tauto. now rewrite M1, M2.
      * unfold ClosedHash_Spec.put. destruct (lookup (key x) (v1 ++ v :: v2)) eqn:E; [|congruence]. cbn [is_none].
        rewrite map_app. cbn [map]. rewrite Hm. rewrite !map_id_in; [apply Permutation_refl| |].
        -- intros w Hw. apply distinct_app in D as (_ & D & _). destruct D as [D _]. specialize (D w Hw).
           rewrite (key_eq_left _ _ _ Hm), D. reflexivity.
        -- intros w Hw. destruct (key_eq (key x) (key w)) eqn:Ew; [|reflexivity]. exfalso.
           assert (Hw' : In (Some w) (map (val t) l1)) by (rewrite M1; apply in_map, Hw).
           apply in_map_iff in Hw' as (r' & Hr' & Hin). specialize (Hl1 r' Hin). unfold matches in Hl1. rewrite Hr' in Hl1. congruence.
      * destruct (lookup (key x) (v1 ++ v :: v2)); [reflexivity|congruence].
    + cbn [ref_eqb negb]. destruct free as [|f fs]; [cbn in Hc; lia|]. rewrite (free_head key hash t gs f fs I).
      assert (Hn : lookup (key x) vs = None) by (apply (matches_none t _ _ _ M), Ef).
      subst gs. destruct (insert_chain_spec key hash t g1 node ms g2 f fs x I eq_refl) as (t1 & H1 & H2 & H3 & H4).
      rewrite flat_app, flat_cons in M. cbn [app] in M. apply map_some_split in M as (v1 & v & v2 & -> & M1 & Mr & M2).
      rewrite H1. eexists _, f, true, (v1 ++ v :: x :: v2). split; [reflexivity|].
      assert (Hnf : ~ In f (flat (g1 ++ (node, ms) :: g2))). { intros H. apply (inv_disj _ _ _ _ _ _ I H). now left. }
      rewrite flat_app, flat_cons, in_app_iff in Hnf. cbn [app In] in Hnf.
      split; [|split; [|split; [|split; [|exact H4]]]].
      * exists (g1 ++ (node, f :: ms) :: g2), fs. split; [exact H2|]. rewrite H3.
        rewrite flat_app, flat_cons. cbn [app]. rewrite map_app. cbn [map]. rewrite set_ref_same, set_ref_other by (intros E; apply Hnf; auto).
        rewrite !map_set_ref by tauto. rewrite M1, Mr, M2.
        rewrite map_app. reflexivity.
      * unfold ClosedHash_Spec.put. rewrite Hn. cbn [is_none]. rewrite (Permutation_middle v1 (v :: v2) x).
        apply Permutation_app_head. apply perm_swap.
      * rewrite H3. apply set_ref_same.
      * now rewrite Hn.
  - (* misplaced *)
    assert (Hn : lookup (key x) vs = None).
    { apply (matches_none t _ _ _ M). apply (no_home_none key hash key_eq eq_hash t gs free); [exact I|]. fold node. congruence. }
    destruct (bucket_in key hash t gs free (key x) I) as [Hin|Hin]; fold node in Hin.
    2: { apply (inv_freest _ _ _ _ _ I) in Hin as [Hin _]. congruence. }
    destruct (good_mis _ _ _ _ _ (inv_good _ _ _ _ _ I) Hin Es) as (g1 & b & m1 & m2 & g2 & Eg & G1). subst gs.
    destruct free as [|f fs]; [cbn in Hc; lia|]. rewrite (free_head key hash t _ f fs I).
    assert (El : flat (g1 ++ (b, m1 ++ node :: m2) :: g2) = (flat g1 ++ b :: m1) ++ node :: (m2 ++ flat g2)).
    { rewrite flat_app, flat_cons. rewrite <- !app_assoc. cbn. rewrite <- app_assoc. reflexivity. }
    pose proof M as M'. rewrite El in M'. apply map_some_split in M' as (v1 & v & v2 & -> & M1 & Mr & M2).
    destruct (relocate_spec key hash t g1 b m1 node m2 g2 f fs v I Mr) as (t1 & t4 & H1 & H2 & H3 & H4 & H5).
    rewrite Mr, H1. cbv zeta in H2. rewrite H2.
    assert (M4 : map (val t4) (flat (g1 ++ (b, m1 ++ f :: m2) :: g2)) = map Some (v1 ++ v :: v2)).
    { assert (El' : flat (g1 ++ (b, m1 ++ f :: m2) :: g2) = (flat g1 ++ b :: m1) ++ f :: (m2 ++ flat g2)).
      { rewrite flat_app, flat_cons. rewrite <- !app_assoc. cbn. rewrite <- app_assoc. reflexivity. }
      assert (Hnf : ~ In f (flat (g1 ++ (b, m1 ++ node :: m2) :: g2))). { intros H. apply (inv_disj _ _ _ _ _ _ I H). now left. }
      pose proof (inv_nodup _ _ _ _ _ I) as Hnd. apply nodup_app in Hnd as (Nu & _ & _). rewrite El in Nu, Hnf.
      apply NoDup_remove_2 in Nu. rewrite in_app_iff in Nu. rewrite in_app_iff in Hnf. cbn [In] in Hnf.
      rewrite El', H5. rewrite (map_app _ (flat g1 ++ b :: m1)), (map_app _ v1). cbn [map]. rewrite (set_ref_other _ node None f) by (intros E; apply Hnf; auto). rewrite set_ref_same.
      rewrite !(map_set_ref _ node) by tauto. rewrite !(map_set_ref _ f) by tauto. rewrite M1, M2. reflexivity. }
    assert (Hb4 : bucket t4 (key x) = node) by (unfold node, ClosedHash_Model.bucket; now rewrite H4).
    destruct (insert_home_rep t4 _ [] node fs x (v1 ++ v :: v2) H3 M4 Hb4) as (t' & K1 & K2 & K3 & K4).
    exists t', node, true, (x :: v1 ++ v :: v2). rewrite Hn. repeat split; auto; [|congruence].
    unfold ClosedHash_Spec.put. rewrite Hn. cbn [is_none]. apply Permutation_refl.
Qed.

(** ** Iteration *)
Lemma walk_spec t : forall l a vs fuel, path t a l UsedTail -> ~ In UsedTail l -> map (val t) l = map Some vs -> length l <= fuel ->
  walk fuel t (next t a) = Some vs.
Proof.
  induction l as [|r l IH]; intros a [|v vs] fuel Hp Hn M Hf; try discriminate; cbn [path] in Hp.
  - destruct Hp as [-> _]. destruct fuel; reflexivity.
  - destruct Hp as (-> & _ & Hp). destruct fuel as [|fuel]; [cbn in Hf; lia|]. cbn [walk].
    rewrite ref_eqb_neq by (intros ->; apply Hn; now left). cbn [map] in M. injection M as M1 M2. rewrite M1.
    rewrite (IH r vs fuel Hp); [reflexivity| |exact M2|cbn in Hf; lia]. intros H. apply Hn. now right.
Qed.
Lemma elements_rep t vs : Rep t vs -> elements (Some t) = Some vs.
Proof.
  intros (gs & free & I & M). cbn. destruct (inv_used _ _ _ _ _ I) as [Hp Hn]. apply (walk_spec t (flat gs) UsedTail); auto.
  - apply NoDup_cons_iff in Hn. tauto.
  - pose proof (inv_count _ _ _ _ _ I). lia.
Qed.
Lemma walk_back_spec t l : path t UsedTail l UsedTail -> NoDup (UsedTail :: l) ->
  forall l1 l2 vs fuel, l = l1 ++ l2 -> map (val t) l1 = map Some vs -> length l1 <= fuel ->
  walk_back fuel t (hd UsedTail l2) = Some (rev vs).
Proof.
  intros Hp Hn l1. induction l1 as [|r l1 IH] using rev_ind; intros l2 vs fuel El M Hf.
  - destruct vs; [|discriminate]. cbn [app] in El. subst l2.
    assert (E : next t UsedTail = hd UsedTail l) by (destruct l; cbn in Hp |- *; tauto). destruct fuel; cbn; rewrite E, ref_eqb_refl; reflexivity.
  - rewrite app_length in Hf. cbn in Hf. destruct fuel as [|fuel]; [lia|]. cbn [walk_back].
    assert (Eb : next t UsedTail = hd UsedTail l) by (destruct l; cbn in Hp |- *; tauto).
    rewrite <- app_assoc in El. cbn [app] in El.
    assert (Hne : hd UsedTail l2 <> next t UsedTail).
    { rewrite Eb. intros E.
      assert (Hl : hd UsedTail l <> UsedTail /\ ~ In (hd UsedTail l) (tl l)).
      { apply NoDup_cons_iff in Hn as [H1 H2]. rewrite El in *. destruct l1 as [|y l1]; cbn [app hd tl] in *.
        - split; [intros ->; apply H1; now left|]. apply NoDup_cons_iff in H2; tauto.
        - split; [intros ->; apply H1; now left|]. apply NoDup_cons_iff in H2; tauto. }
      destruct l2 as [|z l2]; cbn [hd] in E; [apply (proj1 Hl); auto|]. apply (proj2 Hl). rewrite <- E. rewrite El.
      destruct l1 as [|y l1]; cbn; [now left|]. apply in_app_iff. right. right. now left. }
    rewrite ref_eqb_neq by exact Hne.
    assert (Ep : prior t (hd UsedTail l2) = r).
    { rewrite El in Hp. apply path_app in Hp as [_ Hp]. destruct l2 as [|z l2]; cbn in Hp |- *; tauto. }
    rewrite Ep. rewrite map_app in M. symmetry in M. apply map_eq_app in M as (v1 & v2 & -> & M1 & M2).
    cbn [map] in M2. destruct v2 as [|v [|]]; try discriminate. cbn [map] in M2. injection M2 as M2. rewrite <- M2.
    change r with (hd UsedTail (r :: l2)) at 1. rewrite (IH (r :: l2) v1 fuel); [|exact El|symmetry; exact M1|lia]. rewrite rev_app_distr. reflexivity.
Qed.
Lemma elements_back_rep t vs : Rep t vs -> elements_back (Some t) = Some (rev vs).
Proof.
  intros (gs & free & I & M). cbn. destruct (inv_used _ _ _ _ _ I) as [Hp Hn].
  apply (walk_back_spec t (flat gs) Hp Hn (flat gs) []); [now rewrite app_nil_r|exact M|].
  pose proof (inv_count _ _ _ _ _ I). lia.
Qed.

(** ** Allocation *)
Definition limit : N := 2874713497.
Lemma prime_for_ok n : (N.of_nat n <= limit)%N -> exists m, prime_for n = Some m /\ n <= m /\ 0 < m.
Proof.
  intros H. unfold prime_for. destruct (List.find _ _) as [p|] eqn:E.
  - apply find_some in E as [Hin Hp]. exists (N.to_nat p). split; [reflexivity|].
    apply N.leb_le in Hp. assert (0 < p)%N; [|lia]. clear -Hin. cbn in Hin.
    repeat (destruct Hin as [<-|Hin]; [reflexivity|]). destruct Hin.
  - exfalso. apply find_none with (x := limit) in E; [apply N.leb_gt in E; lia|]. repeat (first [left; reflexivity|right]).
Qed.
Lemma allocate_rep n : (N.of_nat n <= limit)%N -> 0 < n ->
  exists t, allocate (V:=V) n = Some (Some t) /\ Rep t [] /\ n <= capacity t.
Proof.
  intros Hl Hn. unfold allocate. destruct (Nat.eqb_spec n 0) as [->|_]; [lia|].
  destruct (prime_for_ok n Hl) as (m & -> & Hm & Hm0). destruct m as [|m]; [lia|].
  eexists. split; [reflexivity|]. cbn [link_free].
  set (t0 := Table (S m) 0 self self (fun _ => state_free) (fun _ => None)).
  destruct (link_free_spec m (set_next t0 FreeTail (Slot 0)) (Slot 0) 1) as (I1 & I2 & I3 & I4 & I5 & I6 & I7).
  { exists 0. auto. }
  set (t := link_free (set_next t0 FreeTail (Slot 0)) (Slot 0) 1 m) in *.
  split; [|rewrite I4; exact Hm].
  exists [], (map Slot (seq 0 (S m))). split; [|reflexivity].
  constructor.
  - rewrite I4. cbn. lia.
  - split; [|repeat constructor; intros []]. cbn. rewrite I2, I3; try discriminate. auto.
  - split.
    + cbn [seq map path]. split; [|split; [|exact I1]].
      * rewrite I2; [reflexivity|discriminate|discriminate].
      * rewrite I3; [reflexivity|discriminate|]. intros i [= <-]. lia.
    + constructor; [intros H; apply in_map_iff in H as (i & H & _); discriminate|].
      apply FinFun.Injective_map_NoDup; [intros a b [= ->]; reflexivity|apply seq_NoDup].
  - rewrite I4. apply Permutation_refl.
  - rewrite I5. reflexivity.
  - intros r _. rewrite I6, I7. auto.
  - rewrite I6. reflexivity.
  - constructor.
Qed.

(** ** Sets *)
Definition SRep (s : @hset V) (vs : list V) : Prop := match s with None => vs = [] | Some t => Rep t vs end.
Lemma srep_size s vs : SRep s vs -> size_of s = length vs.
Proof. destruct s as [t|]; cbn; [apply rep_size|intros ->; reflexivity]. Qed.
Lemma srep_le s vs : SRep s vs -> size_of s <= capacity_of s.
Proof. destruct s as [t|]; cbn; [apply rep_le|lia]. Qed.
Lemma srep_elements s vs : SRep s vs -> elements s = Some vs.
Proof. destruct s as [t|]; [apply elements_rep|intros ->; reflexivity]. Qed.
Lemma srep_elements_back s vs : SRep s vs -> elements_back s = Some (rev vs).
Proof. destruct s as [t|]; [apply elements_back_rep|intros ->; reflexivity]. Qed.

Notation insert_with := (insert_with key hash key_eq).
Notation insert_list := (insert_list key hash key_eq).
Notation reserve := (reserve key hash key_eq).

(** inserting with room to spare, whatever [grow] is *)
Lemma insert_room grow s vs x : SRep s vs -> distinct vs -> size_of s < capacity_of s ->
  exists s' r b vs', insert_with grow s x = Some (s', (r, b)) /\ SRep s' vs' /\ Permutation vs' (put x vs) /\
    deref s' r = Some x /\ b = is_none (lookup (key x) vs) /\ capacity_of s' = capacity_of s.
Proof.
  intros R D Hlt. unfold ClosedHash_Model.insert_with. destruct (Nat.eqb_spec (capacity_of s) (size_of s)) as [E|_]; [lia|].
  destruct s as [t|]; [|cbn in Hlt; lia]. destruct (insert_core_rep t vs x R D Hlt) as (t' & r & b & vs' & H1 & H2 & H3 & H4 & H5 & H6).
  rewrite H1. exists (Some t'), r, b, vs'. repeat split; auto.
Qed.
Lemma insert_list_room grow l : forall s vs, SRep s vs -> distinct (l ++ vs) -> size_of s + length l <= capacity_of s ->
  exists s' vs', insert_list grow s l = Some s' /\ SRep s' vs' /\ Permutation vs' (l ++ vs) /\ capacity_of s' = capacity_of s.
Proof.
  induction l as [|x l IH]; intros s vs R D Hlt.
  - exists s, vs. cbn. auto.
  - cbn [length] in Hlt. destruct D as [D1 D2].
    assert (Dv : distinct vs) by (apply distinct_app in D2; tauto).
    destruct (insert_room grow s vs x R Dv) as (s1 & r & b & vs1 & H1 & H2 & H3 & _ & _ & H6); [lia|].
    assert (E : lookup (key x) vs = None) by (apply lookup_none; intros v Hv; apply D1, in_app_iff; auto).
    unfold ClosedHash_Spec.put in H3. rewrite E in H3. cbn [is_none] in H3.
    assert (P : Permutation (l ++ vs1) (x :: l ++ vs)).
    { rewrite H3. symmetry. apply Permutation_middle. }
    destruct (IH s1 vs1 H2) as (s' & vs' & K1 & K2 & K3 & K4).
    + eapply distinct_perm; [symmetry; exact P|]. cbn. auto.
    + rewrite (srep_size _ _ H2), (Permutation_length H3), H6. cbn. rewrite (srep_size _ _ R) in Hlt. lia.
    + exists s', vs'. cbn [ClosedHash_Model.insert_list]. rewrite H1. cbn [fst]. split; [exact K1|]. split; [exact K2|].
      split; [|congruence]. rewrite K3. exact P.
Qed.

Lemma reserve_rep s vs n : SRep s vs -> distinct vs -> (N.of_nat n <= limit)%N ->
  exists s' vs', reserve s n = Some s' /\ SRep s' vs' /\ Permutation vs' vs /\ n <= capacity_of s'.
Proof.
  intros R D Hl. unfold ClosedHash_Model.reserve. destruct (Nat.leb_spec n (capacity_of s)) as [H|H].
  - exists s, vs. auto.
  - destruct (allocate_rep n Hl) as (t & E & Rt & Hc); [lia|]. destruct s as [t0|].
    + rewrite (srep_elements _ _ R), E. pose proof (srep_le _ _ R) as Hle. rewrite (srep_size _ _ R) in Hle.
      destruct (insert_list_room no_grow vs (Some t) [] Rt) as (s' & vs' & K1 & K2 & K3 & K4).
      * now rewrite app_nil_r.
      * rewrite (srep_size (Some t) [] Rt). cbn [capacity_of length] in *. lia.
      * exists s', vs'. rewrite app_nil_r in K3. rewrite K4. repeat split; auto.
    + cbn in R. subst vs. exists (Some t), []. repeat split; auto.
Qed.

Lemma insert_rep s vs x : SRep s vs -> distinct vs -> (N.of_nat (length vs) <= 1437356748)%N ->
  exists s' r b vs', insert key hash key_eq s x = Some (s', (r, b)) /\ SRep s' vs' /\ Permutation vs' (put x vs) /\
    deref s' r = Some x /\ b = is_none (lookup (key x) vs).
Proof.
  intros R D Hl. unfold insert. pose proof (srep_le _ _ R) as Hle. pose proof (srep_size _ _ R) as Hs.
  destruct (Nat.eq_dec (capacity_of s) (size_of s)) as [E|E].
  - set (n := if negb (size_of s =? 0) then 2 * size_of s else 3).
    assert (Hn : size_of s < n) by (unfold n; destruct (Nat.eqb_spec (size_of s) 0); cbn [negb]; lia).
    assert (Hnl : (N.of_nat n <= limit)%N).
    { unfold n, limit. destruct (Nat.eqb_spec (size_of s) 0); cbn [negb]; lia. }
    destruct (reserve_rep s vs n R D Hnl) as (s1 & vs1 & H1 & H2 & H3 & H4).
    assert (D1 : distinct vs1) by (eapply distinct_perm; [symmetry; exact H3|exact D]).
    destruct (insert_room reserve s1 vs1 x H2 D1) as (s' & r & b & vs' & K1 & K2 & K3 & K4 & K5 & _).
    { rewrite (srep_size _ _ H2), (Permutation_length H3). lia. }
    exists s', r, b, vs'. split.
    + unfold ClosedHash_Model.insert_with. rewrite (proj2 (Nat.eqb_eq _ _) E). fold n. rewrite H1.
      unfold ClosedHash_Model.insert_with in K1. destruct (Nat.eqb_spec (capacity_of s1) (size_of s1)) as [E1|_]; [|exact K1].
      exfalso. rewrite (srep_size _ _ H2), (Permutation_length H3) in E1. lia.
    + split; [exact K2|]. split; [rewrite K3; apply put_perm; auto|]. split; [exact K4|]. rewrite K5.
      f_equal. apply lookup_perm; auto.
  - destruct (insert_room reserve s vs x R D) as (s' & r & b & vs' & K1 & K2 & K3 & K4 & K5 & _); [lia|].
    exists s', r, b, vs'. auto.
Qed.

Lemma fold_put_perm l : forall a b, Permutation a b -> distinct a ->
  Permutation (fold_left (fun l x => put x l) l a) (fold_left (fun l x => put x l) l b).
Proof.
  induction l as [|y l IH]; intros a b P Da; cbn; [exact P|]. apply IH; [apply put_perm; auto|apply put_distinct, Da].
Qed.
Lemma insert_range_rep l : forall s vs, SRep s vs -> distinct vs -> (N.of_nat (length vs + length l) <= 1437356748)%N ->
  exists s' vs', insert_range key hash key_eq s l = Some s' /\ SRep s' vs' /\
    Permutation vs' (fold_left (fun l x => put x l) l vs).
Proof.
  unfold insert_range. induction l as [|x l IH]; intros s vs R D Hl.
  - exists s, vs. cbn. auto.
  - cbn [length] in Hl. destruct (insert_rep s vs x R D) as (s1 & r & b & vs1 & H1 & H2 & H3 & _ & _); [lia|].
    assert (D1 : distinct vs1) by (eapply distinct_perm; [symmetry; exact H3|apply put_distinct, D]).
    destruct (IH s1 vs1 H2 D1) as (s' & vs' & K1 & K2 & K3).
    + pose proof (put_length x vs). rewrite (Permutation_length H3). lia.
    + exists s', vs'. cbn [ClosedHash_Model.insert_list fold_left]. unfold insert in H1. rewrite H1. cbn [fst].
      split; [exact K1|]. split; [exact K2|]. rewrite K3. apply fold_put_perm; auto.
Qed.

Lemma copy_rep s vs : SRep s vs -> distinct vs -> (N.of_nat (length vs) <= limit)%N ->
  exists s' vs', copy key hash key_eq s = Some s' /\ SRep s' vs' /\ Permutation vs' vs.
Proof.
  intros R D Hl. unfold copy. rewrite (srep_elements _ _ R), (srep_size _ _ R). destruct vs as [|v vs].
  - exists None, []. cbn. auto.
  - destruct (allocate_rep (length (v :: vs)) Hl) as (t & E & Rt & Hc); [cbn; lia|].
    rewrite E. destruct (insert_list_room reserve (v :: vs) (Some t) [] Rt) as (s' & vs' & K1 & K2 & K3 & K4).
    + now rewrite app_nil_r.
    + rewrite (srep_size (Some t) [] Rt). cbn [capacity_of length] in *. lia.
    + exists s', vs'. rewrite app_nil_r in K3. repeat split; auto.
Qed.

(** ** Lookup *)
Lemma find_rep s vs k : SRep s vs -> exists r, find key hash key_eq s k = Some r /\
  match r with None => lookup k vs = None | Some r => deref s r = lookup k vs /\ lookup k vs <> None end.
Proof.
  destruct s as [t|]; cbn [SRep].
  - intros (gs & free & I & M). unfold find. rewrite (find_node_spec key hash key_eq eq_hash t gs free k I).
    eexists. split; [reflexivity|]. pose proof (matches_lookup t k _ _ M) as H. pose proof (matches_none t k _ _ M) as H0.
    destruct (List.find _ _) as [r|] eqn:E.
    + apply find_some in E as [Hin _]. rewrite ref_eqb_neq by (apply (inv_notail _ _ _ _ _ r I), in_app_iff; now left).
      cbn [deref]. split; [exact H|]. rewrite <- H0. discriminate.
    + rewrite ref_eqb_refl. tauto.
  - intros ->. exists None. split; reflexivity.
Qed.
Lemma count_rep s vs k : SRep s vs -> count key hash key_eq s k = Some (if is_none (lookup k vs) then 0 else 1).
Proof.
  intros R. destruct (find_rep s vs k R) as (r & E & H). unfold count. rewrite E. f_equal. destruct r as [r|].
  - destruct H as [_ H]. destruct (lookup k vs); [reflexivity|congruence].
  - now rewrite H.
Qed.

(** ** Erase *)
Lemma remove_split k v1 v v2 : distinct (v1 ++ v :: v2) -> key_eq k (key v) = true ->
  remove k (v1 ++ v :: v2) = v1 ++ v2.
Proof.
  intros D Hk. apply distinct_app in D as (D1 & [D2 D3] & D4). unfold ClosedHash_Spec.remove. rewrite filter_app. cbn [filter]. rewrite Hk. cbn [negb].
  assert (F : forall l, (forall w, In w l -> key_eq k (key w) = false) -> filter (fun v => negb (key_eq k (key v))) l = l).
  { induction l as [|w l IH]; intros H; cbn; [reflexivity|]. rewrite (H w) by now left. cbn. f_equal. apply IH. intros u Hu. apply H. now right. }
  f_equal; apply F.
  - intros w Hw. rewrite (key_eq_left _ _ _ Hk), eq_sym. apply D4; [exact Hw|now left].
  - intros w Hw. rewrite (key_eq_left _ _ _ Hk). apply D2, Hw.
Qed.
Lemma remove_none k vs : lookup k vs = None -> remove k vs = vs.
Proof.
  intros H. unfold ClosedHash_Spec.remove. pose proof (proj1 (lookup_none k vs) H) as H'. clear H.
  induction vs as [|w l IH]; cbn; [reflexivity|]. rewrite (H' w) by now left. cbn. f_equal. apply IH. intros u Hu. apply H'. now right.
Qed.
Lemma erase_rep s vs k : SRep s vs -> distinct vs ->
  exists s', erase key hash key_eq s k = Some (s', if is_none (lookup k vs) then 0 else 1) /\ SRep s' (remove k vs).
Proof.
  destruct s as [t|]; cbn [SRep].
  - intros (gs & free & I & M) D. unfold erase. rewrite (find_node_spec key hash key_eq eq_hash t gs free k I).
    pose proof (matches_none t k _ _ M) as H0.
    destruct (List.find _ _) as [r|] eqn:E.
    + pose proof (find_some _ _ E) as [Hin Hm]. rewrite ref_eqb_neq by (apply (inv_notail _ _ _ _ _ r I), in_app_iff; now left).
      apply in_split in Hin as (l1 & l2 & El). pose proof M as M'. rewrite El in M'. apply map_some_split in M' as (v1 & v & v2 & -> & M1 & Mr & M2).
      destruct (erase_at_spec key hash t gs free l1 r l2 v1 v v2 I El M1 Mr M2) as (t' & res & gs' & free' & l2' & H1 & H2 & H3 & H4 & H5 & _).
      rewrite H1. exists (Some t'). cbn [fst]. unfold matches in Hm. rewrite Mr in Hm.
      destruct (lookup k (v1 ++ v :: v2)) eqn:El'; [|exfalso; destruct H0 as [_ H0]; discriminate (H0 eq_refl)].
      split; [reflexivity|]. rewrite remove_split by auto. exists gs', free'. split; [exact H2|]. rewrite H3, !map_app, H4, H5. reflexivity.
    + rewrite ref_eqb_refl. destruct H0 as [H0 _]. rewrite (H0 eq_refl). exists (Some t). split; [reflexivity|].
      rewrite (remove_none _ _ (H0 eq_refl)). exists gs, free. auto.
  - intros -> _. exists None. split; reflexivity.
Qed.

(** erasing through an iterator: the element it refers to goes, the order of the others stays, and
    the iterator returned refers to the element that followed *)
Lemma clear_loop_rep vs : forall t fuel gs free, Inv t gs free -> map (val t) (flat gs) = map Some vs -> length vs <= fuel ->
  exists t', clear_loop fuel t (hd UsedTail (flat gs)) = Some t' /\ Rep t' [] /\ capacity t' = capacity t.
Proof.
  induction vs as [|v vs IH]; intros t fuel gs free I M Hf.
  - destruct (flat gs) eqn:E; [|discriminate]. exists t. cbn [hd]. split; [destruct fuel; reflexivity|]. split; [|reflexivity].
    exists gs, free. rewrite E. auto.
  - destruct fuel as [|fuel]; [cbn in Hf; lia|]. destruct (flat gs) as [|r l] eqn:E; [discriminate|]. cbn [map] in M. injection M as M1 M2.
    destruct (erase_at_spec key hash t gs free [] r l [] v vs I E eq_refl M1 M2) as (t' & res & gs' & free' & l2' & H1 & H2 & H3 & _ & H5 & H6 & H7).
    cbn [app] in H3. cbn [hd clear_loop]. rewrite ref_eqb_neq.
    2: { apply (inv_notail _ _ _ _ _ r I), in_app_iff. left. rewrite E. now left. }
    rewrite H1. cbn [fst snd]. rewrite H6, <- H3.
    destruct (IH t' fuel gs' free' H2) as (t'' & K1 & K2 & K3); [rewrite H3; exact H5|cbn in Hf; lia|].
    exists t''. rewrite K3. auto.
Qed.
Lemma clear_rep s vs : SRep s vs -> exists s', clear s = Some s' /\ SRep s' [] /\ capacity_of s' = capacity_of s.
Proof.
  destruct s as [t|]; cbn [SRep].
  - intros R. pose proof (rep_size _ _ R) as Hs. destruct R as (gs & free & I & M). cbn [clear].
    assert (E : next t UsedTail = hd UsedTail (flat gs)).
    { destruct (inv_used _ _ _ _ _ I) as [Hp _]. destruct (flat gs); cbn in Hp |- *; tauto. }
    rewrite E. destruct (clear_loop_rep vs t (size t) gs free I M) as (t' & K1 & K2 & K3); [lia|].
    rewrite K1. exists (Some t'). auto.
  - intros ->. exists None. repeat split.
Qed.

(** ** Destruction *)
Lemma destroy_used_spec l : forall t a fuel, path t a l UsedTail -> NoDup (UsedTail :: l) -> (forall r, In r l -> val t r <> None) -> length l <= fuel ->
  exists t', destroy_used fuel t (next t a) = Some t' /\ (forall r, In r l -> val t' r = None) /\ (forall r, ~ In r l -> val t' r = val t r).
Proof.
  induction l as [|x l IH]; intros t a fuel Hp Hn Hv Hf; cbn [path] in Hp.
  - destruct Hp as [-> _]. exists t. split; [destruct fuel; reflexivity|]. split; [intros r []|auto].
  - destruct Hp as (-> & _ & Hp). destruct fuel as [|fuel]; [cbn in Hf; lia|]. cbn [destroy_used].
    apply NoDup_cons_iff in Hn as [Hu Hn]. rewrite ref_eqb_neq by (intros ->; apply Hu; now left).
    unfold destroy. destruct (val t x) as [v|] eqn:Ev; [|exfalso; apply (Hv x); [now left|exact Ev]].
    apply NoDup_cons_iff in Hn as [Hx Hn].
    destruct (IH (set_val t x None) x fuel) as (t' & H1 & H2 & H3).
    + eapply path_frame; [| |exact Hp]; reflexivity.
    + constructor; [intros H; apply Hu; now right|exact Hn].
    + intros r Hr. change (set_ref (val t) x None r <> None). rewrite set_ref_other by (intros <-; contradiction). apply Hv. now right.
    + cbn in Hf. lia.
    + exists t'. split; [exact H1|]. split.
      * intros r [<-|Hr]; [|auto]. rewrite H3 by exact Hx. apply set_ref_same.
      * intros r Hr. rewrite H3 by (intros H; apply Hr; now right). apply set_ref_other. intros <-. apply Hr. now left.
Qed.
(** no tail ever holds a value; the other slots are used or free *)
Lemma destructor_rep s vs : SRep s vs ->
  exists s', destructor s = Some s' /\ forall i, i < capacity_of s -> deref s' (Slot i) = None.
Proof.
  destruct s as [t|]; cbn [SRep].
  - intros (gs & free & I & M). cbn [destructor capacity_of]. destruct (inv_used _ _ _ _ _ I) as [Hp Hn].
    destruct (destroy_used_spec (flat gs) t UsedTail (capacity t) Hp Hn) as (t' & H1 & H2 & H3).
    + intros r Hr. destruct (good_in _ _ _ _ _ (inv_good _ _ _ _ _ I) Hr) as (? & ? & ? & ? & v & _ & _ & Hv & _). congruence.
    + pose proof (inv_count _ _ _ _ _ I). lia.
    + rewrite H1. exists (Some t'). split; [reflexivity|]. intros i Hi. cbn [deref].
      destruct (inv_in _ _ _ _ _ _ I Hi) as [Hin|Hin]; [apply H2, Hin|].
      rewrite H3; [apply (inv_freest _ _ _ _ _ I), Hin|]. intros H. apply (inv_disj _ _ _ _ _ _ I H Hin).
  - intros ->. exists None. split; [reflexivity|]. intros i Hi. reflexivity.
Qed.

(** ** Equality *)
Lemma all_in_rep value_eq l : forall y ys, SRep y ys ->
  all_in key hash key_eq value_eq l y =
  Some (forallb (fun v => match lookup (key v) ys with Some w => value_eq v w | None => false end) l).
Proof.
  induction l as [|v l IH]; intros y ys R; [reflexivity|]. cbn [all_in forallb].
  destruct (find_rep y ys (key v) R) as (r & E & H). rewrite E. destruct r as [r|].
  - destruct H as [H Hn]. rewrite H. destruct (lookup (key v) ys) as [w|]; [|congruence].
    destruct (value_eq v w); [apply IH, R|reflexivity].
  - now rewrite H.
Qed.
End Top.
