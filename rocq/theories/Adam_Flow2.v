(** The invariant of flow(). *)
From Coq Require Import String Permutation Sorted.
From Verif Require Import Prelude Vm_Value Adam_Model Adam_Spec Adam_Flow.
From Coq Require Import List.
Local Open Scope nat_scope.
Ltac Zify.zify_post_hook ::= idtac.

Section Inv.
Variable Sh : sheet.
Hypothesis OK : relations_ok Sh.
Variable s0 : dyn.            (* the state flow() starts in *)
Variable p0 : nat -> Z.       (* the priorities it starts with *)
Notation oc := (oc Sh).
Notation good := (good Sh).

Definition unres (s : dyn) (l : list nat) : nat := length (filter (fun r => negb (d_rres s r)) l).
Definition att (d r : nat) : Prop := In d (edges_of Sh r).
Definition act (s : dyn) (r : nat) : Prop := r < length (rels Sh) /\ d_rres s r = false.
Definition source (s : dyn) (d : nat) : Prop :=
  d_resolved s d = true /\ d_term s d = None /\ exists r, act s0 r /\ att d r.
Definition determined (s : dyn) (d : nat) : Prop := d_resolved s d = true \/ d_term s d <> None.

Record Inv (c : nat) (rs pushed rest : list nat) (rank : nat -> nat) (K : nat) (s : dyn) : Prop := {
  J1 : forall d, d_resolved s d = false -> d_count s d = N.of_nat (unres s (rindex Sh d));
  J2 : forall d, d_resolved s d = true -> d <> c -> d_count s d = 0%N;
  J2c : d_resolved s c = true -> d_count s c = N.of_nat (unres s rs);
  J3 : forall r, act s r -> 1 <= length (unresolved_terms Sh s (terms_of Sh r)) /\
         (~ In r rs -> 2 <= length (unresolved_terms Sh s (terms_of Sh r)));
  J4 : forall d r, act s r -> att d r -> d_resolved s d = false -> In d rest;
  J5 : forall r, r < length (rels Sh) -> d_rres s r = true -> d_rres s0 r = true \/ exists j, enforced_by Sh s r j;
  J6 : forall d r j i, d_term s d = Some (r, j, i) -> act s0 r /\ d_rres s r = true /\
         exists x ns e n, nth_error (rels Sh) r = Some x /\ nth_error (r_terms x) j = Some (ns, e) /\
           nth_error ns i = Some n /\ oc n = d /\ (single_terms Sh ->
             forall d', att d' r -> d' <> d -> d_resolved s d' = true /\ rank d' < rank d);
  J7 : forall r, d_rres s0 r = true -> d_rres s r = true;
  J8 : forall d, In d pushed -> d_term s d <> None;
  J8s : StronglySorted (fun a b => (p0 b <= p0 a)%Z) rest;
  J9 : forall e d, source s e -> In d rest -> (p0 d <= p0 e)%Z;
  J10 : forall d, determined s d -> rank d < K;
  J11 : forall d e, source s e -> d_term s d <> None -> rank e < rank d -> (p0 d <= p0 e)%Z;
  J12 : forall d, d_term s d <> None -> exists e, source s e /\ e <> d /\ (p0 d <= p0 e)%Z;
  J13 : forall d d' r j j' i i', d_term s d = Some (r, j, i) -> d_term s d' = Some (r, j', i') -> j = j' }.

Lemma unres_ext s s' l : (forall r, In r l -> d_rres s r = d_rres s' r) -> unres s l = unres s' l.
Proof. intros H. unfold unres. f_equal. apply filter_eq. intros r Hr. now rewrite H. Qed.
Lemma unres_cons s r l : unres s (r :: l) = (if d_rres s r then 0 else 1) + unres s l.
Proof. unfold unres. cbn [filter]. destruct (d_rres s r); reflexivity. Qed.

Lemma att_name r x d : nth_error (rels Sh) r = Some x -> relation_ok Sh x ->
  (att d r <-> exists n, In n (rel_names x) /\ oc n = d).
Proof.
  intros Hx Ox. unfold att. rewrite (edges_rel Sh r x Hx).
  rewrite (proj2 (proj2 (proj2 (proj2 Ox))) d). split.
  - intros (n & Hn & E). exists n. split; auto. now apply rel_oc.
  - intros (n & Hn & E). exists n. split; auto.
    destruct (proj1 (proj2 (proj2 (proj2 Ox))) n Hn) as (c' & i & Hc & _).
    rewrite <- E, (rel_oc Sh n c' Hc). exact Hc.
Qed.
Lemma others_In j : forall ts i n, In n (others j i ts) <->
  exists k t, nth_error ts k = Some t /\ i + k <> j /\ In n (fst t).
Proof.
  induction ts as [|[ns e] ts IH]; intros i n; cbn [others].
  - split; [intros []|]. intros ([|k] & t & H & _); discriminate.
  - rewrite in_app_iff, IH. split.
    + intros [H|(k & t & H1 & H2 & H3)].
      * destruct (Nat.eqb_spec i j) as [->|Hn]; [destruct H|]. exists 0, (ns, e). split; [reflexivity|]. split; [lia|exact H].
      * exists (Datatypes.S k), t. split; [exact H1|]. split; [lia|exact H3].
    + intros ([|k] & t & H1 & H2 & H3); cbn [nth_error] in H1.
      * injection H1 as <-. left. rewrite (proj2 (Nat.eqb_neq _ _)) by lia. exact H3.
      * right. exists k, t. split; [exact H1|]. split; [lia|exact H3].
Qed.

(** one relation of the popped cell flows out *)
Lemma flow_one c r rs pushed rest rank K s j :
  Inv c (r :: rs) pushed rest rank K s -> NoDup (r :: rs) -> r < length (rels Sh) -> att c r ->
  d_resolved s c = true -> (exists e, source s e) -> d_rres s r = false ->
  unresolved_terms Sh (dec_count c s) (terms_of Sh r) = [j] ->
  exists x ns e, nth_error (rels Sh) r = Some x /\ nth_error (terms_of Sh r) j = Some (ns, e) /\
  let s2 := w_rres (fset (d_rres (dec_count c s)) r true) (dec_count c s) in
  match flow_out Sh r j ns 0 (pushed ++ rest) s2 with
  | RUB => False
  | RThrow x s' => x = XOver
  | ROk stk' s' =>
    exists s4 pushed' rank', detach Sh (nodup string_dec (others j 0 (terms_of Sh r))) s' = ROk tt s4 /\
      stk' = pushed' ++ rest /\ length pushed' <= length pushed + length ns /\
      Inv c rs pushed' rest rank' (Datatypes.S K) s4 /\ d_resolved s4 c = true /\ (exists e, source s4 e) /\
      (forall q, d_rres s4 q = if q =? r then true else d_rres s q)
  end.
Proof.
  intros I Nrs Hr Ac Rc (e0 & Se0) Ur Ej.
  destruct (rel_some Sh OK r Hr) as (x & Hx & Ox).
  assert (Et : terms_of Sh r = r_terms x) by now apply terms_rel.
  assert (Hj : In j (unresolved_terms Sh (dec_count c s) (terms_of Sh r))) by (rewrite Ej; now left).
  apply unresolved_In in Hj as (ns & e & Hns & Uns).
  exists x, ns, e. split; [exact Hx|]. split; [exact Hns|]. cbv zeta.
  set (s1 := dec_count c s) in *.
  set (s2 := w_rres (fset (d_rres s1) r true) s1).
  pose proof Hns as Hns'. rewrite Et in Hns'.
  destruct (term_names_good Sh r x j ns e Hx Ox Hns') as [G Isub].
  assert (Nns : NoDup ns).
  { apply (NoDup_flat_in fst (r_terms x) (ns, e)); [exact (proj1 (proj2 (proj2 Ox)))|]. eapply nth_error_In; eauto. }
  pose proof (NoDup_oc Sh OK ns G Nns) as Noc.
  assert (Uold : forall d, In d (map oc ns) -> d_resolved s d = false).
  { intros d Hd. apply in_map_iff in Hd as (n & <- & Hn).
    exact (proj1 (term_resolved_false Sh s1 ns G) Uns n Hn). }
  pose proof (flow_out_spec Sh r j ns 0 (pushed ++ rest) s2 G Noc) as F.
  destruct (flow_out Sh r j ns 0 (pushed ++ rest) s2) as [stk' s3|y s3|]; [|exact (proj1 F)|exact F].
  destruct F as (F1 & F2 & F3 & F4 & F5 & F6 & F7).
  (* the other cells of the relation *)
  set (os := nodup string_dec (others j 0 (terms_of Sh r))).
  assert (Gos : Forall good os /\ forall n, In n os -> In n (rel_names x) /\ ~ In n ns).
  { assert (H : forall n, In n os -> In n (rel_names x) /\ ~ In n ns).
    { intros n Hn. unfold os in Hn. apply nodup_In in Hn. apply others_In in Hn as (k & t & Hk & Hkj & Hn).
      rewrite Et in Hk. split.
      - unfold rel_names. apply in_flat_map. exists t. split; auto. eapply nth_error_In; eauto.
      - intros Hn2. apply Hkj. cbn. eapply (NoDup_flat_split fst (r_terms x)); [exact (proj1 (proj2 (proj2 Ox)))| | | |]; eauto. }
    split; [|exact H]. apply Forall_forall. intros n Hn. apply (proj1 (proj2 (proj2 (proj2 Ox)))). now apply H. }
  destruct Gos as [Gos Hos].
  assert (Nos : NoDup (map oc os)) by (apply (NoDup_oc Sh OK); [exact Gos|apply NoDup_nodup]).
  destruct (detach_spec Sh os s3 Gos Nos) as (s4 & D1 & D2 & D3).
  assert (inj : forall n m, In n (rel_names x) -> In m (rel_names x) -> oc n = oc m -> n = m).
  { intros n m Hn Hm. apply (oc_inj Sh OK); apply (proj1 (proj2 (proj2 (proj2 Ox)))); auto. }
  assert (disj : forall d, In d (map oc os) -> ~ In d (map oc ns)).
  { intros d Hd Hd2. apply in_map_iff in Hd as (n & <- & Hn). apply in_map_iff in Hd2 as (m & Em & Hm).
    destruct (Hos n Hn) as [Hn1 Hn2]. apply Hn2. rewrite <- (inj m n); auto. }
  assert (cover : forall d, att d r <-> In d (map oc ns) \/ In d (map oc os)).
  { intros d. rewrite (att_name r x d Hx Ox). split.
    - intros (n & Hn & <-). destruct (in_dec string_dec n ns) as [Hin|Hin]; [left; now apply in_map|].
      right. apply in_map. unfold os. apply nodup_In, others_In. unfold rel_names in Hn.
      apply in_flat_map in Hn as (t & Ht & Hn). apply In_nth_error in Ht as (k & Hk).
      exists k, t. rewrite Et. split; auto. split; auto. cbn. intros ->. rewrite Hns' in Hk. injection Hk as <-. contradiction.
    - intros [Hd|Hd]; apply in_map_iff in Hd as (n & <- & Hn); exists n; split; auto. now apply Hos. }
  assert (Cns : ~ In c (map oc ns)) by (intros H; apply Uold in H; congruence).
  (* the fields of the final state *)
  assert (T4 : d_term s4 = d_term s3) by (rewrite D3; reflexivity).
  assert (R4 : d_resolved s4 = d_resolved s3) by (rewrite D3; reflexivity).
  assert (Q4 : forall q, d_rres s4 q = if q =? r then true else d_rres s q).
  { intros q. assert (d_rres s4 = d_rres s3) by (rewrite D3; reflexivity). rewrite H, F6. reflexivity. }
  assert (Z : forall d, In d (map oc ns) -> zero_after s2 d = (dec (d_count s d) =? 0)%N).
  { intros d Hd. unfold zero_after, s2, s1. cbn [d_count w_rres dec_count w_count]. rewrite fset_other; auto.
    intros ->. contradiction. }
  assert (RR : forall d, d_resolved s4 d = d_resolved s d || (mem d (map oc ns) && (dec (d_count s d) =? 0)%N)).
  { intros d. rewrite R4, F5. cbn [d_resolved w_rres s2 s1 dec_count w_count].
    destruct (mem d (map oc ns)) eqn:Em; cbn [andb]; auto. rewrite Z; auto. now apply mem_In. }
  assert (Rmono : forall d, d_resolved s d = true -> d_resolved s4 d = true).
  { intros d Hd. rewrite RR, Hd. reflexivity. }
  assert (CC : forall d, d <> c -> d_count s4 d =
     if mem d (map oc ns) then dec (d_count s d)
     else if mem d (map oc os) && negb (d_resolved s d) then dec (d_count s d) else d_count s d).
  { intros d Hd. rewrite D2, F4. cbn [d_count w_rres s2]. unfold s1. cbn [d_count dec_count w_count].
    rewrite fset_other by exact Hd.
    destruct (mem d (map oc ns)) eqn:Em.
    - destruct (mem d (map oc os)) eqn:Eo; cbn [andb]; [|reflexivity].
      exfalso. apply (disj d); now apply mem_In.
    - destruct (mem d (map oc os)) eqn:Eo; cbn [andb]; [|reflexivity].
      rewrite F5, Em. cbn [andb]. rewrite Bool.orb_false_r. reflexivity. }
  assert (Urd : forall d, att d r -> unres s (rindex Sh d) = unres s4 (rindex Sh d) + 1).
  { intros d Hd. unfold unres. apply filter_minus_one with (j := r).
    - apply rindex_NoDup.
    - apply rindex_In. split; auto.
    - now rewrite Ur.
    - rewrite Q4, Nat.eqb_refl. reflexivity.
    - intros q _ Hq. rewrite Q4, (proj2 (Nat.eqb_neq _ _) Hq). reflexivity. }
  assert (Urn : forall d, ~ att d r -> unres s (rindex Sh d) = unres s4 (rindex Sh d)).
  { intros d Hd. apply unres_ext. intros q Hq. rewrite Q4. destruct (Nat.eqb_spec q r) as [->|]; auto.
    apply rindex_In in Hq as [_ Hq]. contradiction. }
  assert (Cpos : forall d, att d r -> d_resolved s d = false -> dec (d_count s d) = N.of_nat (unres s4 (rindex Sh d))).
  { intros d Hd Hu. rewrite (J1 _ _ _ _ _ _ _ I d Hu), (Urd d Hd). rewrite dec_pos by lia. lia. }
  assert (Act4 : forall q, act s4 q -> act s q /\ q <> r).
  { intros q [Hq1 Hq2]. rewrite Q4 in Hq2. destruct (Nat.eqb_spec q r) as [->|Hn]; [discriminate|]. split; [split|]; auto. }
  (* newly resolved cells are attached to no active relation *)
  assert (Fresh : forall d q, act s4 q -> att d q -> d_resolved s4 d = d_resolved s d).
  { intros d q Hq Hd. rewrite RR. destruct (mem d (map oc ns)) eqn:Em; cbn [andb]; [|apply Bool.orb_false_r].
    apply mem_In in Em. assert (Ad : att d r) by (apply cover; now left).
    rewrite (Cpos d Ad (Uold d Em)).
    assert (1 <= unres s4 (rindex Sh d)).
    { unfold unres. assert (Hin : In q (filter (fun r => negb (d_rres s4 r)) (rindex Sh d))).
      { apply filter_In. split; [apply rindex_In; split; [apply Hq|exact Hd]|]. destruct Hq as [_ ->]. reflexivity. }
      destruct (filter (fun r => negb (d_rres s4 r)) (rindex Sh d)); [destruct Hin|cbn; lia]. }
    rewrite (proj2 (N.eqb_neq _ _)) by lia. apply Bool.orb_false_r. }
  assert (Told : forall d, d_term s d <> None -> ~ In d (map oc ns) /\ d_term s4 d = d_term s d).
  { intros d Hd. assert (~ In d (map oc ns)).
    { intros Hin. apply in_map_iff in Hin as (n & <- & Hn). apply Hd. exact (F1 n Hn). }
    split; auto. rewrite T4, F3 by auto. reflexivity. }
  assert (Tnew : forall d, d_term s4 d <> None -> In d (map oc ns) \/ (~ In d (map oc ns) /\ d_term s d <> None)).
  { intros d Hd. destruct (in_dec Nat.eq_dec d (map oc ns)) as [Hin|Hin]; [now left|right]. split; auto.
    rewrite T4, F3 in Hd by auto. exact Hd. }
  assert (Src : forall d, source s4 d -> source s d).
  { intros d (H1 & H2 & H3). destruct (in_dec Nat.eq_dec d (map oc ns)) as [Hin|Hin].
    - exfalso. apply in_map_iff in Hin as (n & <- & Hn). apply In_nth_error in Hn as (k & Hk).
      rewrite T4, (F2 k n Hk) in H2. discriminate.
    - split; [|split; auto].
      + rewrite RR, (proj2 (mem_false _ _) Hin) in H1. cbn [andb] in H1. now rewrite Bool.orb_false_r in H1.
      + rewrite T4, F3 in H2 by auto. exact H2. }
  assert (Src' : forall d, source s d -> source s4 d).
  { intros d (H1 & H2 & H3). assert (~ In d (map oc ns)) by (intros Hin; apply Uold in Hin; congruence).
    split; [now apply Rmono|]. split; auto. rewrite T4, F3 by auto. exact H2. }
  assert (NRest : forall d, In d (map oc ns) -> In d rest).
  { intros d Hd. apply (J4 _ _ _ _ _ _ _ I d r); [split; auto|apply cover; now left|now apply Uold]. }
  set (rank' := fun d => if mem d (map oc ns) then K else rank d).
  exists s4, (rev (filter (fun d => negb (zero_after s2 d)) (map oc ns)) ++ pushed), rank'.
  split; [exact D1|]. split; [rewrite F7; apply app_assoc|].
  split.
  { rewrite app_length, rev_length.
    assert (length (filter (fun d => negb (zero_after s2 d)) (map oc ns)) <= length ns).
    { rewrite <- (map_length oc ns). clear. induction (map oc ns) as [|a l IH]; cbn; [lia|]. destruct (negb _); cbn; lia. }
    lia. }
  split; [|split; [now apply Rmono|split; [exists e0; auto|exact Q4]]].
  constructor.
  - (* J1 *)
    intros d Hu. assert (Hus : d_resolved s d = false) by (destruct (d_resolved s d) eqn:E; auto; rewrite (Rmono d E) in Hu; discriminate).
    assert (Hdc : d <> c) by congruence.
    rewrite (CC d Hdc). destruct (mem d (map oc ns)) eqn:Em.
    + apply Cpos; auto. apply cover. left. now apply mem_In.
    + rewrite Hus. destruct (mem d (map oc os)) eqn:Eo; cbn [andb negb].
      * apply Cpos; auto. apply cover. right. now apply mem_In.
      * rewrite (J1 _ _ _ _ _ _ _ I d Hus). f_equal. apply Urn. rewrite cover, <- !mem_In. intuition congruence.
  - (* J2 *)
    intros d Hu Hdc. rewrite (CC d Hdc). rewrite RR in Hu. destruct (mem d (map oc ns)) eqn:Em.
    + assert (Hf : d_resolved s d = false) by (apply Uold; now apply mem_In). rewrite Hf in Hu. cbn in Hu.
      now apply N.eqb_eq in Hu.
    + cbn [andb] in Hu. rewrite Bool.orb_false_r in Hu. rewrite Hu. cbn [negb]. rewrite Bool.andb_false_r.
      exact (J2 _ _ _ _ _ _ _ I d Hu Hdc).
  - (* J2c *)
    intros _. assert (Ec : d_count s4 c = dec (d_count s c)).
    { rewrite D2, F4. rewrite (proj2 (mem_false _ _) Cns). cbn [d_count w_rres s2]. unfold s1. cbn [d_count dec_count w_count].
      rewrite fset_same. rewrite F5. cbn [d_resolved w_rres s2]. unfold s1. cbn [d_resolved dec_count w_count].
      rewrite Rc. cbn [orb negb]. rewrite Bool.andb_false_r. reflexivity. }
    rewrite Ec, (J2c _ _ _ _ _ _ _ I Rc), unres_cons, Ur. rewrite dec_pos by lia.
    replace (unres s4 rs) with (unres s rs); [lia|]. apply unres_ext. intros q Hq. rewrite Q4.
    destruct (Nat.eqb_spec q r) as [->|]; auto. inversion Nrs; contradiction.
  - (* J3 *)
    intros q Hq. destruct (Act4 q Hq) as [Hq' Hqr].
    rewrite (unresolved_ext Sh OK s4 s q (proj1 Hq')).
    + destruct (J3 _ _ _ _ _ _ _ I q Hq') as [A B]. split; auto. intros Hn. apply B. intros [E|E]; [congruence|contradiction].
    + intros d Hd. exact (Fresh d q Hq Hd).
  - (* J4 *)
    intros d q Hq Hd Hu. destruct (Act4 q Hq) as [Hq' _].
    apply (J4 _ _ _ _ _ _ _ I d q Hq' Hd). rewrite <- Hu. symmetry. exact (Fresh d q Hq Hd).
  - (* J5 *)
    intros q Hq Hres. rewrite Q4 in Hres. destruct (Nat.eqb_spec q r) as [->|Hn].
    + right. exists j. exists x, ns, e. split; [exact Hx|]. split; [exact Hns'|].
      intros i n d Hi Hd. rewrite <- (rel_oc Sh n d Hd), T4. exact (F2 i n Hi).
    + destruct (J5 _ _ _ _ _ _ _ I q Hq Hres) as [H|(j' & x' & ns' & e' & H1 & H2 & H3)]; [now left|right].
      exists j', x', ns', e'. split; auto. split; auto. intros i n d Hi Hd.
      specialize (H3 i n d Hi Hd). destruct (Told d) as [_ ->]; auto. congruence.
  - (* J6 *)
    intros d q j' i Hd. destruct (Tnew d) as [Hin|[Hin Hd']]; [congruence| |].
    + apply in_map_iff in Hin as (n & En & Hn). apply In_nth_error in Hn as (k & Hk).
      rewrite <- En, T4, (F2 k n Hk) in Hd. injection Hd as <- <- <-.
      split; [split; auto; destruct (d_rres s0 r) eqn:E0; auto; rewrite (J7 _ _ _ _ _ _ _ I r E0) in Ur; discriminate|].
      split; [rewrite Q4, Nat.eqb_refl; reflexivity|].
      exists x, ns, e, n. split; auto. split; auto. split; auto. split; auto.
      intros Hs d' Hd' Hne.
      (* every other cell of the relation is resolved *)
      assert (Hns1 : ns = [n]).
      { destruct (Hs x (ns, e) (nth_error_In _ _ Hx) (nth_error_In _ _ Hns')) as (m & Em). cbn [fst] in Em. subst ns.
        destruct k as [|k]; cbn in Hk; [congruence|]. destruct k; discriminate. }
      assert (Rd' : d_resolved s d' = true).
      { apply (att_name r x d' Hx Ox) in Hd' as (m & Hm & Em). unfold rel_names in Hm. apply in_flat_map in Hm as ([ms em] & Ht & Hm).
        apply In_nth_error in Ht as (k' & Hk'). cbn [fst] in Hm.
        destruct (Hs x (ms, em) (nth_error_In _ _ Hx) (nth_error_In _ _ Hk')) as (m' & Em'). cbn [fst] in Em'. subst ms.
        destruct Hm as [<-|[]].
        destruct (d_resolved s d') eqn:E; auto. exfalso.
        assert (Hin : In k' (unresolved_terms Sh s1 (terms_of Sh r))).
        { apply unresolved_In. exists [m'], em. rewrite Et. split; auto.
          apply (term_resolved_false Sh).
          - constructor; [|constructor]. apply (proj1 (proj2 (proj2 (proj2 Ox)))). unfold rel_names. apply in_flat_map.
            exists ([m'], em). split; [eapply nth_error_In; eauto|now left].
          - intros m2 [<-|[]]. rewrite Em. exact E. }
        rewrite Ej in Hin. destruct Hin as [<-|[]]. rewrite Hns' in Hk'. injection Hk' as -> _.
        injection Hns1 as ->. congruence. }
      split; [now apply Rmono|]. unfold rank'.
      assert (Hd'n : mem d' (map oc ns) = false).
      { apply mem_false. intros H. apply Uold in H. congruence. }
      rewrite Hd'n. rewrite (proj2 (mem_In _ _)).
      * apply (J10 _ _ _ _ _ _ _ I). now left.
      * rewrite <- En. apply in_map. eapply nth_error_In; eauto.
    + destruct (Told d Hd') as [_ E]. rewrite E in Hd.
      destruct (J6 _ _ _ _ _ _ _ I d q j' i Hd) as (H1 & H2 & x' & ns' & e' & n & H3 & H4 & H5 & H6 & H7).
      split; auto. split; [rewrite Q4; destruct (q =? r); auto|].
      exists x', ns', e', n. split; [exact H3|]. split; [exact H4|]. split; [exact H5|]. split; [exact H6|]. intros Hs d' Hd'2 Hne.
      destruct (H7 Hs d' Hd'2 Hne) as [A B]. split; [now apply Rmono|]. unfold rank'.
      rewrite (proj2 (mem_false _ _) Hin). rewrite (proj2 (mem_false d' _)); [exact B|].
      intros H. apply Uold in H. congruence.
  - (* J7 *)
    intros q Hq. rewrite Q4. destruct (q =? r); auto. exact (J7 _ _ _ _ _ _ _ I q Hq).
  - (* J8 *)
    intros d Hd. apply in_app_or in Hd as [Hd|Hd].
    + apply in_rev in Hd. apply filter_In in Hd as [Hd _]. apply in_map_iff in Hd as (n & <- & Hn).
      apply In_nth_error in Hn as (k & Hk). rewrite T4, (F2 k n Hk). discriminate.
    + destruct (Told d) as [_ ->]; apply (J8 _ _ _ _ _ _ _ I d Hd).
  - exact (J8s _ _ _ _ _ _ _ I).
  - intros e' d He Hd. apply (J9 _ _ _ _ _ _ _ I); auto.
  - (* J10 *)
    intros d Hd. unfold rank'. destruct (mem d (map oc ns)) eqn:Em; [lia|].
    assert (Hdet : determined s d).
    { destruct Hd as [Hd|Hd].
      - left. rewrite RR, Em in Hd. cbn [andb] in Hd. now rewrite Bool.orb_false_r in Hd.
      - right. destruct (Tnew d Hd) as [H|[_ H]]; auto. apply mem_In in H. congruence. }
    pose proof (J10 _ _ _ _ _ _ _ I d Hdet). lia.
  - (* J11 *)
    intros d e' He Hd Hrank. pose proof (Src e' He) as He'.
    assert (mem e' (map oc ns) = false) by (apply mem_false; intros H; apply Uold in H; destruct He'; congruence).
    destruct (Tnew d Hd) as [Hin|[Hin Hd']].
    + apply (J9 _ _ _ _ _ _ _ I); auto.
    + unfold rank' in Hrank. rewrite H, (proj2 (mem_false _ _) Hin) in Hrank.
      exact (J11 _ _ _ _ _ _ _ I d e' He' Hd' Hrank).
  - (* J12 *)
    intros d Hd. destruct (Tnew d Hd) as [Hin|[Hin Hd']].
    + exists e0. split; [now apply Src'|]. split; [intros ->; apply Uold in Hin; destruct Se0; congruence|].
      apply (J9 _ _ _ _ _ _ _ I); auto.
    + destruct (J12 _ _ _ _ _ _ _ I d Hd') as (e' & A & B & C). exists e'. auto.
  - (* J13 *)
    assert (Tr : forall d j' i', d_term s4 d = Some (r, j', i') -> j' = j).
    { intros d j' i' Hd. destruct (Tnew d) as [Hin|[Hin Hd']]; [congruence| |].
      - apply in_map_iff in Hin as (n & En & Hn). apply In_nth_error in Hn as (k & Hk).
        rewrite <- En, T4, (F2 k n Hk) in Hd. now injection Hd.
      - destruct (Told d Hd') as [_ E]. rewrite E in Hd.
        destruct (J6 _ _ _ _ _ _ _ I d r j' i' Hd) as (_ & H2 & _). congruence. }
    assert (To : forall d q j' i', q <> r -> d_term s4 d = Some (q, j', i') -> d_term s d = Some (q, j', i')).
    { intros d q j' i' Hq Hd. destruct (Tnew d) as [Hin|[Hin Hd']]; [congruence| |].
      - apply in_map_iff in Hin as (n & En & Hn). apply In_nth_error in Hn as (k & Hk).
        rewrite <- En, T4, (F2 k n Hk) in Hd. injection Hd; congruence.
      - destruct (Told d Hd') as [_ E]. now rewrite E in Hd. }
    intros d d' q j1 j2 i1 i2 H1 H2. destruct (Nat.eq_dec q r) as [->|Hq].
    + rewrite (Tr d j1 i1 H1). symmetry. exact (Tr d' j2 i2 H2).
    + exact (J13 _ _ _ _ _ _ _ I d d' q j1 j2 i1 i2 (To _ _ _ _ Hq H1) (To _ _ _ _ Hq H2)).
Qed.
End Inv.
