(** flow(): which cells are derived, and from what. *)
From Coq Require Import String Permutation Sorted.
From Verif Require Import Prelude Vm_Value Adam_Model Adam_Spec.
From Coq Require Import List.
Local Open Scope nat_scope.
Ltac Zify.zify_post_hook ::= idtac.

Lemma fset_same {A} (f : nat -> A) i x : fset f i x i = x.
Proof. unfold fset. now rewrite Nat.eqb_refl. Qed.
Lemma fset_other {A} (f : nat -> A) i j x : j <> i -> fset f i x j = f j.
Proof. intros H. unfold fset. now rewrite (proj2 (Nat.eqb_neq _ _) H). Qed.
Lemma fset_eq {A} (f : nat -> A) i j x : fset f i x j = if j =? i then x else f j.
Proof. reflexivity. Qed.
Lemma mem_In i l : mem i l = true <-> In i l.
Proof.
  induction l as [|j l IH]; cbn [mem In]; [split; [discriminate|tauto]|].
  rewrite Bool.orb_true_iff, IH, Nat.eqb_eq. intuition congruence.
Qed.
Lemma mem_false i l : mem i l = false <-> ~ In i l.
Proof. rewrite <- mem_In. destruct (mem i l); split; congruence. Qed.
Lemma dec_pos n : n <> 0%N -> dec n = (n - 1)%N.
Proof. intros H. unfold dec. now rewrite (proj2 (N.eqb_neq _ _) H). Qed.

Lemma filter_length_le {A} (p q : A -> bool) l :
  (forall x, In x l -> p x = true -> q x = true) -> length (filter p l) <= length (filter q l).
Proof.
  induction l as [|a l IH]; intros H; cbn [filter length]; [lia|].
  assert (IH' : length (filter p l) <= length (filter q l)) by (apply IH; intros; apply H; [now right|auto]).
  destruct (p a) eqn:Ep.
  - rewrite (H a (or_introl eq_refl) Ep). cbn. lia.
  - destruct (q a); cbn; lia.
Qed.
Lemma filter_eq {A} (p q : A -> bool) l :
  (forall x, In x l -> p x = q x) -> filter p l = filter q l.
Proof.
  induction l as [|a l IH]; intros H; cbn [filter]; [reflexivity|].
  rewrite (H a (or_introl eq_refl)), IH; [reflexivity|]. intros; apply H; now right.
Qed.
(** dropping one element *)
Lemma filter_drop_one (p q : nat -> bool) (l : list nat) j :
  NoDup l -> (forall x, In x l -> x <> j -> p x = q x) ->
  length (filter p l) <= length (filter q l) + 1.
Proof.
  induction 1 as [|a l Ha HN IH]; intros H; cbn [filter length]; [lia|].
  destruct (Nat.eq_dec a j) as [->|Hn].
  - assert (E : filter p l = filter q l).
    { apply filter_eq. intros x Hx. apply H; [now right|]. intros ->. contradiction. }
    rewrite E. destruct (p j), (q j); cbn; lia.
  - rewrite (H a (or_introl eq_refl) Hn).
    assert (length (filter p l) <= length (filter q l) + 1) by (apply IH; intros; apply H; auto; now right).
    destruct (q a); cbn; lia.
Qed.
Lemma filter_minus_one (p q : nat -> bool) (l : list nat) j :
  NoDup l -> In j l -> p j = true -> q j = false -> (forall x, In x l -> x <> j -> p x = q x) ->
  length (filter p l) = length (filter q l) + 1.
Proof.
  induction 1 as [|a l Ha HN IH]; intros Hj Hp Hq H; [destruct Hj|].
  cbn [filter length]. destruct Hj as [->|Hj].
  - rewrite Hp, Hq. cbn. assert (E : filter p l = filter q l).
    { apply filter_eq. intros x Hx. apply H; [now right|]. intros ->. contradiction. }
    rewrite E. lia.
  - assert (a <> j) by (intros ->; contradiction).
    rewrite (H a (or_introl eq_refl) H0).
    assert (length (filter p l) = length (filter q l) + 1) by (apply IH; auto; intros; apply H; auto; now right).
    destruct (q a); cbn; lia.
Qed.

Lemma NoDup_app_r {A} (l l' : list A) : NoDup (l ++ l') -> NoDup l'.
Proof. induction l as [|a l IH]; cbn; intros H; auto. inversion H; auto. Qed.
Lemma NoDup_app_l {A} (l l' : list A) : NoDup (l ++ l') -> NoDup l.
Proof.
  induction l as [|a l IH]; cbn; intros H; constructor; inversion H; subst; auto.
  intros Hi. apply H2, in_or_app. now left.
Qed.

Section Flow.
Variable Sh : sheet.
Hypothesis OK : relations_ok Sh.

Definition oc (n : name) : nat := match output_cell Sh n with Some c => c | None => 0 end.
Definition good (n : name) : Prop := exists c i, rel_cell Sh n c /\ input_of Sh c = Some i.
Lemma good_oc n : good n -> output_cell Sh n = Some (oc n) /\ exists i, input_of Sh (oc n) = Some i.
Proof. intros (c & i & H & Hi). unfold rel_cell in H. unfold oc, output_cell. rewrite H. eauto. Qed.
Lemma rel_oc n c : rel_cell Sh n c -> oc n = c.
Proof. unfold rel_cell, oc, output_cell. now intros ->. Qed.
Lemma oc_inj n m : good n -> good m -> oc n = oc m -> n = m.
Proof.
  intros Hn Hm E. destruct (good_oc n Hn) as [En _]. destruct (good_oc m Hm) as [Em _].
  destruct (proj1 OK n (oc n) En) as (k & Hk & Nk). destruct (proj1 OK m (oc m) Em) as (k' & Hk' & Nk').
  rewrite E in Hk. rewrite Hk in Hk'. injection Hk' as <-. congruence.
Qed.
Lemma NoDup_oc ns : Forall good ns -> NoDup ns -> NoDup (map oc ns).
Proof.
  induction 2 as [|n ns Hn HN IH]; cbn [map]; constructor; inversion H; subst; auto.
  intros Hin. apply in_map_iff in Hin as (m & E & Hm).
  assert (m = n) by (apply oc_inj; auto; rewrite Forall_forall in H3; auto). subst. contradiction.
Qed.

(** the terms of a relation *)
Lemma terms_rel r x : nth_error (rels Sh) r = Some x -> terms_of Sh r = r_terms x.
Proof. unfold terms_of. now intros ->. Qed.
Lemma edges_rel r x : nth_error (rels Sh) r = Some x -> edges_of Sh r = r_edges x.
Proof. unfold edges_of. now intros ->. Qed.
Lemma rel_some r : r < length (rels Sh) -> exists x, nth_error (rels Sh) r = Some x /\ relation_ok Sh x.
Proof.
  intros H. destruct (nth_error (rels Sh) r) as [x|] eqn:E.
  - exists x. split; auto. apply (proj2 OK). eapply nth_error_In; eauto.
  - apply nth_error_None in E. lia.
Qed.
Lemma rindex_In c r : In r (rindex Sh c) <-> r < length (rels Sh) /\ In c (edges_of Sh r).
Proof. unfold rindex. rewrite filter_In, in_seq, mem_In. intuition lia. Qed.
Lemma rindex_NoDup c : NoDup (rindex Sh c).
Proof. unfold rindex. apply NoDup_filter, seq_NoDup. Qed.
Lemma term_names_good r x j ns e : nth_error (rels Sh) r = Some x -> relation_ok Sh x ->
  nth_error (r_terms x) j = Some (ns, e) -> Forall good ns /\ (forall n, In n ns -> In n (rel_names x)).
Proof.
  intros Hr (_ & _ & _ & G & _) Ht.
  assert (I : forall n, In n ns -> In n (rel_names x)).
  { intros n Hn. unfold rel_names. apply in_flat_map. exists (ns, e). split; [eapply nth_error_In; eauto|exact Hn]. }
  split; [|exact I]. apply Forall_forall. intros n Hn. apply G. auto.
Qed.
(** names in two different terms are different *)
Lemma NoDup_flat_split {A B} (f : A -> list B) l : NoDup (flat_map f l) ->
  forall i j a b x, nth_error l i = Some a -> nth_error l j = Some b -> In x (f a) -> In x (f b) -> i = j.
Proof.
  induction l as [|y l IH]; intros H [|i] [|j] a b x Hi Hj Ha Hb; cbn in *; try discriminate; auto.
  - injection Hi as ->. exfalso.
    assert (D : forall z, In z (f a) -> ~ In z (flat_map f l)).
    { intros z Hz Hz'. cbn [flat_map] in H. revert H Hz Hz'. clear. induction (f a) as [|w fa IH]; intros H Hz Hz'; [destruct Hz|].
      cbn in H. inversion H; subst. destruct Hz as [->|Hz]; [apply H2, in_or_app; now right|auto]. }
    apply (D x Ha). apply in_flat_map. exists b. split; auto. eapply nth_error_In; eauto.
  - injection Hj as ->. exfalso.
    assert (D : forall z, In z (f b) -> ~ In z (flat_map f l)).
    { intros z Hz Hz'. cbn [flat_map] in H. revert H Hz Hz'. clear. induction (f b) as [|w fa IH]; intros H Hz Hz'; [destruct Hz|].
      cbn in H. inversion H; subst. destruct Hz as [->|Hz]; [apply H2, in_or_app; now right|auto]. }
    apply (D x Hb). apply in_flat_map. exists a. split; auto. eapply nth_error_In; eauto.
  - f_equal. eapply (IH (NoDup_app_r _ _ H)); eauto.
Qed.
Lemma NoDup_flat_in {A B} (f : A -> list B) l a : NoDup (flat_map f l) -> In a l -> NoDup (f a).
Proof.
  induction l as [|y l IH]; intros H Hi; [destruct Hi|]. cbn [flat_map] in H. destruct Hi as [->|Hi].
  - now apply NoDup_app_l in H.
  - apply IH; auto. now apply NoDup_app_r in H.
Qed.

(** *** the unresolved terms *)
Lemma unresolved_In s ts j : In j (unresolved_terms Sh s ts) <->
  exists ns e, nth_error ts j = Some (ns, e) /\ term_resolved Sh s ns = false.
Proof.
  unfold unresolved_terms. rewrite filter_In, in_seq.
  destruct (nth_error ts j) as [[ns e]|] eqn:E.
  - assert (j < length ts) by (apply nth_error_Some; congruence).
    split.
    + intros [_ H']. exists ns, e. split; auto. now destruct (term_resolved Sh s ns).
    + intros (ns' & e' & H1 & H2). injection H1 as <- <-. rewrite H2. split; [lia|reflexivity].
  - split; [intros [_ H]; discriminate|intros (? & ? & ? & _); discriminate].
Qed.
Lemma unresolved_NoDup s ts : NoDup (unresolved_terms Sh s ts).
Proof. unfold unresolved_terms. apply NoDup_filter, seq_NoDup. Qed.
Lemma term_resolved_false s ns : Forall good ns ->
  (term_resolved Sh s ns = false <-> forall n, In n ns -> d_resolved s (oc n) = false).
Proof.
  intros G. unfold term_resolved. induction G as [|n ns Gn G IH]; cbn [existsb In]; [intuition|].
  destruct (good_oc n Gn) as [E _]. rewrite E, Bool.orb_false_iff, IH.
  split.
  - intros [H1 H2] m [<-|Hm]; auto.
  - intros H. split; auto.
Qed.
Lemma term_resolved_ext s s' ns :
  (forall n, In n ns -> d_resolved s (oc n) = d_resolved s' (oc n)) -> Forall good ns ->
  term_resolved Sh s ns = term_resolved Sh s' ns.
Proof.
  intros H G. destruct (term_resolved Sh s' ns) eqn:E.
  - destruct (term_resolved Sh s ns) eqn:E2; auto.
    assert (term_resolved Sh s' ns = false); [|congruence].
    apply term_resolved_false; auto. intros n Hn. rewrite <- H by auto.
    revert n Hn. now apply term_resolved_false.
  - apply term_resolved_false; auto. intros n Hn. rewrite H by auto. revert n Hn. now apply term_resolved_false.
Qed.
(** the unresolved terms depend on the edges of the relation only *)
Lemma unresolved_ext s s' r : r < length (rels Sh) ->
  (forall c, In c (edges_of Sh r) -> d_resolved s c = d_resolved s' c) ->
  unresolved_terms Sh s (terms_of Sh r) = unresolved_terms Sh s' (terms_of Sh r).
Proof.
  intros Hr H. destruct (rel_some r Hr) as (x & Hx & Ox). unfold unresolved_terms.
  apply filter_eq. intros j _. destruct (nth_error (terms_of Sh r) j) as [[ns e]|] eqn:E; auto.
  rewrite (terms_rel r x Hx) in E. destruct (term_names_good r x j ns e Hx Ox E) as [G I].
  f_equal. apply term_resolved_ext; auto. intros n Hn. apply H. rewrite (edges_rel r x Hx).
  apply (proj2 (proj2 (proj2 (proj2 Ox)))). exists n. split; auto.
  rewrite Forall_forall in G. apply good_oc; auto.
Qed.
(** resolving one cell takes away at most one term *)
Lemma unresolved_resolve s r c : r < length (rels Sh) ->
  length (unresolved_terms Sh s (terms_of Sh r)) <=
  length (unresolved_terms Sh (w_resolved (fset (d_resolved s) c true) s) (terms_of Sh r)) + 1.
Proof.
  intros Hr. destruct (rel_some r Hr) as (x & Hx & Ox). rewrite (terms_rel r x Hx). unfold unresolved_terms.
  destruct (in_dec Nat.eq_dec c (map oc (rel_names x))) as [Hc|Hc].
  - apply in_map_iff in Hc as (n & En & Hn). unfold rel_names in Hn. apply in_flat_map in Hn as (t & Ht & Hn).
    apply In_nth_error in Ht as (j0 & Hj0). destruct t as [ns0 e0]. cbn [fst] in Hn.
    apply filter_drop_one with (j := j0); [apply seq_NoDup|]. intros j _ Hj.
    destruct (nth_error (r_terms x) j) as [[ns e]|] eqn:E; auto. f_equal.
    destruct (term_names_good r x j ns e Hx Ox E) as [G I].
    destruct (term_names_good r x j0 ns0 e0 Hx Ox Hj0) as [G0 I0].
    apply term_resolved_ext; auto. intros m Hm. cbn [d_resolved w_resolved]. symmetry. apply fset_other.
    intros Ec. rewrite Forall_forall in G, G0.
    assert (m = n) by (apply oc_inj; auto; congruence). subst m.
    apply Hj. symmetry. eapply (NoDup_flat_split fst (r_terms x)); [exact (proj1 (proj2 (proj2 Ox)))| | | |]; eauto.
  - assert (E : filter (fun j => match nth_error (r_terms x) j with Some (ns, _) => negb (term_resolved Sh s ns) | None => false end) (seq 0 (length (r_terms x)))
     = filter (fun j => match nth_error (r_terms x) j with Some (ns, _) => negb (term_resolved Sh (w_resolved (fset (d_resolved s) c true) s) ns) | None => false end) (seq 0 (length (r_terms x)))).
    { apply filter_eq. intros j _. destruct (nth_error (r_terms x) j) as [[ns e]|] eqn:E; auto. f_equal.
      destruct (term_names_good r x j ns e Hx Ox E) as [G I].
      apply term_resolved_ext; auto. intros m Hm. cbn [d_resolved w_resolved]. symmetry. apply fset_other.
      intros Ec. apply Hc. rewrite <- Ec. apply in_map. auto. }
    rewrite E. lia.
Qed.

(** *** flow_out and detach *)
Definition zero_after (s : dyn) (d : nat) : bool := (dec (d_count s d) =? 0)%N.
Lemma flow_out_spec r j : forall ns i stk s,
  Forall good ns -> NoDup (map oc ns) ->
  match flow_out Sh r j ns i stk s with
  | RUB => False
  | RThrow x s' => x = XOver /\ exists d, In d (map oc ns) /\ d_term s d <> None
  | ROk stk' s' =>
    (forall n, In n ns -> d_term s (oc n) = None) /\
    (forall k n, nth_error ns k = Some n -> d_term s' (oc n) = Some (r, j, i + k)) /\
    (forall d, ~ In d (map oc ns) -> d_term s' d = d_term s d) /\
    (forall d, d_count s' d = if mem d (map oc ns) then dec (d_count s d) else d_count s d) /\
    (forall d, d_resolved s' d = d_resolved s d || (mem d (map oc ns) && zero_after s d)) /\
    d_rres s' = d_rres s /\
    stk' = rev (filter (fun d => negb (zero_after s d)) (map oc ns)) ++ stk
  end.
Proof.
  induction ns as [|n ns IH]; intros i stk s G N; cbn [flow_out map].
  - split; [intros n []|]. split; [intros [|k] n H; discriminate|]. split; [auto|]. split; [reflexivity|].
    split; [intros d; cbn [mem andb]; now rewrite Bool.orb_false_r|]. split; reflexivity.
  - inversion G as [|? ? Gn G']; subst. inversion N as [|? ? Nn N']; subst.
    destruct (good_oc n Gn) as [E (ci & Ei)]. rewrite E.
    destruct (d_term s (oc n)) as [t|] eqn:Et; [split; [reflexivity|exists (oc n); split; [left; reflexivity|congruence]]|].
    rewrite Ei.
    set (s1 := dec_count (oc n) (w_term (fset (d_term s) (oc n) (Some (r, j, i))) s)).
    set (s2 := if linked Sh ci then _ else s1).
    assert (F : d_term s2 = fset (d_term s) (oc n) (Some (r, j, i)) /\
                d_count s2 = fset (d_count s) (oc n) (dec (d_count s (oc n))) /\
                d_resolved s2 = d_resolved s /\ d_rres s2 = d_rres s).
    { unfold s2. destruct (linked Sh ci); repeat split. }
    destruct F as (F1 & F2 & F3 & F4). clearbody s2. clear s1.
    assert (Ez : (d_count s2 (oc n) =? 0)%N = zero_after s (oc n)).
    { rewrite F2, fset_same. reflexivity. }
    assert (Z : forall s3, d_count s3 = d_count s2 -> forall d, In d (map oc ns) -> zero_after s3 d = zero_after s d).
    { intros s3 H3 d Hd. unfold zero_after. rewrite H3, F2, fset_other; auto. intros ->. contradiction. }
    assert (Zf : forall s3, d_count s3 = d_count s2 ->
       filter (fun d => negb (zero_after s3 d)) (map oc ns) = filter (fun d => negb (zero_after s d)) (map oc ns)).
    { intros s3 H3. apply filter_eq. intros d Hd. f_equal. apply Z; auto. }
    set (s3 := if (d_count s2 (oc n) =? 0)%N then w_resolved (fset (d_resolved s2) (oc n) true) s2 else s2).
    set (stk3 := if (d_count s2 (oc n) =? 0)%N then stk else oc n :: stk).
    assert (Eq : (if (d_count s2 (oc n) =? 0)%N
        then flow_out Sh r j ns (Datatypes.S i) stk (w_resolved (fset (d_resolved s2) (oc n) true) s2)
        else flow_out Sh r j ns (Datatypes.S i) (oc n :: stk) s2) = flow_out Sh r j ns (Datatypes.S i) stk3 s3).
    { unfold s3, stk3. destruct (d_count s2 (oc n) =? 0)%N; reflexivity. }
    rewrite Eq. clear Eq.
    assert (G3 : d_term s3 = d_term s2 /\ d_count s3 = d_count s2 /\ d_rres s3 = d_rres s2 /\
       forall d, d_resolved s3 d = d_resolved s d || ((d =? oc n) && zero_after s (oc n))).
    { unfold s3. rewrite Ez. destruct (zero_after s (oc n)); (split; [reflexivity|split; [reflexivity|split; [reflexivity|]]]); intros d.
      - cbn [d_resolved w_resolved]. rewrite fset_eq, F3. destruct (d =? oc n); cbn; now rewrite ?Bool.orb_true_r, ?Bool.orb_false_r.
      - rewrite F3, Bool.andb_false_r, Bool.orb_false_r. reflexivity. }
    destruct G3 as (T3 & C3 & R3 & Rs3).
    specialize (IH (Datatypes.S i) stk3 s3 G' N').
    destruct (flow_out Sh r j ns (Datatypes.S i) stk3 s3) as [stk' s'|x s'|]; [| |exact IH].
    + destruct IH as (I1 & I2 & I3 & I4 & I5 & I6 & I7).
      split; [|split; [|split; [|split; [|split; [|split]]]]].
      * intros m [<-|Hm]; [exact Et|]. specialize (I1 m Hm). rewrite T3, F1, fset_other in I1; auto.
        intros Em. apply Nn. rewrite <- Em. now apply in_map.
      * intros [|k] m Hk; cbn [nth_error] in Hk.
        -- injection Hk as <-. rewrite I3 by exact Nn. rewrite T3, F1, fset_same, Nat.add_0_r. reflexivity.
        -- rewrite (I2 k m Hk). do 2 f_equal. lia.
      * intros d Hd. cbn [In] in Hd. rewrite I3 by tauto. rewrite T3, F1, fset_other; [reflexivity|intuition].
      * intros d. cbn [mem]. rewrite I4, C3, F2, fset_eq.
        destruct (Nat.eqb_spec d (oc n)) as [->|Hd]; cbn [orb]; [|reflexivity].
        rewrite (proj2 (mem_false _ _) Nn). reflexivity.
      * intros d. cbn [mem]. rewrite I5, Rs3.
        destruct (Nat.eqb_spec d (oc n)) as [->|Hd]; cbn [orb andb].
        -- rewrite (proj2 (mem_false _ _) Nn). cbn [andb]. now rewrite Bool.orb_false_r.
        -- rewrite Bool.orb_false_r. destruct (mem d (map oc ns)) eqn:Em; cbn [andb]; [|reflexivity].
           rewrite Z; auto. now apply mem_In.
      * rewrite I6, R3, F4. reflexivity.
      * rewrite I7, (Zf s3 C3). cbn [filter]. unfold stk3. rewrite Ez.
        destruct (zero_after s (oc n)); cbn [negb]; [reflexivity|].
        cbn [rev]. rewrite <- app_assoc. reflexivity.
    + destruct IH as (-> & d & Hd & Td). split; [reflexivity|]. exists d. split; [now right|].
      rewrite T3, F1, fset_other in Td; auto. intros ->. contradiction.
Qed.
Lemma detach_spec : forall ns s, Forall good ns -> NoDup (map oc ns) ->
  exists s', detach Sh ns s = ROk tt s' /\
    (forall d, d_count s' d = if mem d (map oc ns) && negb (d_resolved s d) then dec (d_count s d) else d_count s d) /\
    s' = w_count (d_count s') s.
Proof.
  induction ns as [|n ns IH]; intros s G N; cbn [detach map].
  - exists s. split; [reflexivity|]. split; [reflexivity|]. destruct s; reflexivity.
  - inversion G as [|? ? Gn G']; subst. inversion N as [|? ? Nn N']; subst.
    destruct (good_oc n Gn) as [E _]. rewrite E.
    destruct (IH (if d_resolved s (oc n) then s else dec_count (oc n) s) G' N') as (s' & H1 & H2 & H3).
    exists s'. split; [exact H1|]. split.
    + intros d. cbn [mem]. rewrite H2. destruct (d_resolved s (oc n)) eqn:Er.
      * destruct (Nat.eqb_spec d (oc n)) as [->|Hd]; cbn [orb andb]; [|reflexivity].
        rewrite Er, (proj2 (mem_false _ _) Nn). reflexivity.
      * cbn [dec_count d_resolved d_count w_count]. rewrite fset_eq.
        destruct (Nat.eqb_spec d (oc n)) as [->|Hd]; cbn [orb andb]; [|reflexivity].
        rewrite Er, (proj2 (mem_false _ _) Nn). reflexivity.
    + rewrite H3 at 1. destruct (d_resolved s (oc n)); reflexivity.
Qed.
End Flow.
