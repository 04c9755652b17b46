(** flow() ends, and what holds when it does. *)
From Coq Require Import String Permutation Sorted.
From Verif Require Import Prelude Vm_Value Adam_Model Adam_Spec Adam_Flow Adam_Flow2.
From Coq Require Import List.
Local Open Scope nat_scope.
Ltac Zify.zify_post_hook ::= idtac.

(** *** termination, for every sheet *)
Section Termination.
Variable Sh : sheet.
Definition weight (r : nat) : nat := length (flat_map fst (terms_of Sh r)).
Definition budget_of (s : dyn) (l : list nat) : nat :=
  list_sum (map (fun r => if d_rres s r then 0 else weight r) l).
Definition budget (s : dyn) : nat := budget_of s (seq 0 (length (rels Sh))).

Lemma budget_ext s s' l : (forall r, In r l -> d_rres s r = d_rres s' r) -> budget_of s l = budget_of s' l.
Proof. intros H. unfold budget_of. f_equal. apply map_ext_in. intros r Hr. now rewrite H. Qed.
Lemma budget_drop s s' r l : NoDup l -> In r l -> d_rres s r = false -> d_rres s' r = true ->
  (forall q, q <> r -> d_rres s' q = d_rres s q) -> budget_of s l = budget_of s' l + weight r.
Proof.
  intros N. revert r. induction N as [|a l Ha N IH]; intros r Hr U U' E; [destruct Hr|].
  unfold budget_of. cbn [map list_sum fold_right]. fold (budget_of s l). fold (budget_of s' l).
  change (fold_right Nat.add 0 (map (fun r0 => if d_rres s r0 then 0 else weight r0) l)) with (budget_of s l).
  change (fold_right Nat.add 0 (map (fun r0 => if d_rres s' r0 then 0 else weight r0) l)) with (budget_of s' l).
  destruct Hr as [->|Hr].
  - rewrite U, U'. rewrite (budget_ext s s' l); [lia|]. intros q Hq. symmetry. apply E. intros ->. contradiction.
  - rewrite (IH r Hr U U' E), (E a); [lia|]. intros ->. contradiction.
Qed.
Lemma flow_out_len r j : forall ns i stk s stk' s', flow_out Sh r j ns i stk s = ROk stk' s' ->
  length stk' <= length stk + length ns /\ d_rres s' = d_rres s.
Proof.
  induction ns as [|n ns IH]; intros i stk s stk' s' H; cbn [flow_out] in H.
  - injection H as <- <-. split; [lia|reflexivity].
  - destruct (output_cell Sh n) as [c|]; [|discriminate]. destruct (d_term s c); [discriminate|].
    destruct (input_of Sh c) as [ci|]; [|discriminate].
    destruct (d_count _ c =? 0)%N; apply IH in H as [H1 H2].
    + split; [cbn [length] in *; lia|]. rewrite H2. cbn [d_rres w_resolved]. destruct (linked Sh ci); reflexivity.
    + split; [cbn [length] in *; lia|]. rewrite H2. destruct (linked Sh ci); reflexivity.
Qed.
Lemma detach_rres : forall ns s u s', detach Sh ns s = ROk u s' -> d_rres s' = d_rres s.
Proof.
  induction ns as [|n ns IH]; intros s u s' H; cbn [detach] in H; [now injection H as _ <-|].
  destruct (output_cell Sh n) as [c|]; [|discriminate]. apply IH in H. rewrite H.
  destruct (d_resolved s c); reflexivity.
Qed.
Lemma weight_term r j ns e : nth_error (terms_of Sh r) j = Some (ns, e) -> length ns <= weight r.
Proof.
  intros H. unfold weight. revert j H. induction (terms_of Sh r) as [|[ms f] ts IH]; intros [|j] H; try discriminate; cbn [flat_map fst].
  - injection H as <- <-. rewrite app_length. lia.
  - rewrite app_length. specialize (IH j H). lia.
Qed.
Lemma flow_rels_len c : forall rs stk s stk' s', (forall r, In r rs -> r < length (rels Sh)) ->
  flow_rels Sh c rs stk s = ROk stk' s' -> length stk' + budget s' <= length stk + budget s.
Proof.
  induction rs as [|r rs IH]; intros stk s stk' s' B H; cbn [flow_rels] in H.
  - injection H as <- <-. lia.
  - assert (B' : forall r, In r rs -> r < length (rels Sh)) by (intros; apply B; now right).
    destruct (d_rres s r) eqn:U; [eapply IH; eauto|].
    assert (Eb : forall s2, d_rres s2 = d_rres s -> budget s2 = budget s) by (intros; apply budget_ext; intros; congruence).
    destruct (unresolved_terms Sh (dec_count c s) (terms_of Sh r)) as [|j [|j2 l]].
    + discriminate.
    + destruct (nth_error (terms_of Sh r) j) as [[ns e]|] eqn:Et; [|discriminate].
      destruct (flow_out Sh r j ns 0 stk _) as [stk1 s1| |] eqn:F; try discriminate.
      destruct (detach Sh _ s1) as [u s2| |] eqn:Dt; try discriminate.
      apply flow_out_len in F as [F1 F2]. apply detach_rres in Dt.
      specialize (IH stk1 s2 stk' s' B' H).
      assert (Rr : forall q, d_rres s2 q = if q =? r then true else d_rres s q) by (intros q; rewrite Dt, F2; reflexivity).
      assert (budget s = budget s2 + weight r).
      { apply budget_drop; auto.
        - apply seq_NoDup.
        - apply in_seq. specialize (B r (or_introl eq_refl)). lia.
        - rewrite Rr, Nat.eqb_refl. reflexivity.
        - intros q Hq. rewrite Rr, (proj2 (Nat.eqb_neq _ _) Hq). reflexivity. }
      pose proof (weight_term r j ns e Et). lia.
    + specialize (IH stk (dec_count c s) stk' s' B' H). rewrite (Eb (dec_count c s) eq_refl) in IH. exact IH.
Qed.
Lemma flow_loop_ends : forall fuel stk s, length stk + budget s <= fuel -> flow_loop Sh fuel stk s <> None.
Proof.
  induction fuel as [|f IH]; intros [|c stk] s H; cbn [flow_loop]; try discriminate.
  - cbn [length] in H. lia.
  - cbn [length] in H. destruct (d_count s c =? 0)%N; [apply IH; lia|].
    destruct (flow_rels Sh c (rindex Sh c) stk _) as [stk' s'| |] eqn:E; try discriminate.
    apply flow_rels_len in E; [|intros r Hr; now apply rindex_In in Hr].
    apply IH. assert (budget (w_resolved (fset (d_resolved s) c true) s) = budget s) by (apply budget_ext; reflexivity). lia.
Qed.
Lemma budget_all s : budget s <= length (all_names Sh).
Proof.
  unfold budget, budget_of, all_names, weight, terms_of.
  assert (G : forall l a, list_sum (map (fun r => if d_rres s (a + r) then 0 else length (flat_map fst
      match nth_error l r with Some x => r_terms x | None => [] end)) (seq 0 (length l)))
      <= length (flat_map (fun r => flat_map fst (r_terms r)) l)).
  { induction l as [|x l IH]; intros a; [cbn; lia|].
    cbn [length seq map list_sum fold_right flat_map nth_error]. rewrite app_length.
    rewrite <- seq_shift, map_map. cbn [nth_error]. specialize (IH (Datatypes.S a)).
    match type of IH with list_sum ?m <= _ => match goal with |- _ + fold_right Nat.add 0 ?m2 <= _ => replace m2 with m end end.
    - unfold list_sum in IH. destruct (d_rres s (a + 0)); lia.
    - apply map_ext. intros r. rewrite Nat.add_succ_r. reflexivity. }
  exact (G (rels Sh) 0).
Qed.
Theorem flow_ends D s : sched_ok D -> flow Sh D s <> None.
Proof.
  intros HD. unfold flow.
  assert (H : flow_loop Sh (flow_fuel Sh (flow_cells Sh s)) (sd_flow D (out_prio Sh s) (flow_cells Sh s)) s <> None).
  { apply flow_loop_ends. unfold flow_fuel.
    rewrite (Permutation_length (proj1 (proj1 (proj2 HD) (out_prio Sh s) (flow_cells Sh s)))).
    pose proof (budget_all s). lia. }
  destruct (flow_loop _ _ _ _) as [[?|?|]|]; congruence.
Qed.
End Termination.

Section Inv.
Variable Sh : sheet.
Hypothesis OK : relations_ok Sh.
Lemma detach_frame : forall ns s u s', detach Sh ns s = ROk u s' ->
  d_term s' = d_term s /\ d_prio s' = d_prio s /\ d_low s' = d_low s.
Proof.
  induction ns as [|n ns IH]; intros s u s'; cbn [detach]; [intros [= _ <-]; auto|].
  destruct (output_cell Sh n) as [c|]; [|discriminate]. intros H. apply IH in H.
  destruct (d_resolved s c); exact H.
Qed.
Variable s0 : dyn.
Variable p0 : nat -> Z.
Notation oc := (oc Sh).
Notation Inv := (Inv Sh s0 p0).
Notation source := (source Sh s0).
(** a further invariant, on the priorities and the chosen terms *)
Variable Q : dyn -> Prop.
Hypothesis Qframe : forall s s', d_term s' = d_term s -> d_prio s' = d_prio s -> d_low s' = d_low s -> Q s -> Q s'.
Hypothesis Qstep : forall c r rs pushed rest rank K s x j ns e stk' s',
  Inv c (r :: rs) pushed rest rank K s -> nth_error (rels Sh) r = Some x -> nth_error (r_terms x) j = Some (ns, e) ->
  d_rres s r = false -> In j (unresolved_terms Sh s (terms_of Sh r)) ->
  flow_out Sh r j ns 0 (pushed ++ rest) (w_rres (fset (d_rres (dec_count c s)) r true) (dec_count c s)) = ROk stk' s' ->
  Q s -> Q s'.

Lemma flow_rels_inv c rest : forall rs pushed rank K s,
  Inv c rs pushed rest rank K s -> Q s -> NoDup rs -> (forall r, In r rs -> r < length (rels Sh) /\ att Sh c r) ->
  d_resolved s c = true -> (exists e, source s e) ->
  match flow_rels Sh c rs (pushed ++ rest) s with
  | RUB => False
  | RThrow x _ => x = XOver
  | ROk stk' s' => exists pushed' rank' K', stk' = pushed' ++ rest /\
      Inv c [] pushed' rest rank' K' s' /\ Q s' /\ d_resolved s' c = true
  end.
Proof.
  induction rs as [|r rs IH]; intros pushed rank K s I HQ N B Rc Hsrc; cbn [flow_rels].
  - exists pushed, rank, K. split; [reflexivity|]. split; [exact I|]. split; [exact HQ|exact Rc].
  - assert (B' : forall q, In q rs -> q < length (rels Sh) /\ att Sh c q) by (intros; apply B; now right).
    inversion N as [|? ? Nr N']; subst. destruct (B r (or_introl eq_refl)) as [Hr Ac].
    destruct (d_rres s r) eqn:U.
    + apply (IH pushed rank K s); auto.
      destruct I as [i1 i2 i2c i3 i4 i5 i6 i7 i8 i8s i9 i10 i11 i12 i13]. constructor; auto.
      * intros H. rewrite (i2c H), unres_cons, U. reflexivity.
      * intros q Hq. destruct (i3 q Hq) as [A C]. split; auto. intros Hn. apply C. intros [<-|Hin]; [destruct Hq; congruence|contradiction].
    + assert (Eu : unresolved_terms Sh (dec_count c s) (terms_of Sh r) = unresolved_terms Sh s (terms_of Sh r)) by reflexivity.
      destruct (J3 _ _ _ _ _ _ _ _ _ _ I r (conj Hr U)) as [Hge _].
      destruct (unresolved_terms Sh (dec_count c s) (terms_of Sh r)) as [|j [|j2 l]] eqn:Ej.
      * rewrite <- Eu in Hge. cbn in Hge. lia.
      * destruct (flow_one Sh OK s0 p0 c r rs pushed rest rank K s j I N Hr Ac Rc Hsrc U Ej) as (x & ns & e & Hx & Hns & F).
        rewrite Hns. cbv zeta in F.
        destruct (flow_out Sh r j ns 0 (pushed ++ rest) _) as [stk1 s1|y s1|] eqn:Fo; [|exact F|exact F].
        destruct F as (s4 & pushed' & rank' & Dt & -> & _ & I' & Rc' & Hsrc' & _). rewrite Dt.
        assert (HQ' : Q s4).
        { apply (Qframe s1); try (apply detach_frame in Dt; tauto).
          rewrite (terms_rel Sh r x Hx) in Hns.
          apply (Qstep c r rs pushed rest rank K s x j ns e (pushed' ++ rest) s1 I Hx Hns U); [|exact Fo|exact HQ].
          rewrite <- Eu. now left. }
        exact (IH pushed' rank' (Datatypes.S K) s4 I' HQ' N' B' Rc' Hsrc').
      * apply (IH pushed rank K (dec_count c s)); auto; [|exact (Qframe s (dec_count c s) eq_refl eq_refl eq_refl HQ)].
        assert (Ec : dec (d_count s c) = N.of_nat (unres s rs)).
        { rewrite (J2c _ _ _ _ _ _ _ _ _ _ I Rc), unres_cons, U, dec_pos by lia. lia. }
        assert (Eq : forall d, d <> c -> d_count (dec_count c s) d = d_count s d) by (intros d Hd; apply fset_other; auto).
        destruct I as [i1 i2 i2c i3 i4 i5 i6 i7 i8 i8s i9 i10 i11 i12 i13]. constructor; auto.
        -- intros d Hd. assert (d <> c) by (intros ->; cbn in Hd; congruence). rewrite Eq by auto. exact (i1 d Hd).
        -- intros d Hd Hn. rewrite Eq by auto. exact (i2 d Hd Hn).
        -- intros _. cbn [dec_count d_count w_count]. rewrite fset_same. exact Ec.
        -- intros q Hq. destruct (i3 q Hq) as [A C]. split; [exact A|]. intros Hn.
           destruct (Nat.eq_dec q r) as [->|Hqr].
           ++ change (2 <= length (unresolved_terms Sh s (terms_of Sh r))). rewrite <- Eu. cbn. lia.
           ++ apply C. intros [<-|Hin]; [congruence|contradiction].
Qed.

Lemma unres_pos s d : unres s (rindex Sh d) <> 0 -> exists r, act Sh s r /\ att Sh d r.
Proof.
  unfold unres. destruct (filter (fun r => negb (d_rres s r)) (rindex Sh d)) as [|r l] eqn:E; [cbn; congruence|]. intros _.
  assert (H : In r (filter (fun r => negb (d_rres s r)) (rindex Sh d))) by (rewrite E; now left).
  apply filter_In in H as [H1 H2]. apply rindex_In in H1 as [H1 H3]. exists r. split; [split; auto|exact H3].
  now destruct (d_rres s r).
Qed.
Lemma unres_att s d r : act Sh s r -> att Sh d r -> unres s (rindex Sh d) <> 0.
Proof.
  intros [H1 H2] H3. unfold unres.
  assert (H : In r (filter (fun r => negb (d_rres s r)) (rindex Sh d))).
  { apply filter_In. split; [apply rindex_In; auto|]. now rewrite H2. }
  destruct (filter (fun r => negb (d_rres s r)) (rindex Sh d)); [destruct H|cbn; lia].
Qed.

Lemma pop_skip c0 c pushed rest stk rank K s :
  Inv c0 [] pushed rest rank K s -> c :: stk = pushed ++ rest -> d_count s c = 0%N ->
  exists pushed' rest', stk = pushed' ++ rest' /\ Inv c0 [] pushed' rest' rank K s.
Proof.
  intros I E Z. destruct pushed as [|p pushed]; cbn [app] in E.
  - subst rest. exists [], stk. split; [reflexivity|].
    destruct I as [i1 i2 i2c i3 i4 i5 i6 i7 i8 i8s i9 i10 i11 i12 i13]. constructor; auto.
    + intros d r Hr Hd Hu. destruct (i4 d r Hr Hd Hu) as [<-|H]; auto.
      exfalso. rewrite (i1 c Hu) in Z. apply (unres_att s c r Hr Hd). lia.
    + inversion i8s; auto.
    + intros e d He Hd. apply i9; auto. now right.
  - injection E as <- ->. exists pushed, rest. split; [reflexivity|].
    destruct I as [i1 i2 i2c i3 i4 i5 i6 i7 i8 i8s i9 i10 i11 i12 i13]. constructor; auto.
    intros d Hd. apply i8. now right.
Qed.
Lemma pop_take c0 c pushed rest stk rank K s :
  Inv c0 [] pushed rest rank K s -> c :: stk = pushed ++ rest -> d_count s c <> 0%N ->
  exists pushed' rest' rank', stk = pushed' ++ rest' /\
    Inv c (rindex Sh c) pushed' rest' rank' (Datatypes.S K) (w_resolved (fset (d_resolved s) c true) s) /\
    (exists e, source (w_resolved (fset (d_resolved s) c true) s) e).
Proof.
  intros I E Z. set (s' := w_resolved (fset (d_resolved s) c true) s).
  assert (Uc : d_resolved s c = false).
  { destruct (d_resolved s c) eqn:H; auto. exfalso. apply Z. destruct (Nat.eq_dec c c0) as [->|Hn].
    - exact (J2c _ _ _ _ _ _ _ _ _ _ I H).
    - exact (J2 _ _ _ _ _ _ _ _ _ _ I c H Hn). }
  assert (Rm : forall d, d_resolved s d = true -> d_resolved s' d = true).
  { intros d Hd. unfold s'. cbn [d_resolved w_resolved]. rewrite fset_eq. destruct (d =? c); auto. }
  assert (Ro : forall d, d <> c -> d_resolved s' d = d_resolved s d).
  { intros d Hd. unfold s'. cbn [d_resolved w_resolved]. now apply fset_other. }
  assert (Actc : exists r, act Sh s0 r /\ att Sh c r).
  { destruct (unres_pos s c) as (r & [Hr Hr2] & Ha).
    - rewrite (J1 _ _ _ _ _ _ _ _ _ _ I c Uc) in Z. lia.
    - exists r. split; auto. split; auto. destruct (d_rres s0 r) eqn:E0; auto. rewrite (J7 _ _ _ _ _ _ _ _ _ _ I r E0) in Hr2. discriminate. }
  assert (Sm : forall e, source s e -> source s' e) by (intros e (A & B & C); split; auto).
  assert (Sb : forall e, source s' e -> e <> c -> source s e) by (intros e (A & B & C) Hn; split; [rewrite <- (Ro e Hn); exact A|auto]).
  assert (Hsrc : exists e, source s' e).
  { destruct (d_term s c) as [t|] eqn:Et.
    - destruct (J12 _ _ _ _ _ _ _ _ _ _ I c) as (e & He & _); [congruence|]. exists e. auto.
    - exists c. split; [unfold s'; cbn [d_resolved w_resolved]; apply fset_same|]. auto. }
  set (rank' := match d_term s c with None => fset rank c K | Some _ => rank end).
  assert (Rk : forall d, determined s d -> rank' d = rank d).
  { intros d Hd. unfold rank'. destruct (d_term s c) eqn:Et; auto. apply fset_other. intros ->. destruct Hd; congruence. }
  assert (Sp : exists pushed' rest', stk = pushed' ++ rest' /\ (forall d, In d pushed' -> d_term s d <> None) /\
     StronglySorted (fun a b => (p0 b <= p0 a)%Z) rest' /\ (forall d, In d rest' -> In d rest) /\
     (forall d, In d rest -> d <> c -> In d rest') /\ (d_term s c = None -> forall d, In d rest' -> (p0 d <= p0 c)%Z)).
  { pose proof (J8s _ _ _ _ _ _ _ _ _ _ I) as Hs. pose proof (J8 _ _ _ _ _ _ _ _ _ _ I) as Hp.
    destruct pushed as [|p pushed]; cbn [app] in E.
    - subst rest. exists [], stk. split; [reflexivity|]. split; [intros d []|]. inversion Hs as [|? ? H1 H2]; subst.
      split; auto. split; [intros; now right|]. split; [intros d [<-|H] Hn; [congruence|auto]|].
      intros _ d Hd. rewrite Forall_forall in H2. auto.
    - injection E as <- ->. exists pushed, rest. split; [reflexivity|]. split; [intros d Hd; apply Hp; now right|].
      split; auto. split; auto. split; auto. intros H. exfalso. apply (Hp c); [now left|exact H]. }
  destruct Sp as (pushed' & rest' & Es & P1 & P2 & P3 & P4 & P5).
  exists pushed', rest', rank'. split; [exact Es|]. split; [|exact Hsrc].
  constructor.
  - intros d Hd. assert (d <> c) by (intros ->; unfold s' in Hd; cbn [d_resolved w_resolved] in Hd; rewrite fset_same in Hd; discriminate).
    rewrite (Ro d H) in Hd. exact (J1 _ _ _ _ _ _ _ _ _ _ I d Hd).
  - intros d Hd Hn. rewrite (Ro d Hn) in Hd. change (d_count s d = 0%N). destruct (Nat.eq_dec d c0) as [->|H0].
    + exact (J2c _ _ _ _ _ _ _ _ _ _ I Hd).
    + exact (J2 _ _ _ _ _ _ _ _ _ _ I d Hd H0).
  - intros _. exact (J1 _ _ _ _ _ _ _ _ _ _ I c Uc).
  - intros r Hr. destruct (J3 _ _ _ _ _ _ _ _ _ _ I r Hr) as [_ H2]. specialize (H2 (fun x => x)).
    pose proof (unresolved_resolve Sh OK s r c (proj1 Hr)) as Hl. fold s' in Hl. split; [lia|].
    intros Hn. rewrite (unresolved_ext Sh OK s' s r (proj1 Hr)); [exact H2|].
    intros d Hd. apply Ro. intros ->. apply Hn. apply rindex_In. split; [apply Hr|exact Hd].
  - intros d r Hr Hd Hu. assert (d <> c) by (intros ->; unfold s' in Hu; cbn [d_resolved w_resolved] in Hu; rewrite fset_same in Hu; discriminate).
    apply P4; auto. apply (J4 _ _ _ _ _ _ _ _ _ _ I d r Hr Hd). rewrite <- (Ro d H). exact Hu.
  - exact (J5 _ _ _ _ _ _ _ _ _ _ I).
  - intros d r j i Hd. destruct (J6 _ _ _ _ _ _ _ _ _ _ I d r j i Hd) as (A & B & x & ns & e & n & C1 & C2 & C3 & C4 & C5).
    split; auto. split; auto. exists x, ns, e, n. split; [exact C1|]. split; [exact C2|]. split; [exact C3|]. split; [exact C4|].
    intros Hs d' Ha Hn. destruct (C5 Hs d' Ha Hn) as [X Y]. split; [now apply Rm|].
    assert (d_term s d = Some (r, j, i)) by exact Hd.
    rewrite !Rk; [exact Y| |]; [right; congruence|now left].
  - exact (J7 _ _ _ _ _ _ _ _ _ _ I).
  - exact P1.
  - exact P2.
  - intros e d He Hd. destruct (Nat.eq_dec e c) as [->|Hn].
    + apply P5; auto. exact (proj1 (proj2 He)).
    + apply (J9 _ _ _ _ _ _ _ _ _ _ I); auto.
  - intros d Hd. destruct (Nat.eq_dec d c) as [->|Hn].
    + unfold rank'. destruct (d_term s c) eqn:Et.
      * assert (rank c < K); [|lia]. apply (J10 _ _ _ _ _ _ _ _ _ _ I). right. congruence.
      * rewrite fset_same. lia.
    + assert (Hs : determined s d) by (destruct Hd as [Hd|Hd]; [left; rewrite <- (Ro d Hn); exact Hd|right; exact Hd]).
      rewrite (Rk d Hs). pose proof (J10 _ _ _ _ _ _ _ _ _ _ I d Hs). lia.
  - intros d e He Hd Hr. assert (Hdd : determined s d) by (right; exact Hd). rewrite (Rk d Hdd) in Hr.
    pose proof (J10 _ _ _ _ _ _ _ _ _ _ I d Hdd). destruct (Nat.eq_dec e c) as [->|Hn].
    + unfold rank' in Hr. destruct He as (_ & Hte & _). change (d_term s c = None) in Hte. rewrite Hte, fset_same in Hr. lia.
    + pose proof (Sb e He Hn) as He'. rewrite Rk in Hr by (left; apply He').
      exact (J11 _ _ _ _ _ _ _ _ _ _ I d e He' Hd Hr).
  - intros d Hd. destruct (J12 _ _ _ _ _ _ _ _ _ _ I d Hd) as (e & A & B & C). exists e. auto.
  - exact (J13 _ _ _ _ _ _ _ _ _ _ I).
Qed.

Lemma flow_loop_inv : forall fuel c0 pushed rest rank K s,
  Inv c0 [] pushed rest rank K s -> Q s ->
  match flow_loop Sh fuel (pushed ++ rest) s with
  | None => True
  | Some RUB => False
  | Some (RThrow x _) => x = XOver
  | Some (ROk _ s') => (exists c rank' K', Inv c [] [] [] rank' K' s') /\ Q s'
  end.
Proof.
  induction fuel as [|f IH]; intros c0 pushed rest rank K s I HQ.
  - destruct (pushed ++ rest) as [|c stk] eqn:E; cbn [flow_loop]; auto.
    apply app_eq_nil in E as [-> ->]. split; [eauto|exact HQ].
  - destruct (pushed ++ rest) as [|c stk] eqn:E; cbn [flow_loop].
    + apply app_eq_nil in E as [-> ->]. split; [eauto|exact HQ].
    + destruct (d_count s c =? 0)%N eqn:Z.
      * apply N.eqb_eq in Z. destruct (pop_skip c0 c pushed rest stk rank K s I (eq_sym E) Z) as (p' & r' & -> & I').
        exact (IH c0 p' r' rank K s I' HQ).
      * apply N.eqb_neq in Z. destruct (pop_take c0 c pushed rest stk rank K s I (eq_sym E) Z) as (p' & r' & rank' & -> & I' & Hsrc).
        pose proof (flow_rels_inv c r' (rindex Sh c) p' rank' (Datatypes.S K) _ I' (Qframe s (w_resolved (fset (d_resolved s) c true) s) eq_refl eq_refl eq_refl HQ) (rindex_NoDup Sh c)) as F.
        specialize (F ltac:(intros r Hr; now apply rindex_In in Hr)).
        specialize (F (fset_same _ _ _) Hsrc).
        destruct (flow_rels Sh c (rindex Sh c) (p' ++ r') _) as [stk' s'|x s'|]; [|exact F|exact F].
        destruct F as (p2 & rank2 & K2 & -> & I2 & HQ2 & _). exact (IH c p2 r' rank2 K2 s' I2 HQ2).
Qed.

Lemma inv_start stk : undecided Sh s0 ->
  (forall d r, act Sh s0 r -> att Sh d r -> In d stk) ->
  StronglySorted (fun a b => (p0 b <= p0 a)%Z) stk ->
  Inv 0 [] [] stk (fun _ => 0) 1 s0.
Proof using OK.
  clear Qframe Qstep Q.
  intros (U1 & U2 & U3 & U4) Hin Hs.
  assert (A2 : forall d r, act Sh s0 r -> att Sh d r -> attached Sh d r).
  { intros d r [H1 _] H2. destruct (rel_some Sh OK r H1) as (x & Hx & _). exists x. split; auto.
    unfold att in H2. now rewrite (edges_rel Sh r x Hx) in H2. }
  constructor.
  - intros d _. apply U2.
  - intros d Hd _. apply U4; auto.
  - intros H. cbn. now apply U4.
  - intros r Hr. destruct (rel_some Sh OK r (proj1 Hr)) as (x & Hx & Ox).
    assert (H : length (unresolved_terms Sh s0 (terms_of Sh r)) = length (terms_of Sh r)).
    { unfold unresolved_terms. transitivity (length (filter (fun _ => true) (seq 0 (length (terms_of Sh r))))).
      - f_equal. apply filter_eq. intros j Hj. apply in_seq in Hj.
        destruct (nth_error (terms_of Sh r) j) as [[ns e]|] eqn:E; [|apply nth_error_None in E; lia].
        rewrite (terms_rel Sh r x Hx) in E. destruct (term_names_good Sh r x j ns e Hx Ox E) as [G Is].
        rewrite (proj2 (term_resolved_false Sh s0 ns G)); [reflexivity|].
        intros n Hn. apply (U3 _ r); [exact Hr|]. exists x. split; auto.
        apply (proj2 (proj2 (proj2 (proj2 Ox)))). exists n. split; auto.
        rewrite Forall_forall in G. apply good_oc; auto.
      - assert (G : forall l : list nat, length (filter (fun _ => true) l) = length l) by (induction l; cbn; auto).
        rewrite G. apply seq_length. }
    rewrite H, (terms_rel Sh r x Hx). pose proof (proj1 Ox). split; [lia|]. auto.
  - intros d r Hr Hd _. eauto.
  - intros r Hr H. now left.
  - intros d r j i H. rewrite U1 in H. discriminate.
  - auto.
  - intros d [].
  - exact Hs.
  - intros e d (H1 & _ & r & Hr & Ha). exfalso. rewrite (U3 e r Hr (A2 e r Hr Ha)) in H1. discriminate.
  - auto.
  - intros d e _ H. rewrite U1 in H. congruence.
  - intros d H. rewrite U1 in H. congruence.
  - intros d d' r j j' i i' H. rewrite U1 in H. discriminate.
Qed.
End Inv.

Lemma flow_cells_In Sh s d : In d (flow_cells Sh s) <-> exists r, act Sh s r /\ att Sh d r.
Proof.
  unfold flow_cells. rewrite nodup_In, in_flat_map. split.
  - intros (r & Hr & Hd). apply in_seq in Hr. destruct (d_rres s r) eqn:E; [destruct Hd|].
    exists r. split; [split; [lia|exact E]|exact Hd].
  - intros (r & [Hr E] & Hd). exists r. split; [apply in_seq; lia|]. now rewrite E.
Qed.
(** the result of flow(), for every sheet whose relations are well formed *)
Lemma flow_result_with Sh D s (Q : dyn -> Prop) : relations_ok Sh -> sched_ok D -> undecided Sh s -> Q s ->
  (forall s s', d_term s' = d_term s -> d_prio s' = d_prio s -> d_low s' = d_low s -> Q s -> Q s') ->
  (forall c r rs pushed rest rank K s1 x j ns e stk' s',
    Adam_Flow2.Inv Sh s (out_prio Sh s) c (r :: rs) pushed rest rank K s1 -> nth_error (rels Sh) r = Some x ->
    nth_error (r_terms x) j = Some (ns, e) -> d_rres s1 r = false -> In j (unresolved_terms Sh s1 (terms_of Sh r)) ->
    flow_out Sh r j ns 0 (pushed ++ rest) (w_rres (fset (d_rres (dec_count c s1)) r true) (dec_count c s1)) = ROk stk' s' ->
    Q s1 -> Q s') ->
  match flow Sh D s with
  | None => False
  | Some RUB => False
  | Some (RThrow x _) => x = XOver
  | Some (ROk pa s') => pa = accessed Sh (flow_cells Sh s) /\
      (exists c rank K, Adam_Flow2.Inv Sh s (out_prio Sh s) c [] [] [] rank K s') /\ Q s'
  end.
Proof.
  intros OK HD U HQ QF QS. pose proof (flow_ends Sh D s HD) as NE. unfold flow in *.
  destruct (proj1 (proj2 HD) (out_prio Sh s) (flow_cells Sh s)) as [P St].
  pose proof (flow_loop_inv Sh OK s (out_prio Sh s) Q QF QS (flow_fuel Sh (flow_cells Sh s)) 0 []
     (sd_flow D (out_prio Sh s) (flow_cells Sh s)) (fun _ => 0) 1 s) as F.
  cbn [app] in F. specialize (F (inv_start Sh OK s (out_prio Sh s) _ U
    ltac:(intros d r Hr Hd; apply (Permutation_in _ (Permutation_sym P)); apply flow_cells_In; eauto) St) HQ).
  destruct (flow_loop Sh _ _ s) as [[u s'|x s'|]|]; auto.
Qed.
Lemma flow_result Sh D s : relations_ok Sh -> sched_ok D -> undecided Sh s ->
  match flow Sh D s with
  | None => False
  | Some RUB => False
  | Some (RThrow x _) => x = XOver
  | Some (ROk pa s') => pa = accessed Sh (flow_cells Sh s) /\
      exists c rank K, Adam_Flow2.Inv Sh s (out_prio Sh s) c [] [] [] rank K s'
  end.
Proof.
  intros OK HD U. pose proof (flow_result_with Sh D s (fun _ => True) OK HD U Logic.I) as F.
  specialize (F ltac:(auto) ltac:(auto)). destruct (flow Sh D s) as [[pa s'|x s'|]|]; auto.
  destruct F as (A & B & _). auto.
Qed.
