(** The priorities of the cells of a sheet. *)
From Coq Require Import String Permutation Sorted.
From Verif Require Import Prelude Vm_Value Adam_Model Adam_Spec Adam_Flow Adam_Flow2 Adam_Flow3 Adam_Build Adam_Frame.
From Coq Require Import List.
Import ListNotations.
Local Open Scope nat_scope.
Ltac Zify.zify_post_hook ::= idtac.

(** every priority lies between the lowest and the highest given out so far *)
Definition bounds (s : dyn) : Prop :=
  (d_low s <= 0 <= d_high s)%Z /\ forall i, (d_low s <= d_prio s i <= d_high s)%Z /\
  forall k, d_prio s i = d_prio s k -> i = k \/ d_prio s i = 0%Z.
Definition bounded {A} (r : res A) : Prop :=
  match r with ROk _ s => bounds s | RThrow _ s => bounds s | RUB => True end.
Lemma bounds_eq s s' : d_prio s' = d_prio s -> d_low s' = d_low s -> d_high s' = d_high s -> bounds s -> bounds s'.
Proof. unfold bounds. intros -> -> ->. auto. Qed.
Lemma bounds_raise s i : bounds s -> bounds (w_prio (fset (d_prio s) i (d_high s + 1)%Z) (w_high (d_high s + 1)%Z s)).
Proof.
  intros [A B]. split; cbn [d_low d_high d_prio w_prio w_high]; [lia|]. intros k. rewrite fset_eq.
  pose proof (B k) as [B1 B2]. split; [destruct (k =? i); lia|]. intros m. rewrite fset_eq. destruct (B m) as [B3 _].
  destruct (Nat.eqb_spec k i), (Nat.eqb_spec m i); intros H; [left; congruence|lia|lia|auto].
Qed.
Lemma bounds_lower s i : bounds s -> bounds (w_prio (fset (d_prio s) i (d_low s - 1)%Z) (w_low (d_low s - 1)%Z s)).
Proof.
  intros [A B]. split; cbn [d_low d_high d_prio w_prio w_low]; [lia|]. intros k. rewrite fset_eq.
  pose proof (B k) as [B1 B2]. split; [destruct (k =? i); lia|]. intros m. rewrite fset_eq. destruct (B m) as [B3 _].
  destruct (Nat.eqb_spec k i), (Nat.eqb_spec m i); intros H; [left; congruence|lia|lia|auto].
Qed.
Lemma bounds_frame s s' : frame s s' -> bounds s -> bounds s'.
Proof. intros (A & _ & _ & _ & _ & _ & _ & _ & B & C & _). now apply bounds_eq. Qed.
Lemma bounds_cframe s s' : cframe s s' -> bounds s -> bounds s'.
Proof. intros (A & _ & _ & _ & _ & _ & B & C & _). now apply bounds_eq. Qed.

Section Flow.
Variable Sh : sheet.
Lemma flow_out_bounds r j : forall ns i stk s, bounds s -> bounded (flow_out Sh r j ns i stk s).
Proof.
  induction ns as [|n ns IH]; intros i stk s B; cbn [flow_out]; [exact B|].
  destruct (output_cell Sh n) as [c|]; [|exact I]. destruct (d_term s c); [exact B|].
  destruct (input_of Sh c) as [ci|]; [|exact I]. cbv zeta.
  set (s1 := dec_count c _). assert (B1 : bounds s1) by (revert B; now apply bounds_eq).
  assert (B2 : bounds (if linked Sh ci then w_prio (fset (d_prio s1) ci (d_low s1 - 1)%Z) (w_low (d_low s1 - 1)%Z s1) else s1)).
  { destruct (linked Sh ci); auto. now apply bounds_lower. }
  destruct (d_count _ c =? 0)%N; apply IH; auto.
Qed.
Lemma detach_bounds ns s : bounds s -> bounded (detach Sh ns s).
Proof.
  revert s. induction ns as [|n ns IH]; intros s B; cbn [detach]; [exact B|].
  destruct (output_cell Sh n) as [c|]; [|exact I]. apply IH. destruct (d_resolved s c); auto.
Qed.
Lemma flow_rels_bounds c : forall rs stk s, bounds s -> bounded (flow_rels Sh c rs stk s).
Proof.
  induction rs as [|r rs IH]; intros stk s B; cbn [flow_rels]; [exact B|].
  destruct (d_rres s r); [auto|]. cbv zeta.
  destruct (unresolved_terms Sh (dec_count c s) (terms_of Sh r)) as [|j [|j2 l]]; [exact B| |].
  - destruct (nth_error (terms_of Sh r) j) as [[ns e]|]; [|exact I].
    match goal with |- bounded (match flow_out ?a ?b ?c ?d ?e ?f ?g with _ => _ end) =>
      pose proof (flow_out_bounds b c d e f g ltac:(revert B; now apply bounds_eq)) as Q; destruct (flow_out a b c d e f g) as [stk' s'|x s'|] end; auto.
    pose proof (detach_bounds (nodup string_dec (others j 0 (terms_of Sh r))) s' Q) as Q2.
    destruct (detach Sh _ s') as [u s2|x s2|]; auto.
  - apply IH. revert B. now apply bounds_eq.
Qed.
Lemma flow_loop_bounds : forall f stk s, bounds s ->
  match flow_loop Sh f stk s with Some r => bounded r | None => True end.
Proof.
  induction f as [|f IH]; intros [|c stk] s B; cbn [flow_loop]; auto.
  destruct (d_count s c =? 0)%N; [exact (IH stk s B)|].
  pose proof (flow_rels_bounds c (rindex Sh c) stk (w_resolved (fset (d_resolved s) c true) s) ltac:(revert B; now apply bounds_eq)) as Q.
  destruct (flow_rels Sh c _ stk _) as [stk' s'|x s'|]; [exact (IH stk' s' Q)|exact Q|exact I].
Qed.
Lemma flow_bounds D s : bounds s -> match flow Sh D s with Some r => bounded r | None => True end.
Proof.
  intros B. unfold flow. pose proof (flow_loop_bounds (flow_fuel Sh (flow_cells Sh s)) (sd_flow D (out_prio Sh s) (flow_cells Sh s)) s B) as Q.
  destruct (flow_loop Sh _ _ s) as [[u s'|x s'|]|]; auto.
Qed.
Lemma conditionals_cframe : forall rs r s, match conditionals Sh rs r s with RUB => True | RThrow _ s' => cframe s s' | ROk _ s' => cframe s s' end.
Proof.
  induction rs as [|x rs IH]; intros r s; cbn [conditionals]; [apply cframe_refl|].
  destruct (r_cond x) as [e|]; [|apply IH].
  pose proof (calc_expr_frame Sh e s) as Q. destruct (calc_expr Sh e s) as [v s1|y s1|]; cbn [keeps] in Q; auto; [|now apply frame_cframe].
  apply frame_cframe in Q.
  destruct v as [|[|]| | | | | | |]; auto.
  - specialize (IH (S r) s1). destruct (conditionals Sh rs (S r) s1); auto; eapply cframe_trans; eauto.
  - cbv zeta. set (s2 := w_rres _ _).
    assert (F : cframe s1 s2).
    { unfold s2. pose proof (fold_dec_other (r_edges x) s1) as Fo. cbv zeta in Fo. rewrite Fo. repeat split. }
    specialize (IH (S r) s2). destruct (conditionals Sh rs (S r) s2); auto; (eapply cframe_trans; [exact Q|]); eapply cframe_trans; eauto.
Qed.
Lemma update_bounds D l s : bounds s -> match update Sh D l s with Some r => bounded r | None => True end.
Proof.
  intros B. unfold update. pose proof (conditionals_cframe (rels Sh) 0 (clear Sh s)) as Q.
  assert (Bc : bounds (clear Sh s)) by exact B.
  destruct (conditionals Sh (rels Sh) 0 (clear Sh s)) as [u s1|x s1|]; auto; [|cbn; eapply bounds_cframe; eauto].
  assert (B1 : bounds (w_cond (d_acc s1) s1)) by exact (bounds_cframe _ _ Q Bc).
  pose proof (flow_bounds D _ B1) as Q1.
  destruct (flow Sh D (w_cond (d_acc s1) s1)) as [[pa s2|x s2|]|]; auto. cbn [bounded] in Q1.
  pose proof (evaluate_all_frame Sh (sd_iter D (map snd (output_index Sh))) s2) as Q2.
  destruct (evaluate_all Sh _ s2) as [u2 s3|x s3|]; cbn [keeps] in Q2; auto; [|cbn; eapply bounds_frame; eauto].
  assert (B3 : bounds s3) by (eapply bounds_frame; eauto).
  destruct (poisoned (invariant_index Sh) 0%N s3) as [p|]; [|exact B3].
  exact B3.
Qed.
Lemma get_init_frame n s : keeps s (get_init Sh n s).
Proof.
  unfold get_init. destruct (lookup n (input_index Sh)); [repeat split|].
  destruct (lookup n (name_index Sh)); [|apply frame_refl]. destruct (spec_is Sh _ _); repeat split.
Qed.
Lemma init_expr_frame e s : keeps s (ev (get_init Sh) e s).
Proof. apply ev_frame. intros. apply get_init_frame. Qed.
Lemma initialize_one_bounds c s : bounds s -> bounded (initialize_one Sh c s).
Proof.
  intros B. unfold initialize_one. destruct (cell_at Sh c) as [k|]; [|exact I].
  assert (Q : keeps (w_acc 0%N s) (run_calc (get_init Sh) (c_calc k) (w_acc 0%N s))).
  { destruct (c_calc k); cbn [run_calc]; [apply frame_refl|apply init_expr_frame|apply get_init_frame]. }
  destruct (run_calc (get_init Sh) (c_calc k) (w_acc 0%N s)) as [v s1|x s1|]; cbn [keeps bounded] in *; auto.
  - assert (B1 : bounds s1) by (eapply bounds_frame; eauto).
    apply (bounds_raise s1 c) in B1. exact B1.
  - eapply bounds_frame; eauto.
Qed.
Lemma reinit_bounds : forall l s, bounds s -> bounded (reinit_all Sh l s).
Proof.
  induction l as [|c l IH]; intros s B; cbn [reinit_all]; [exact B|].
  destruct (input_of Sh c) as [i|]; auto. destruct (_ =? 0)%N; auto.
  pose proof (initialize_one_bounds i s B) as Q. destruct (initialize_one Sh i s); auto.
Qed.
Lemma touch_bounds D ns s : bounds s -> bounds (touch Sh D ns s).
Proof.
  unfold touch. generalize (sd_touch D (d_prio s) (flat_map (fun n => match lookup n (input_index Sh) with Some c => [c] | None => [] end) ns)).
  intros l. revert s. induction l as [|c l IH]; intros s B; cbn [fold_left]; [exact B|]. apply IH. now apply bounds_raise.
Qed.
End Flow.
Lemma fresh_bounds c v b s : bounds s -> bounds (fresh_cell c v b s).
Proof.
  intros [A B]. split; [exact A|]. intros i. cbn [fresh_cell d_low d_high d_prio w_state w_prio w_resolved w_evaluated w_count w_contrib w_init w_inv w_term].
  rewrite fset_eq. pose proof (B i) as [B1 B2]. split; [destruct (i =? c); lia|]. intros m. rewrite fset_eq.
  destruct (Nat.eqb_spec i c), (Nat.eqb_spec m c); intros H; [left; congruence|now right|now right|auto].
Qed.
Lemma finish_bounds n c Sh s k Sh' s' : bounds s -> finish_name n c Sh s k = BOk Sh' s' -> bounds s'.
Proof. intros B. unfold finish_name. destruct (lookup n (name_index Sh)); [discriminate|]. now intros [= _ <-]. Qed.
Lemma build_bounds o Sh s Sh' s' : bounds s -> build o Sh s = BOk Sh' s' -> bounds s'.
Proof.
  intros B H. destruct o; cbn [build] in H.
  - unfold add_input in H. destruct init as [e|].
    + pose proof (init_expr_frame Sh e s) as Q. destruct (ev (get_init Sh) e s) as [v s1| |]; try discriminate.
      destruct (1024 <=? length (cells Sh)); [discriminate|]. eapply finish_bounds; [|exact H].
      apply (fresh_bounds _ v true). eapply bounds_frame; eauto.
    + destruct (1024 <=? length (cells Sh)); [discriminate|]. eapply finish_bounds; [|exact H]. now apply (fresh_bounds _ VEmpty true).
  - eapply finish_bounds; [|exact H]. now apply fresh_bounds.
  - eapply finish_bounds; [|exact H]. now apply fresh_bounds.
  - eapply finish_bounds; [|exact H]. now apply fresh_bounds.
  - unfold add_constant in H. pose proof (init_expr_frame Sh e s) as Q. destruct (ev (get_init Sh) e s) as [v s1| |]; try discriminate.
    eapply finish_bounds; [|exact H]. apply fresh_bounds. eapply bounds_frame; eauto.
  - eapply finish_bounds; [|exact H]. now apply fresh_bounds.
  - unfold add_interface in H. destruct (1024 <=? length (cells Sh)); [discriminate|]. cbv zeta in H.
    set (s2 := w_contrib _ _) in H. assert (B2 : bounds s2) by (apply (fresh_bounds _ VEmpty true); exact B).
    destruct init as [i|].
    + match type of H with match initialize_one ?a ?b ?c with _ => _ end = _ =>
        pose proof (initialize_one_bounds a b c B2) as Q; destruct (initialize_one a b c) as [u s3| |]; try discriminate end.
      eapply finish_bounds; [|exact H]. now apply fresh_bounds.
    + eapply finish_bounds; [|exact H]. now apply fresh_bounds.
  - unfold add_interface_value in H. destruct (1024 <=? length (cells Sh)); [discriminate|]. cbv zeta in H.
    eapply finish_bounds; [|exact H]. apply fresh_bounds.
    set (s2 := w_contrib _ _). assert (B2 : bounds s2) by (apply (fresh_bounds _ v true); exact B).
    now apply bounds_raise.
  - unfold add_relation in H. destruct (find_edges _ _) as [edges ok]. destruct ok; [|discriminate]. injection H as _ <-. exact B.
Qed.
Lemma reachable_bounds b Sh s : reachable b Sh s -> bounds s.
Proof.
  induction 1 as [|b o Sh s Sh' s' R IH E|b Sh s n v u s' R IH E|b Sh s D ns R IH HD|b Sh s D l u s' R IH HD E|b Sh s D l x s' R IH HD E
    |b Sh s D u s' R IH HD E|b Sh s D x s' R IH HD E|b Sh s e v s' R IH E|b Sh s e x s' R IH E].
  - split; [cbn; lia|]. intros i. cbn. split; [lia|]. now right.
  - eapply build_bounds; eauto.
  - unfold set_cell in E. destruct (lookup n (input_index Sh)) as [c|]; [|discriminate]. injection E as _ <-.
    apply (bounds_raise s c) in IH. destruct (spec_is Sh _ c); exact IH.
  - now apply touch_bounds.
  - pose proof (update_bounds Sh D l s IH) as Q. rewrite E in Q. exact Q.
  - pose proof (update_bounds Sh D l s IH) as Q. rewrite E in Q. exact Q.
  - pose proof (reinit_bounds Sh (sd_iter D (map snd (output_index Sh))) s IH) as Q. unfold reinitialize in E. rewrite E in Q. exact Q.
  - pose proof (reinit_bounds Sh (sd_iter D (map snd (output_index Sh))) s IH) as Q. unfold reinitialize in E. rewrite E in Q. exact Q.
  - pose proof (calc_expr_frame Sh e s) as Q. rewrite E in Q. eapply bounds_frame; eauto.
  - pose proof (calc_expr_frame Sh e s) as Q. rewrite E in Q. eapply bounds_frame; eauto.
Qed.

(** *** what flow() does to the priorities *)
Section Lower.
Variable Sh : sheet.
Hypothesis W : wf Sh.
Hypothesis OK : relations_ok Sh.
Variable s0 : dyn.
Definition low4 (s : dyn) : Prop :=
  (d_low s <= d_low s0)%Z /\ (forall i, (d_low s <= d_prio s i)%Z) /\
  (forall i, d_prio s i = d_prio s0 i \/
     (linked Sh i = true /\ (d_prio s i < d_low s0)%Z /\ exists c, input_of Sh c = Some i /\ d_term s c <> None)) /\
  (forall c i, d_term s c <> None -> input_of Sh c = Some i -> linked Sh i = true -> (d_prio s i < d_low s0)%Z).
Definition below (s : dyn) : Prop :=
  forall c r j t i d i', d_term s c = Some (r, j, t) -> input_of Sh c = Some i -> linked Sh i = true ->
    att Sh d r -> d <> c -> input_of Sh d = Some i' -> (d_prio s i < d_prio s i')%Z.
Lemma input_inj c d i : input_of Sh c = Some i -> input_of Sh d = Some i -> c = d.
Proof.
  assert (G : forall c, input_of Sh c = Some i -> c = S i).
  { clear c d. intros c. unfold input_of, cell_at. destruct (nth_error (cells Sh) c) as [k|] eqn:E; [|discriminate]. intros Hi.
    pose proof (W_cell Sh W c k E) as Q. destruct (c_spec k) eqn:Es.
    - destruct Q as (_ & _ & Q); congruence.
    - destruct Q as (_ & _ & Q); congruence.
    - destruct (W_output Sh W _ c Q) as (_ & k1 & A & _ & C). rewrite E in A. injection A as <-. unfold out_kind in C. rewrite Es in C.
      destruct C as (i' & k' & C1 & C2 & _). congruence.
    - destruct (W_output Sh W _ c Q) as (_ & k1 & A & _ & C). rewrite E in A. injection A as <-. unfold out_kind in C. rewrite Es in C. destruct C; congruence.
    - destruct Q as (_ & Q & _); congruence.
    - destruct Q as (_ & Q); congruence.
    - destruct (W_output Sh W _ c Q) as (_ & k1 & A & _ & C). rewrite E in A. injection A as <-. unfold out_kind in C. rewrite Es in C. destruct C; congruence. }
  intros H H'. rewrite (G c H), (G d H'). reflexivity.
Qed.
Lemma low4_eq s s' : d_term s' = d_term s -> d_prio s' = d_prio s -> d_low s' = d_low s -> low4 s -> low4 s'.
Proof. unfold low4. intros -> -> ->. auto. Qed.
Lemma low4_derive s c ci t : low4 s -> d_term s c = None -> input_of Sh c = Some ci ->
  low4 (let s1 := dec_count c (w_term (fset (d_term s) c (Some t)) s) in
        if linked Sh ci then w_prio (fset (d_prio s1) ci (d_low s1 - 1)%Z) (w_low (d_low s1 - 1)%Z s1) else s1).
Proof.
  intros (L1 & L2 & L3 & L4) Ht Hi. cbv zeta.
  assert (Tm : forall d, d_term s d <> None -> fset (d_term s) c (Some t) d <> None).
  { intros d Hd. rewrite fset_eq. destruct (d =? c); [discriminate|exact Hd]. }
  destruct (linked Sh ci) eqn:El; unfold low4; cbn [dec_count d_low d_prio d_term w_prio w_low w_count w_term].
  - split; [lia|]. split; [|split].
    + intros i. rewrite fset_eq. specialize (L2 i). destruct (i =? ci); lia.
    + intros i. rewrite fset_eq. destruct (Nat.eqb_spec i ci) as [->|Hn].
      * right. split; [exact El|]. split; [lia|]. exists c. split; [exact Hi|]. rewrite fset_same. discriminate.
      * destruct (L3 i) as [E|(E1 & E2 & d & E3 & E4)]; [now left|right]. split; auto. split; auto. exists d. auto.
    + intros d i Hd Hdi Hl. rewrite fset_eq. destruct (Nat.eqb_spec i ci) as [->|Hn]; [lia|].
      rewrite fset_eq in Hd. destruct (Nat.eqb_spec d c) as [->|Hdc]; [congruence|]. eauto.
  - split; [lia|]. split; [exact L2|]. split.
    + intros i. destruct (L3 i) as [E|(E1 & E2 & d & E3 & E4)]; [now left|right]. split; auto. split; auto. exists d. auto.
    + intros d i Hd Hdi Hl. rewrite fset_eq in Hd. destruct (Nat.eqb_spec d c) as [->|Hdc]; [congruence|]. eauto.
Qed.
Lemma flow_out_low4 r j : forall ns i stk s stk' s', low4 s -> flow_out Sh r j ns i stk s = ROk stk' s' -> low4 s'.
Proof.
  induction ns as [|n ns IH]; intros i stk s stk' s' L; cbn [flow_out]; [intros [= _ <-]; exact L|].
  destruct (output_cell Sh n) as [c|]; [|discriminate]. destruct (d_term s c) eqn:Et; [discriminate|].
  destruct (input_of Sh c) as [ci|] eqn:Ei; [|discriminate]. cbv zeta.
  pose proof (low4_derive s c ci (r, j, i) L Et Ei) as L2. cbv zeta in L2.
  match goal with |- (if (d_count ?x c =? 0)%N then _ else _) = _ -> _ => set (s2 := x) in * end.
  clearbody s2. destruct (d_count s2 c =? 0)%N; intros H.
  - apply IH in H; auto.
  - apply IH in H; auto.
Qed.
Lemma below_step p0 c r rs pushed rest rank K s x j ns e stk' s' : single_terms Sh ->
  Inv Sh s0 p0 c (r :: rs) pushed rest rank K s -> nth_error (rels Sh) r = Some x ->
  nth_error (r_terms x) j = Some (ns, e) -> In j (unresolved_terms Sh s (terms_of Sh r)) ->
  flow_out Sh r j ns 0 (pushed ++ rest) (w_rres (fset (d_rres (dec_count c s)) r true) (dec_count c s)) = ROk stk' s' ->
  low4 s -> below s -> below s'.
Proof.
  intros ST I Hx Hj Hu. destruct (ST x (ns, e) (nth_error_In _ _ Hx) (nth_error_In _ _ Hj)) as (n & Hn). cbn [fst] in Hn. subst ns.
  assert (Ox := proj2 OK x (nth_error_In _ _ Hx)).
  destruct (term_names_good Sh r x j [n] e Hx Ox Hj) as [G Is]. pose proof (Forall_inv G) as Gn.
  destruct (good_oc Sh n Gn) as (Eo & ci & Ei).
  assert (Ur : d_resolved s (oc Sh n) = false).
  { apply unresolved_In in Hu as (ns & e' & H1 & H2). rewrite (terms_rel Sh r x Hx), Hj in H1. injection H1 as <- <-.
    apply (proj1 (term_resolved_false Sh s [n] G) H2). now left. }
  cbn [flow_out]. rewrite Eo. cbn [d_term w_rres dec_count w_count]. destruct (d_term s (oc Sh n)) eqn:Et; [discriminate|].
  rewrite Ei. cbv zeta. set (s1 := dec_count (oc Sh n) _).
  match goal with |- (if (d_count ?x _ =? 0)%N then _ else _) = _ -> _ => set (s2 := x) end.
  intros H (L1 & L2 & _) B.
  assert (E' : d_term s' = d_term s2 /\ d_prio s' = d_prio s2).
  { destruct (d_count s2 (oc Sh n) =? 0)%N; injection H as _ <-; split; reflexivity. }
  destruct E' as [E1 E2]. unfold below. rewrite E1, E2. clear E1 E2 H.
  assert (Tm : d_term s2 = fset (d_term s) (oc Sh n) (Some (r, j, 0))) by (unfold s2; destruct (linked Sh ci); reflexivity).
  intros d r' j' t i d' i' Hd Hi Hl Ha Hne Hi'. rewrite Tm, fset_eq in Hd.
  assert (Pr : d_prio s2 = if linked Sh ci then fset (d_prio s) ci (d_low s - 1)%Z else d_prio s) by (unfold s2; destruct (linked Sh ci); reflexivity).
  rewrite Pr. destruct (Nat.eqb_spec d (oc Sh n)) as [->|Hdn].
  - injection Hd as <- <- <-. rewrite Ei in Hi. injection Hi as <-. rewrite Hl, fset_same, fset_other.
    + specialize (L2 i'). lia.
    + intros ->. apply Hne. exact (input_inj _ _ _ Hi' Ei).
  - assert (d' <> oc Sh n).
    { intros ->. destruct (J6 _ _ _ _ _ _ _ _ _ _ I d r' j' t Hd) as (_ & _ & _ & _ & _ & _ & _ & _ & _ & _ & F).
      destruct (F ST (oc Sh n) Ha Hne) as [F1 _]. congruence. }
    assert (i <> ci) by (intros ->; apply Hdn; exact (input_inj _ _ _ Hi Ei)).
    assert (i' <> ci) by (intros ->; apply H; exact (input_inj _ _ _ Hi' Ei)).
    pose proof (B d r' j' t i d' i' Hd Hi Hl Ha Hne Hi'). destruct (linked Sh ci); rewrite ?fset_other by auto; auto.
Qed.
Lemma low4_start : bounds s0 -> undecided Sh s0 -> low4 s0.
Proof.
  intros [B1 B2] (U & _). split; [lia|]. split; [intros i; apply B2|]. split; [now left|]. intros c i H. rewrite U in H. congruence.
Qed.
Lemma below_start : undecided Sh s0 -> below s0.
Proof. intros (U & _) c r j t i d i' H. rewrite U in H. discriminate. Qed.
End Lower.
(** flow() and the priorities together *)
Lemma flow_result_prio Sh D s pa s' : wf Sh -> relations_ok Sh -> sched_ok D -> undecided Sh s -> bounds s ->
  flow Sh D s = Some (ROk pa s') ->
  (exists c rank K, Inv Sh s (out_prio Sh s) c [] [] [] rank K s') /\ low4 Sh s s' /\ (single_terms Sh -> below Sh s').
Proof.
  intros W OK HD U B E.
  pose proof (flow_result_with Sh D s (fun s' => low4 Sh s s' /\ (single_terms Sh -> below Sh s')) OK HD U) as F.
  specialize (F (conj (low4_start Sh s B U) (fun _ => below_start Sh s U))).
  rewrite E in F.
  destruct F as (_ & F1 & F2 & F3); [| |auto].
  - intros s1 s2 E1 E2 E3 [L Bl]. split; [now apply (low4_eq Sh s s1)|]. intros ST. specialize (Bl ST). unfold below in *. rewrite E1, E2. exact Bl.
  - intros c r rs pushed rest rank K s1 x j ns e stk' s2 I Hx Hj Hr Hu Fo [L Bl]. split.
    + apply (flow_out_low4 Sh s _ _ _ _ _ _ _ _ (low4_eq Sh s s1 (w_rres (fset (d_rres (dec_count c s1)) r true) (dec_count c s1)) eq_refl eq_refl eq_refl L) Fo).
    + intros ST. apply (below_step Sh W OK s _ c r rs pushed rest rank K s1 x j ns e stk' s2 ST I Hx Hj Hu Fo L (Bl ST)).
Qed.
