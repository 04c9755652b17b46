(** What evaluation leaves alone, and the state update() hands to flow(). *)
From Coq Require Import String.
From Verif Require Import Prelude Vm_Value Adam_Model Adam_Spec Adam_Flow Adam_Build.
From Coq Require Import List.
Import ListNotations.
Local Open Scope nat_scope.
Ltac Zify.zify_post_hook ::= idtac.

(** the fields get() leaves alone *)
Definition frame (s s' : dyn) : Prop :=
  d_prio s' = d_prio s /\ d_resolved s' = d_resolved s /\ d_count s' = d_count s /\ d_init s' = d_init s /\
  d_inv s' = d_inv s /\ d_term s' = d_term s /\ d_rres s' = d_rres s /\ d_cond s' = d_cond s /\
  d_high s' = d_high s /\ d_low s' = d_low s /\ d_initdirty s' = d_initdirty s /\ d_pacc s' = d_pacc s /\
  d_active s' = d_active s.
Lemma frame_refl s : frame s s. Proof. repeat split. Qed.
Lemma frame_trans s s' s'' : frame s s' -> frame s' s'' -> frame s s''.
Proof. unfold frame. intuition congruence. Qed.

Definition keeps {A} (s : dyn) (r : res A) : Prop :=
  match r with ROk _ s' => frame s s' | RThrow _ s' => frame s s' | RUB => True end.
Section Frame.
Variable Sh : sheet.
Lemma ev_frame g : (forall n s, keeps s (g n s)) -> forall e s, keeps s (ev g e s).
Proof.
  intros H. induction e as [v| |n k IH]; intros s; cbn [ev keeps]; try apply frame_refl.
  specialize (H n s). destruct (g n s) as [v s1|x s1|]; cbn [keeps] in *; auto.
  specialize (IH v s1). destruct (ev g (k v) s1) as [w s2|x s2|]; cbn [keeps] in *; auto; eapply frame_trans; eauto.
Qed.
Lemma run_term_frame g t s : (forall n s, keeps s (g n s)) -> keeps s (run_term Sh g t s).
Proof.
  intros H. destruct t as [[r j] i]. unfold run_term. destruct (nth_error (terms_of Sh r) j) as [[ns e]|]; [|exact I].
  pose proof (ev_frame g H e s) as E. destruct (length ns =? 1); auto.
  destruct (ev g e s) as [v s1|x s1|]; auto. destruct v; auto. destruct (nth_error _ i); [exact E|exact I].
Qed.
Lemma calculate_frame g c s : (forall n s, keeps s (g n s)) -> keeps s (calculate Sh g c s).
Proof.
  intros H. unfold calculate. destruct (cell_at Sh c) as [k|]; [|exact I].
  destruct (d_evaluated s c); [apply frame_refl|]. destruct (negb _); [apply frame_refl|].
  assert (Q : keeps s (run_calc g (c_calc k) s)).
  { destruct (c_calc k); cbn [run_calc]; [apply frame_refl|apply ev_frame; auto|apply H]. }
  destruct (run_calc g (c_calc k) s) as [v s1|x s1|]; auto.
Qed.
Lemma pop_frame c s : frame s (pop Sh c s).
Proof. unfold pop. destruct (is_ifout Sh c); repeat split. Qed.
Lemma add_cond_frame c s : frame s (add_cond Sh c s).
Proof. unfold add_cond. destruct (is_leaf Sh c); repeat split. Qed.
Lemma get_body_frame g n s : (forall n s, keeps s (g n s)) -> keeps s (get_body Sh g n s).
Proof.
  intros H. unfold get_body. destruct (lookup n (name_index Sh)) as [c|]; [|apply frame_refl].
  cbv zeta. destruct (match d_stack s with (m, _) :: _ => String.eqb m n | [] => false end).
  - destruct (input_of Sh c) as [i|]; [|exact I]. destruct (d_stack s) as [|[m b] st]; [repeat split|].
    destruct b; [repeat split|]. destruct (d_term s c) as [t|]; [|repeat split].
    pose proof (run_term_frame g t (w_stack ((m, true) :: st) s) H) as Q.
    destruct (run_term Sh g t _) as [v s1|x s1|]; auto.
  - set (s1 := if is_ifout Sh c then w_stack ((n, false) :: d_stack s) s else s).
    assert (F1 : frame s s1) by (unfold s1; destruct (is_ifout Sh c); repeat split).
    clearbody s1. destruct (d_evaluated s1 c).
    + cbn [keeps]. eapply frame_trans; [exact F1|]. eapply frame_trans; [|apply pop_frame].
      eapply frame_trans; [|apply add_cond_frame]. repeat split.
    + pose proof (calculate_frame g c (w_acc 0%N s1) H) as Q. destruct (calculate Sh g c (w_acc 0%N s1)) as [u s2|x s2|]; auto.
      * cbn [keeps] in *. eapply frame_trans; [exact F1|]. eapply frame_trans; [|apply pop_frame].
        eapply frame_trans; [|apply add_cond_frame]. exact Q.
      * cbn [keeps] in *. eapply frame_trans; [exact F1|]. eapply frame_trans; [exact Q|apply pop_frame].
Qed.
Lemma get_frame : forall f n s, keeps s (get Sh f n s).
Proof. induction f as [|f IH]; intros n s; cbn [get]; [apply frame_refl|]. now apply get_body_frame. Qed.
Lemma calc_expr_frame e s : keeps s (calc_expr Sh e s).
Proof. apply ev_frame. intros; apply get_frame. Qed.
Lemma evaluate_cell_frame c s : keeps s (evaluate_cell Sh c s).
Proof.
  unfold evaluate_cell. destruct (cell_at Sh c) as [k|]; [|exact I]. cbv zeta.
  match goal with |- keeps _ (match ?r with _ => _ end) => assert (Q : keeps s r) end.
  { destruct (d_evaluated s c); [apply frame_refl|].
    set (s2 := if is_ifout Sh c then _ else _).
    assert (F : frame s s2) by (unfold s2; destruct (is_ifout Sh c); repeat split). clearbody s2.
    pose proof (calculate_frame (get_top Sh) c s2 (get_frame _)) as Q.
    destruct (calculate Sh (get_top Sh) c s2) as [u s3|x s3|]; cbn [keeps] in *; auto.
    - eapply frame_trans; [exact F|]. eapply frame_trans; [exact Q|]. eapply frame_trans; [apply (pop_frame c)|]. repeat split.
    - eapply frame_trans; eauto. }
  match goal with |- keeps _ (match ?r with _ => _ end) => destruct r as [u s1|x s1|] end; auto.
  destruct (c_in k); [|exact Q]. destruct (linked Sh _); exact Q.
Qed.
Lemma evaluate_all_frame : forall l s, keeps s (evaluate_all Sh l s).
Proof.
  induction l as [|c l IH]; intros s; cbn [evaluate_all keeps]; [apply frame_refl|].
  pose proof (evaluate_cell_frame c s) as Q. destruct (evaluate_cell Sh c s) as [u s1|x s1|]; cbn [keeps] in *; auto.
  specialize (IH s1). destruct (evaluate_all Sh l s1); cbn [keeps] in *; auto; eapply frame_trans; eauto.
Qed.

(** *** the conditionals *)
(** the fields the conditionals leave alone *)
Definition cframe (s s' : dyn) : Prop :=
  d_prio s' = d_prio s /\ d_resolved s' = d_resolved s /\ d_init s' = d_init s /\
  d_inv s' = d_inv s /\ d_term s' = d_term s /\ d_cond s' = d_cond s /\
  d_high s' = d_high s /\ d_low s' = d_low s /\ d_initdirty s' = d_initdirty s /\ d_pacc s' = d_pacc s /\
  d_active s' = d_active s.
Lemma cframe_refl s : cframe s s. Proof. repeat split. Qed.
Lemma cframe_trans s s' s'' : cframe s s' -> cframe s' s'' -> cframe s s''.
Proof. unfold cframe. intuition congruence. Qed.
Lemma frame_cframe s s' : frame s s' -> cframe s s'.
Proof. unfold frame, cframe. tauto. Qed.
Lemma fold_dec_other l : forall s, let s' := fold_left (fun s c => dec_count c s) l s in
  s' = w_count (d_count s') s.
Proof.
  induction l as [|c l IH]; intros s; cbv zeta; cbn [fold_left]; [destruct s; reflexivity|].
  specialize (IH (dec_count c s)). cbv zeta in IH. etransitivity; [exact IH|]. reflexivity.
Qed.
Lemma fold_dec_count l : NoDup l -> forall s d, d_count (fold_left (fun s c => dec_count c s) l s) d =
  if mem d l then dec (d_count s d) else d_count s d.
Proof.
  induction 1 as [|c l Hc N IH]; intros s d; cbn [fold_left mem]; [reflexivity|].
  rewrite IH. cbn [dec_count d_count w_count]. rewrite fset_eq.
  destruct (Nat.eqb_spec d c) as [->|Hd]; cbn [orb]; [|reflexivity].
  rewrite (proj2 (mem_false c l) Hc). reflexivity.
Qed.
Definition pending (r : nat) (s : dyn) : Prop :=
  (forall c, d_count s c = N.of_nat (length (filter (fun q => negb (d_rres s q)) (rindex Sh c)))) /\
  (forall q, r <= q -> d_rres s q = false).
Lemma edges_NoDup : wf Sh -> forall r x, nth_error (rels Sh) r = Some x -> NoDup (r_edges x).
Proof. intros W r x H. exact (W_edges Sh W x (nth_error_In _ _ H)). Qed.
Lemma conditionals_pending : wf Sh -> forall rs r s,
  (forall i, nth_error rs i = nth_error (rels Sh) (r + i)) -> pending r s ->
  match conditionals Sh rs r s with
  | RUB => True
  | RThrow _ s' => cframe s s'
  | ROk _ s' => cframe s s' /\ pending (r + length rs) s'
  end.
Proof.
  intros W. induction rs as [|x rs IH]; intros r s Hrs P; cbn [conditionals length].
  - rewrite Nat.add_0_r. split; [apply cframe_refl|exact P].
  - assert (Hrs' : forall i, nth_error rs i = nth_error (rels Sh) (Datatypes.S r + i)).
    { intros i. specialize (Hrs (Datatypes.S i)). cbn [nth_error] in Hrs. rewrite Hrs. f_equal. lia. }
    assert (Hx : nth_error (rels Sh) r = Some x) by (specialize (Hrs 0); rewrite Nat.add_0_r in Hrs; now rewrite <- Hrs).
    replace (r + Datatypes.S (length rs)) with (Datatypes.S r + length rs) by lia.
    assert (Next : forall s', cframe s s' -> pending (Datatypes.S r) s' ->
      match conditionals Sh rs (Datatypes.S r) s' with
      | RUB => True | RThrow _ s'' => cframe s s'' | ROk _ s'' => cframe s s'' /\ pending (Datatypes.S r + length rs) s'' end).
    { intros s' F P'. specialize (IH (Datatypes.S r) s' Hrs' P').
      destruct (conditionals Sh rs (Datatypes.S r) s') as [u s2|y s2|]; auto.
      - destruct IH as [F2 P2]. split; auto. eapply cframe_trans; eauto.
      - eapply cframe_trans; eauto. }
    assert (Pw : forall s', frame s s' -> pending r s').
    { intros s' F. destruct P as [P1 P2]. destruct F as (_ & _ & F1 & _ & _ & _ & F2 & _). split; rewrite ?F1, ?F2; auto. }
    assert (Weak : forall s', pending r s' -> pending (Datatypes.S r) s') by (intros s' [A B]; split; auto; intros; apply B; lia).
    destruct (r_cond x) as [e|]; [|apply Next; [apply cframe_refl|auto]].
    pose proof (calc_expr_frame e s) as Q. destruct (calc_expr Sh e s) as [v s1|y s1|]; cbn [keeps] in Q; auto; [|now apply frame_cframe].
    assert (Th : cframe s s1) by now apply frame_cframe.
    destruct v as [|[|]| | | | | | |]; auto; [apply Next; auto|].
    set (s2 := fold_left (fun s c => dec_count c s) (r_edges x) s1). cbv zeta.
    pose proof (fold_dec_other (r_edges x) s1) as Fo. cbv zeta in Fo. fold s2 in Fo.
    pose proof (fold_dec_count (r_edges x) (edges_NoDup W r x Hx) s1) as Fc. fold s2 in Fc.
    destruct (Pw s1 Q) as [P1 P2]. change (fold_left (fun s c => dec_count c s) (r_edges x) s1) with s2. clearbody s2.
    apply Next.
    + eapply cframe_trans; [exact Th|]. rewrite Fo. repeat split.
    + assert (Er : d_rres s2 = d_rres s1) by (rewrite Fo; reflexivity).
      split.
      * intros c. cbn [w_rres d_count d_rres]. rewrite Fc, Er, P1.
        destruct (mem c (r_edges x)) eqn:Em.
        -- assert (In r (rindex Sh c)).
           { apply rindex_In. split; [apply nth_error_Some; congruence|]. rewrite (edges_rel Sh r x Hx). now apply mem_In. }
           assert (Fm : length (filter (fun q => negb (d_rres s1 q)) (rindex Sh c)) =
             length (filter (fun q => negb (fset (d_rres s1) r true q)) (rindex Sh c)) + 1).
           { apply (filter_minus_one _ _ (rindex Sh c) r (rindex_NoDup Sh c) H).
             - rewrite P2 by lia. reflexivity.
             - rewrite fset_same. reflexivity.
             - intros q _ Hq. rewrite fset_other; auto. }
           rewrite Fm, dec_pos; lia.
        -- do 2 f_equal. apply filter_eq. intros q Hq. rewrite fset_other; auto. intros ->.
           apply rindex_In in Hq as [_ Hq]. rewrite (edges_rel Sh r x Hx) in Hq. apply mem_In in Hq. congruence.
      * intros q Hq. cbn [w_rres d_rres]. rewrite Er, fset_other by lia. apply P2. lia.
Qed.
Lemma rindex_leaf : wf Sh -> forall c, is_leaf Sh c = true -> rindex Sh c = [].
Proof.
  intros W c H. destruct (rindex Sh c) as [|r l] eqn:E; auto. exfalso.
  assert (Hr : In r (rindex Sh c)) by (rewrite E; now left). apply rindex_In in Hr as [Hr Hc].
  destruct (nth_error (rels Sh) r) as [x|] eqn:Hx; [|apply nth_error_None in Hx; lia].
  rewrite (edges_rel Sh r x Hx) in Hc. destruct (W_rel Sh W x (nth_error_In _ _ Hx)) as [A B].
  apply B in Hc as (n & Hn & Hc). destruct (A n Hn) as (c' & i & H1 & H2). unfold rel_cell in *.
  assert (c' = c) by congruence. subst c'. apply lookup_In in Hc.
  destruct (W_output Sh W n c Hc) as (_ & k & K1 & K2 & K3). unfold is_leaf, spec_is, cell_at in H. rewrite K1 in H.
  unfold out_kind in K3. destruct (c_spec k); auto; discriminate.
Qed.
Lemma clear_pending s : pending 0 (clear Sh s).
Proof.
  split; [|reflexivity]. intros c. cbn [clear d_count d_rres w_acc w_rres w_resolved w_evaluated w_term w_count].
  do 2 f_equal. generalize (rindex Sh c). intros l. induction l as [|a l IHl]; [reflexivity|]. cbn [filter negb]. f_equal. exact IHl.
Qed.
(** the state update() hands to flow() *)
Lemma conditionals_undecided s u s1 : wf Sh -> conditionals Sh (rels Sh) 0 (clear Sh s) = ROk u s1 ->
  undecided Sh (w_cond (d_acc s1) s1) /\ cframe (clear Sh s) s1.
Proof.
  intros W H. pose proof (conditionals_pending W (rels Sh) 0 (clear Sh s) (fun i => eq_refl) (clear_pending s)) as Q.
  rewrite H in Q. destruct Q as [F [P _]]. split; [|exact F].
  destruct F as (_ & F1 & _ & _ & F2 & _).
  assert (R : forall c, d_resolved s1 c = is_leaf Sh c) by (intros c; rewrite F1; reflexivity).
  split; [|split; [|split]]; cbn [w_cond d_term d_count d_rres d_resolved].
  - intros c. rewrite F2. reflexivity.
  - exact P.
  - intros c r [Hr _] (x & Hx & Hc). rewrite R. destruct (is_leaf Sh c) eqn:E; auto.
    pose proof (rindex_leaf W c E) as Ri. assert (In r (rindex Sh c)); [|rewrite Ri in *; contradiction].
    apply rindex_In. split; auto. now rewrite (edges_rel Sh r x Hx).
  - intros c. rewrite R. intros E. rewrite P, (rindex_leaf W c E). reflexivity.
Qed.
End Frame.
