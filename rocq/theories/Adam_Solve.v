(** A successful update(), end to end. *)
From Coq Require Import String Permutation Sorted.
From Verif Require Import Prelude Vm_Value Adam_Model Adam_Spec Adam_Flow Adam_Build Adam_Frame Adam_Eval Adam_Quiet Adam_Update Adam_Calm AdamFlow_Props.
From Coq Require Import List.
Import ListNotations.
Local Open Scope nat_scope.
Ltac Zify.zify_post_hook ::= idtac.

Section All.
Variable Sh : sheet.
Hypothesis W : wf Sh.
Variable T : nat -> option (nat * nat * nat).
Variable inp : nat -> value.
Variable rank : name -> nat.
Hypothesis AC : acyclic_by Sh T rank.
Hypothesis ONCE : self_once Sh T.

Definition not_input (d : nat) : Prop := forall e, input_of Sh e <> Some d.
Record evolved (s s' : dyn) : Prop := {
  V_eval : forall d, d_evaluated s d = true -> d_evaluated s' d = true;
  V_state : forall d, not_input d -> d_state s' d = d_state s d \/ (d_evaluated s d = false /\ d_evaluated s' d = true);
  V_unlinked : forall e d, input_of Sh e = Some d -> linked Sh d = false -> d_state s' d = d_state s d;
  V_dirty : forall d, not_input d -> (d_dirty s' d = d_dirty s d /\ d_evaluated s' d = d_evaluated s d) \/
     (d_evaluated s d = false /\ d_evaluated s' d = true /\ d_dirty s' d = negb (veqb (d_state s' d) (d_state s d)));
  V_contrib : forall d, d_evaluated s d = true -> sub (d_contrib s d) (d_contrib s' d);
  V_cond : forall d, d_evaluated s d = false -> d_evaluated s' d = true -> sub (d_cond s) (d_contrib s' d);
  V_frame : frame s s' }.
Lemma evolved_refl s : evolved s s.
Proof. constructor; auto using sub_refl, frame_refl. intros d H H'. congruence. Qed.
Lemma evolved_trans s s' s'' : evolved s s' -> evolved s' s'' -> evolved s s''.
Proof.
  intros [a1 a2 a3 a7 a5 a8 a6] [b1 b2 b3 b7 b5 b8 b6]. constructor.
  - auto.
  - intros c Hc. destruct (a2 c Hc) as [A|[A A']]; destruct (b2 c Hc) as [Bb|[Bb B']].
    + left. congruence.
    + right. split; auto. destruct (d_evaluated s c) eqn:E; auto. rewrite (a1 c E) in Bb. discriminate.
    + right. auto.
    + congruence.
  - intros e d He Hl. rewrite (b3 e d He Hl). exact (a3 e d He Hl).
  - intros c Hc. destruct (b7 c Hc) as [[Hb Hb']|(Hb1 & Hb2 & Hb3)].
    + rewrite Hb, Hb'. destruct (a7 c Hc) as [Ha|(Ha1 & Ha2 & Ha3)]; [left; exact Ha|right].
      split; auto. split; auto. rewrite Ha3. destruct (b2 c Hc) as [->|[Hx _]]; [reflexivity|congruence].
    + right. destruct (d_evaluated s c) eqn:E; [rewrite (a1 c E) in Hb1; discriminate|].
      split; auto. split; auto. rewrite Hb3. destruct (a2 c Hc) as [->|[_ Hx]]; [reflexivity|congruence].
  - intros d Hd. eapply sub_trans; [exact (a5 d Hd)|]. apply b5. auto.
  - intros d Hd Hd'. destruct (d_evaluated s' d) eqn:E; [exact (sub_trans _ _ _ (a8 d Hd E) (b5 d E))|].
    assert (d_cond s' = d_cond s) as <- by (destruct a6 as (_ & _ & _ & _ & _ & _ & _ & F & _); exact F). exact (b8 d E Hd').
  - eapply frame_trans; eauto.
Qed.
Lemma input_owner e c i : input_of Sh e = Some i -> input_of Sh c = Some i -> e = c.
Proof.
  intros H H'. destruct (input_of_spec Sh W e i H) as (_ & _ & _ & _ & _ & X1 & _). destruct (input_of_spec Sh W c i H') as (_ & _ & _ & _ & _ & X2 & _). congruence.
Qed.
Lemma evaluate_all_ok : forall l s u s', (forall c, In c l -> In c (map snd (output_index Sh))) ->
  consistent Sh T inp any s -> d_stack s = [] -> evaluate_all Sh l s = ROk u s' ->
  consistent Sh T inp any s' /\ d_stack s' = [] /\ evolved s s' /\
  (forall c, In c l \/ applied Sh s c -> (In c (map snd (output_index Sh))) -> applied Sh s' c).
Proof using W AC ONCE.
  induction l as [|c l IH]; intros s u s' Hl C St; cbn [evaluate_all].
  - intros [= _ <-]. split; [exact C|]. split; [exact St|]. split; [apply evolved_refl|]. intros c [[]|H] _; exact H.
  - assert (Hc := Hl c (or_introl eq_refl)). apply in_map_iff in Hc as ([n c'] & E & Hc). cbn [snd] in E. subst c'.
    pose proof (evaluate_cell_ok Sh W T inp rank AC ONCE c n s Hc C St) as Q.
    destruct (evaluate_cell Sh c s) as [v s1|x s1|]; try discriminate.
    destruct Q as (Q1 & Q2 & Q3 & Q4 & Q5 & Q6 & Q7 & Q8 & Q9 & Q10). intros E.
    destruct (IH s1 u s' ltac:(intros d Hd; apply Hl; now right) Q1 Q2 E) as (I1 & I2 & I3 & I4).
    assert (Ev : evolved s s1).
    { constructor; auto. intros e d He Hd. apply (Q6 e d He). now right. }
    split; [exact I1|]. split; [exact I2|]. split; [exact (evolved_trans _ _ _ Ev I3)|].
    intros d H Hd. apply I4; [|exact Hd]. destruct H as [[->|H]|[H1 H2]].
    + right. exact Q3.
    + left. exact H.
    + right. destruct (Nat.eq_dec d c) as [->|Hdc]; [exact Q3|]. split; [auto|]. intros i Hi Hi'.
      rewrite (Q6 d i Hi (or_introl Hdc)), (H2 i Hi Hi').
      apply in_map_iff in Hd as ([m d'] & E2 & Hd). cbn [snd] in E2. subst d'.
      destruct (W_output Sh W m d Hd) as (Hm & _).
      assert (Lm : lookup m (name_index Sh) = Some d) by (apply In_lookup; auto; apply W).
      destruct (Q5 d) as [->|[X _]]; [|reflexivity|congruence]. intros e He. exact (lk_not_input Sh W m d e d Lm He eq_refl).
Qed.
End All.

(** *** update() *)
(** the phases of a successful update *)
Record ran (Sh : sheet) (D : sched) (l : nat -> bool) (s : dyn) (ns : list note) (s1 s2 s3 s' : dyn) (pa p : N) : Prop := {
  U_cond : conditionals Sh (rels Sh) 0 (clear Sh s) = ROk tt s1;
  U_flow : flow Sh D (w_cond (d_acc s1) s1) = Some (ROk pa s2);
  U_eval : evaluate_all Sh (sd_iter D (map snd (output_index Sh))) s2 = ROk tt s3;
  U_poison : poisoned (invariant_index Sh) 0%N s3 = Some p;
  U_notes : ns = flat_map (notes_of l p s3) (sd_iter D (map snd (output_index Sh)));
  U_state : s' = w_active (active_bits Sh pa (sd_iter D (map snd (output_index Sh))) s3)
                      (w_pacc pa (set_invariants p (sd_iter D (map snd (output_index Sh))) s3)) }.
Lemma update_ran Sh D l s ns s' : update Sh D l s = Some (ROk ns s') -> exists s1 s2 s3 pa p, ran Sh D l s ns s1 s2 s3 s' pa p.
Proof.
  unfold update. destruct (conditionals Sh (rels Sh) 0 (clear Sh s)) as [[] s1| |] eqn:Ec; try discriminate.
  destruct (flow Sh D (w_cond (d_acc s1) s1)) as [[pa s2| |]|] eqn:Ef; try discriminate. cbv zeta.
  destruct (evaluate_all Sh (sd_iter D (map snd (output_index Sh))) s2) as [[] s3| |] eqn:Ee; try discriminate.
  destruct (poisoned (invariant_index Sh) 0%N s3) as [p|] eqn:Ep; [|discriminate]. intros [= <- <-].
  exists s1, s2, s3, pa, p. constructor; auto.
Qed.
(** what the flow leaves: [waits] for the conditions *)
Lemma flow_waits Sh D s1 pa s2 : relations_ok Sh -> wf Sh -> sched_ok D -> undecided Sh (w_cond (d_acc s1) s1) ->
  flow Sh D (w_cond (d_acc s1) s1) = Some (ROk pa s2) -> waits Sh (d_term s2) s1.
Proof.
  intros OK W HD U E c [[r j] i] Hc.
  destruct (C65_every_relation_is_decided Sh D _ OK HD U) as [(s' & F)|(pa' & s' & F & _ & F2 & _)]; rewrite E in F; [discriminate|].
  injection F as <- <-. destruct (F2 c r j i Hc) as ([Hr Ha] & x & ns & e & n & Hx & Hj & Hi & Hn).
  exists r. split; [|exact Ha]. apply rindex_In. split; [exact Hr|]. unfold edges_of. rewrite Hx.
  apply (proj2 (proj2 (proj2 (proj2 (proj2 OK x (nth_error_In _ _ Hx)))))). exists n. split; [|exact Hn].
  apply in_flat_map. exists (ns, e). split; [exact (nth_error_In _ _ Hj)|exact (nth_error_In _ _ Hi)].
Qed.
Record done (Sh : sheet) (rank : name -> nat) (D : sched) (s s1 s2 s3 s' : dyn) : Prop := {
  O_cond : consistent Sh (d_term s') (d_state s) (idle (d_term s')) s1;
  O_grows : grows (clear Sh s) s1;
  O_decided : decided Sh (d_term s') (d_state s) (rels Sh) 0 s1;
  O_below : forall B, conditions_below Sh rank B -> only_below Sh rank B (clear Sh s) s1;
  O_undecided : undecided Sh (w_cond (d_acc s1) s1);
  O_off : off (w_cond (d_acc s1) s1) s2;
  O_eval : consistent Sh (d_term s') (d_state s) any s3;
  O_evolved : evolved Sh s2 s3;
  O_applied : forall n c, In (n, c) (output_index Sh) -> applied Sh s3 c;
  O_term : d_term s' = d_term s2;
  O_state : d_state s' = d_state s3;
  O_evaluated : d_evaluated s' = d_evaluated s3;
  O_contrib : d_contrib s' = d_contrib s3;
  O_dirty : d_dirty s' = d_dirty s3;
  O_cnd : d_cond s' = d_acc s1;
  O_stack : d_stack s' = [] }.
Lemma update_done Sh D l s ns s1 s2 s3 s' pa p rank : reachable true Sh s -> rel_terms_ok Sh -> sched_ok D ->
  ran Sh D l s ns s1 s2 s3 s' pa p -> acyclic_by Sh (d_term s') rank -> self_once Sh (d_term s') ->
  done Sh rank D s s1 s2 s3 s'.
Proof.
  intros R RT HD [Uc Uf Ue Up Un Us] AC ONCE. pose proof (reachable_wf _ _ _ R) as W. pose proof (wf_relations Sh W RT) as OK.
  destruct (reachable_calm Sh s R) as [St Bt].
  destruct (conditionals_undecided Sh s tt s1 W Uc) as [Und Fc].
  pose proof (evaluate_all_frame Sh (sd_iter D (map snd (output_index Sh))) s2) as Fe. rewrite Ue in Fe. cbn [keeps] in Fe.
  assert (Et : d_term s' = d_term s2) by (rewrite Us; destruct Fe as (_ & _ & _ & _ & _ & F & _); exact F).
  pose proof (flow_waits Sh D s1 pa s2 OK W HD Und Uf) as Wt. rewrite <- Et in Wt.
  pose proof (clear_cons Sh (d_term s') (d_state s) s s1 eq_refl Bt Wt) as C0.
  assert (Cd : forall B, conditions_below Sh rank B -> _) by
    (intros B HB; exact (conditionals_ok Sh W (d_term s') (d_state s) rank AC ONCE B HB (rels Sh) 0 (clear Sh s) tt s1 (fun i => eq_refl) (clear_pending Sh s) C0 St Uc Wt)).
  destruct (Cd _ (conditions_top Sh rank)) as (C1 & St1 & G1 & De1 & _ & _).
  pose proof (flow_off Sh D (w_cond (d_acc s1) s1)) as Of. rewrite Uf in Of. cbn [offs] in Of.
  assert (C2 : consistent Sh (d_term s') (d_state s) any s2).
  { destruct Of as (o1 & o2 & _ & o4 & _). apply (cons_fields Sh (d_term s') (d_state s) (idle (d_term s')) any s1 s2 C1); auto.
    - intros c _. exact Logic.I.
    - intros c _. now rewrite Et. }
  assert (St2 : d_stack s2 = []) by (destruct Of as (_ & _ & _ & _ & _ & _ & _ & o8 & _); rewrite o8; exact St1).
  assert (Hl : forall c, In c (sd_iter D (map snd (output_index Sh))) -> In c (map snd (output_index Sh))) by (intros c; apply iter_In; exact HD).
  destruct (evaluate_all_ok Sh W (d_term s') (d_state s) rank AC ONCE _ s2 tt s3 Hl C2 St2 Ue) as (C3 & St3 & Ev & Ap).
  constructor.
  - exact C1.
  - exact G1.
  - exact De1.
  - intros B HB. exact (proj2 (proj2 (proj2 (proj2 (proj2 (Cd B HB)))))).
  - exact Und.
  - exact Of.
  - exact C3.
  - exact Ev.
  - intros n c Hc. assert (In c (map snd (output_index Sh))) by (apply in_map_iff; exists (n, c); auto).
    apply Ap; [left; now apply iter_In|exact H].
  - exact Et.
  - rewrite Us. reflexivity.
  - rewrite Us. reflexivity.
  - rewrite Us. reflexivity.
  - rewrite Us. reflexivity.
  - rewrite Us. change (d_cond s3 = d_acc s1). destruct Fe as (_ & _ & _ & _ & _ & _ & _ & F & _). rewrite F.
    destruct Of as (_ & _ & _ & _ & _ & _ & _ & _ & _ & o & _). exact o.
  - rewrite Us. exact St3.
Qed.
