(** What get() and update() leave alone whatever the sheet: the pending names, the input halves of the
    interface cells; and what flow() leaves alone and depends on. *)
From Coq Require Import String Permutation Sorted.
From Verif Require Import Prelude Vm_Value Adam_Model Adam_Spec Adam_Flow Adam_Build Adam_Frame.
From Coq Require Import List.
Import ListNotations.
Local Open Scope nat_scope.
Ltac Zify.zify_post_hook ::= idtac.

(** *** get_stack_m *)
(** only the flag of the name on top may change *)
Definition same_stack (a b : list (name * bool)) : Prop :=
  match a with [] => b = [] | (m, _) :: st => exists f, b = (m, f) :: st end.
Lemma same_refl a : same_stack a a.
Proof. destruct a as [|[m f] st]; cbn; eauto. Qed.
Lemma same_trans a b c : same_stack a b -> same_stack b c -> same_stack a c.
Proof. destruct a as [|[m f] st]; cbn; [intros ->; auto|]. intros (g & ->) (h & ->). eauto. Qed.

Section Quiet.
Variable Sh : sheet.
Hypothesis W : wf Sh.
Definition is_ifin (i : nat) : Prop := exists k, nth_error (cells Sh) i = Some k /\ c_spec k = SIfIn.
Lemma name_not_ifin n c : lookup n (name_index Sh) = Some c -> ~ is_ifin c.
Proof.
  intros H (k & A & B). destruct (W_name Sh W n c (lookup_In n c _ H)) as (k' & A' & _ & C). congruence.
Qed.
Lemma output_not_ifin n c : In (n, c) (output_index Sh) -> ~ is_ifin c.
Proof.
  intros H (k & A & B). destruct (W_output Sh W n c H) as (H' & _). destruct (W_name Sh W n c H') as (k' & A' & _ & C). congruence.
Qed.
Definition quiet (s s' : dyn) : Prop :=
  same_stack (d_stack s) (d_stack s') /\
  forall i, is_ifin i -> d_contrib s' i = d_contrib s i /\ d_state s' i = d_state s i.
Lemma quiet_refl s : quiet s s.
Proof. split; [apply same_refl|auto]. Qed.
Lemma quiet_trans s s' s'' : quiet s s' -> quiet s' s'' -> quiet s s''.
Proof.
  intros [A B] [A' B']. split; [eapply same_trans; eauto|]. intros i Hi. destruct (B i Hi), (B' i Hi). split; congruence.
Qed.
Definition hushed {A} (s : dyn) (r : res A) : Prop :=
  match r with ROk _ s' => quiet s s' | RThrow _ s' => quiet s s' | RUB => True end.
Lemma hushed_trans {A} s s' (r : res A) : quiet s s' -> hushed s' r -> hushed s r.
Proof. intros H. destruct r; cbn [hushed]; eauto using quiet_trans. Qed.
Lemma ev_quiet g : (forall n s, hushed s (g n s)) -> forall e s, hushed s (ev g e s).
Proof.
  intros H. induction e as [v| |n k IH]; intros s; cbn [ev hushed]; try apply quiet_refl.
  specialize (H n s). destruct (g n s) as [v s1|x s1|]; cbn [hushed] in *; auto.
  eapply hushed_trans; [exact H|apply IH].
Qed.
Lemma run_term_quiet g t s : (forall n s, hushed s (g n s)) -> hushed s (run_term Sh g t s).
Proof.
  intros H. destruct t as [[r j] i]. unfold run_term. destruct (nth_error (terms_of Sh r) j) as [[ns e]|]; [|exact I].
  pose proof (ev_quiet g H e s) as E. destruct (length ns =? 1); auto.
  destruct (ev g e s) as [v s1|x s1|]; auto. destruct v; auto. destruct (nth_error _ i); [exact E|exact I].
Qed.
Lemma calculate_quiet g c s : ~ is_ifin c -> (forall n s, hushed s (g n s)) -> hushed s (calculate Sh g c s).
Proof.
  intros Hc H. unfold calculate. destruct (cell_at Sh c) as [k|]; [|exact I].
  destruct (d_evaluated s c); [apply quiet_refl|]. destruct (negb _); [apply quiet_refl|].
  assert (Q : hushed s (run_calc g (c_calc k) s)).
  { destruct (c_calc k); cbn [run_calc]; [apply quiet_refl|apply ev_quiet; auto|apply H]. }
  destruct (run_calc g (c_calc k) s) as [v s1|x s1|]; auto. cbn [hushed] in *. destruct Q as [Q1 Q2]. split; [exact Q1|].
  intros i Hi. cbn [d_contrib d_state w_evaluated w_state w_dirty]. destruct (Q2 i Hi) as [-> <-]. split; [reflexivity|].
  apply fset_other. intros ->. contradiction.
Qed.
Lemma pop_quiet c s s' b n : d_stack s' = (n, b) :: d_stack s -> is_ifout Sh c = true ->
  d_contrib s' = d_contrib s -> d_state s' = d_state s -> quiet s (pop Sh c s').
Proof.
  intros A B C D. unfold pop. rewrite B. split.
  - cbn [d_stack w_stack]. rewrite A. apply same_refl.
  - intros i _. cbn [d_contrib d_state w_stack]. rewrite C, D. auto.
Qed.
(** a cell is pushed, something quiet happens, and it is popped *)
Lemma push_pop c n s s2 : 
  quiet (if is_ifout Sh c then w_stack ((n, false) :: d_stack s) s else s) s2 -> quiet s (pop Sh c s2).
Proof.
  unfold pop. destruct (is_ifout Sh c); [|auto]. intros [A B]. split; [|exact B].
  cbn [d_stack w_stack same_stack] in *. destruct A as (f & ->). apply same_refl.
Qed.
Lemma quiet_contrib c x s s' : ~ is_ifin c -> quiet s s' -> quiet s (w_contrib (fset (d_contrib s') c x) s').
Proof.
  intros Hc [A B]. split; [exact A|]. intros i Hi. cbn [d_contrib d_state w_contrib]. rewrite fset_other; [auto|].
  intros ->. contradiction.
Qed.
Lemma quiet_acc x s s' : quiet s s' -> quiet s (w_acc x s').
Proof. auto. Qed.
Lemma quiet_cond c s s' : ~ is_ifin c -> quiet s s' -> quiet s (add_cond Sh c s').
Proof. intros Hc H. unfold add_cond. destruct (is_leaf Sh c); auto. now apply quiet_contrib. Qed.
Lemma get_body_quiet g n s : (forall n s, hushed s (g n s)) -> hushed s (get_body Sh g n s).
Proof.
  intros H. unfold get_body. destruct (lookup n (name_index Sh)) as [c|] eqn:Lk; [|apply quiet_refl].
  pose proof (name_not_ifin n c Lk) as Hc.
  cbv zeta. destruct (match d_stack s with (m, _) :: _ => String.eqb m n | [] => false end).
  - destruct (input_of Sh c) as [i|]; [|exact I]. destruct (d_stack s) as [|[m b] st] eqn:St; [split; [apply same_refl|auto]|].
    destruct b; [split; [apply same_refl|auto]|].
    destruct (d_term s c) as [t|]; [|split; [apply same_refl|auto]].
    apply (hushed_trans s (w_stack ((m, true) :: st) s)); [|now apply run_term_quiet].
    split; [rewrite St; cbn; eauto|auto].
  - set (s1 := if is_ifout Sh c then w_stack ((n, false) :: d_stack s) s else s).
    destruct (d_evaluated s1 c).
    + cbn [hushed]. apply (push_pop c n s). apply quiet_cond; [exact Hc|]. apply quiet_acc. apply quiet_refl.
    + pose proof (calculate_quiet g c (w_acc 0%N s1) Hc H) as Q. destruct (calculate Sh g c (w_acc 0%N s1)) as [u s2|x s2|]; auto.
      * cbn [hushed] in *. apply (push_pop c n s). fold s1. apply quiet_cond; [exact Hc|]. apply quiet_acc.
        apply quiet_contrib; [exact Hc|]. exact Q.
      * cbn [hushed] in *. apply (push_pop c n s). exact Q.
Qed.
Lemma get_quiet : forall f n s, hushed s (get Sh f n s).
Proof. induction f as [|f IH]; intros n s; cbn [get]; [apply quiet_refl|]. now apply get_body_quiet. Qed.
Lemma calc_expr_quiet e s : hushed s (calc_expr Sh e s).
Proof. apply ev_quiet. intros; apply get_quiet. Qed.

(** the bit of an interface cell that says it contributes to itself *)
Definition bits_ok (s : dyn) : Prop := forall c i, input_of Sh c = Some i -> testb (d_contrib s i) i = true.
Lemma input_is_ifin c i : input_of Sh c = Some i -> is_ifin i.
Proof.
  unfold input_of, cell_at. destruct (nth_error (cells Sh) c) as [k|] eqn:E; [|discriminate]. intros Hi.
  pose proof (W_cell Sh W c k E) as Q.
  assert (O : In (c_name k, c) (output_index Sh) -> is_ifin i).
  { intros H. destruct (W_output Sh W _ c H) as (_ & k1 & A & B & C). rewrite E in A. injection A as <-.
    unfold out_kind in C. destruct (c_spec k); try contradiction; try (destruct C; congruence).
    destruct C as (i' & k' & C1 & C2 & C3 & C4 & C5). exists k'. assert (i' = i) by congruence. subst i'. auto. }
  destruct (c_spec k); try (apply O; exact Q); destruct Q as (Q1 & Q2); try destruct Q2 as (Q2 & Q3); congruence.
Qed.
Lemma bits_quiet s s' : quiet s s' -> bits_ok s -> bits_ok s'.
Proof. intros [_ Q] B c i Hi. destruct (Q i (input_is_ifin c i Hi)) as [-> _]. eauto. Qed.
Lemma bits_eq s s' : d_contrib s' = d_contrib s -> bits_ok s -> bits_ok s'.
Proof. intros E B c i. rewrite E. apply B. Qed.
(** update() after flow() *)
Lemma evaluate_cell_stack c s n : In (n, c) (output_index Sh) -> d_stack s = [] -> bits_ok s ->
  match evaluate_cell Sh c s with
  | RUB => True | RThrow _ s' => bits_ok s' | ROk _ s' => d_stack s' = [] /\ bits_ok s' end.
Proof.
  intros Hc St B. pose proof (output_not_ifin n c Hc) as Ni. unfold evaluate_cell. destruct (cell_at Sh c) as [k|]; [|exact I]. cbv zeta.
  match goal with |- match (match ?r with _ => _ end) with _ => _ end => assert (Q : match r with RUB => True | RThrow _ s' => bits_ok s' | ROk _ s' => d_stack s' = [] /\ bits_ok s' end) end.
  { destruct (d_evaluated s c); [auto|].
    set (s2 := if is_ifout Sh c then _ else _).
    pose proof (calculate_quiet (get_top Sh) c s2 Ni (get_quiet _)) as Q.
    assert (B2 : bits_ok s2) by (unfold s2; destruct (is_ifout Sh c); exact B).
    destruct (calculate Sh (get_top Sh) c s2) as [u s3|x s3|]; cbn [hushed] in *; auto.
    - assert (Q' : quiet (w_acc 0%N s) (pop Sh c s3)) by (apply (push_pop c (c_name k)); exact Q).
      destruct (quiet_contrib c (N.lor (d_acc (pop Sh c s3)) (d_cond (pop Sh c s3))) _ _ Ni Q') as [Q1 Q2].
      split; [cbn [d_stack w_acc] in Q1; rewrite St in Q1; exact Q1|].
      exact (bits_quiet _ _ (conj Q1 Q2) B).
    - exact (bits_quiet _ _ Q B2). }
  match goal with |- match (match ?r with _ => _ end) with _ => _ end => destruct r as [u s1|x s1|] end; auto.
  destruct (c_in k) as [i|]; [|exact Q]. destruct (linked Sh i); exact Q.
Qed.
Lemma evaluate_all_stack : forall l s, (forall c, In c l -> In c (map snd (output_index Sh))) -> d_stack s = [] -> bits_ok s ->
  match evaluate_all Sh l s with
  | RUB => True | RThrow _ s' => bits_ok s' | ROk _ s' => d_stack s' = [] /\ bits_ok s' end.
Proof.
  induction l as [|c l IH]; intros s Hl St B; cbn [evaluate_all]; [auto|].
  assert (Hc := Hl c (or_introl eq_refl)). apply in_map_iff in Hc as ([n c'] & E & Hc). cbn [snd] in E. subst c'.
  pose proof (evaluate_cell_stack c s n Hc St B) as Q. destruct (evaluate_cell Sh c s) as [u s1|x s1|]; auto.
  destruct Q as [Q1 Q2]. apply IH; auto. intros d Hd. apply Hl. now right.
Qed.
Lemma conditionals_stack : forall rs r s, bits_ok s -> d_stack s = [] ->
  match conditionals Sh rs r s with
  | RUB => True | RThrow _ s' => d_stack s' = [] /\ bits_ok s' | ROk _ s' => d_stack s' = [] /\ bits_ok s' end.
Proof.
  induction rs as [|x rs IH]; intros r s B St; cbn [conditionals]; [auto|].
  destruct (r_cond x) as [e|]; [|now apply IH].
  pose proof (calc_expr_quiet e s) as Q. destruct (calc_expr Sh e s) as [v s1|y s1|]; cbn [hushed] in Q; auto.
  - assert (St1 : d_stack s1 = []) by (destruct Q as [Q _]; rewrite St in Q; exact Q). pose proof (bits_quiet _ _ Q B) as B1.
    destruct v as [|[|]| | | | | | |]; auto; [exact (IH (Datatypes.S r) s1 B1 St1)|]. cbv zeta. apply IH.
    + pose proof (fold_dec_other (r_edges x) s1) as Fo. cbv zeta in Fo. rewrite Fo. exact B1.
    + pose proof (fold_dec_other (r_edges x) s1) as Fo. cbv zeta in Fo. rewrite Fo. exact St1.
  - split; [destruct Q as [Q _]; rewrite St in Q; exact Q|exact (bits_quiet _ _ Q B)].
Qed.

(** *** flow() *)
(** the fields flow() leaves alone *)
Definition off (s s' : dyn) : Prop :=
  d_state s' = d_state s /\ d_evaluated s' = d_evaluated s /\ d_dirty s' = d_dirty s /\ d_contrib s' = d_contrib s /\
  d_init s' = d_init s /\ d_inv s' = d_inv s /\ d_acc s' = d_acc s /\ d_stack s' = d_stack s /\ d_vacc s' = d_vacc s /\
  d_cond s' = d_cond s /\ d_high s' = d_high s /\ d_initdirty s' = d_initdirty s /\ d_pacc s' = d_pacc s /\ d_active s' = d_active s.
Lemma off_refl s : off s s. Proof. repeat split. Qed.
Lemma off_trans s s' s'' : off s s' -> off s' s'' -> off s s''.
Proof. unfold off. intuition congruence. Qed.
Definition offs {A} (s : dyn) (r : res A) : Prop :=
  match r with ROk _ s' => off s s' | RThrow _ s' => off s s' | RUB => True end.
Lemma offs_trans {A} s s' (r : res A) : off s s' -> offs s' r -> offs s r.
Proof. intros H. destruct r; cbn [offs]; eauto using off_trans. Qed.
Lemma flow_out_off r j : forall ns i stk s, offs s (flow_out Sh r j ns i stk s).
Proof.
  induction ns as [|n ns IH]; intros i stk s; cbn [flow_out offs]; [apply off_refl|].
  destruct (output_cell Sh n) as [c|]; [|exact I]. destruct (d_term s c); [apply off_refl|].
  destruct (input_of Sh c) as [ci|]; [|exact I]. cbv zeta.
  set (s1 := dec_count c _). assert (F1 : off s s1) by (repeat split).
  set (s2 := if linked Sh ci then _ else _). assert (F2 : off s s2) by (unfold s2; destruct (linked Sh ci); repeat split).
  clearbody s2. destruct (d_count s2 c =? 0)%N; (eapply offs_trans; [|apply IH]); exact F2.
Qed.
Lemma detach_off : forall ns s, offs s (detach Sh ns s).
Proof.
  induction ns as [|n ns IH]; intros s; cbn [detach offs]; [apply off_refl|]. destruct (output_cell Sh n) as [c|]; [|exact I].
  eapply offs_trans; [|apply IH]. destruct (d_resolved s c); repeat split.
Qed.
Lemma flow_rels_off c : forall rs stk s, offs s (flow_rels Sh c rs stk s).
Proof.
  induction rs as [|r rs IH]; intros stk s; cbn [flow_rels offs]; [apply off_refl|].
  destruct (d_rres s r); [apply IH|]. cbv zeta. assert (F : off s (dec_count c s)) by (repeat split).
  destruct (unresolved_terms Sh (dec_count c s) (terms_of Sh r)) as [|j [|? ?]]; [exact F| |exact (offs_trans _ _ _ F (IH _ _))].
  destruct (nth_error (terms_of Sh r) j) as [[ns e]|]; [|exact I].
  set (s1 := w_rres _ _). assert (F1 : off s s1) by (repeat split).
  pose proof (flow_out_off r j ns 0 stk s1) as Q. destruct (flow_out Sh r j ns 0 stk s1) as [stk' s2|x s2|]; auto.
  - cbn [offs] in Q. pose proof (detach_off (nodup string_dec (others j 0 (terms_of Sh r))) s2) as Q2.
    destruct (detach Sh _ s2) as [u s3|x s3|]; auto; cbn [offs] in Q2.
    + apply (offs_trans s s3); [|apply IH]. eapply off_trans; [exact F1|]. eapply off_trans; eauto.
    + cbn [offs]. eapply off_trans; [exact F1|]. eapply off_trans; eauto.
Qed.
Lemma flow_loop_off : forall f stk s, match flow_loop Sh f stk s with Some r => offs s r | None => True end.
Proof.
  induction f as [|f IH]; intros [|c stk] s; cbn [flow_loop]; try apply off_refl; [exact I|].
  destruct (d_count s c =? 0)%N; [apply IH|].
  set (s1 := w_resolved _ s). assert (F1 : off s s1) by (repeat split).
  pose proof (flow_rels_off c (rindex Sh c) stk s1) as Q.
  destruct (flow_rels Sh c (rindex Sh c) stk s1) as [stk' s2|x s2|]; auto; cbn [offs] in Q.
  - specialize (IH stk' s2). destruct (flow_loop Sh f stk' s2) as [r|]; auto.
    apply (offs_trans s s2); [exact (off_trans s s1 s2 F1 Q)|exact IH].
Qed.
Lemma flow_off D s : match flow Sh D s with Some r => offs s r | None => True end.
Proof.
  unfold flow. cbv zeta. pose proof (flow_loop_off (flow_fuel Sh (flow_cells Sh s)) (sd_flow D (out_prio Sh s) (flow_cells Sh s)) s) as Q.
  destruct (flow_loop Sh _ _ s) as [[u s'|x s'|]|]; auto.
Qed.
End Quiet.
