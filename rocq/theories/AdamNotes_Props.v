(** C70, C71, C72: what the clients of a sheet are told. *)
From Coq Require Import String Permutation Sorted.
From Verif Require Import Prelude Vm_Value Adam_Model Adam_Spec Adam_Flow Adam_Build Adam_Frame Adam_Eval Adam_Quiet Adam_Update Adam_Calm Adam_Solve Adam_Prio Adam_Example AdamFlow_Props AdamSolve_Props.
From Coq Require Import List.
Import ListNotations.
Local Open Scope nat_scope.
Ltac Zify.zify_post_hook ::= idtac.

Definition cell_of (x : note) : nat := match x with NInvariant c _ | NValue c _ | NContributing c _ => c end.
Lemma notes_cell l p s c x : In x (notes_of l p s c) -> cell_of x = c.
Proof.
  unfold notes_of. rewrite !in_app_iff. intros [H|[H|H]].
  - destruct (Bool.eqb _ _); [destruct H|]. destruct H as [<-|[]]. reflexivity.
  - destruct (d_dirty s c); [|destruct H]. destruct H as [<-|[]]. reflexivity.
  - destruct (l c); [|destruct H]. destruct H as [<-|[]]. reflexivity.
Qed.
Lemma notes_NoDup l p s c : NoDup (notes_of l p s c).
Proof.
  unfold notes_of. destruct (Bool.eqb _ _), (d_dirty s c), (l c); cbn; repeat (constructor; [cbn; intuition discriminate|]); constructor.
Qed.
Lemma flat_NoDup (f : nat -> list note) : forall l, NoDup l -> (forall c, NoDup (f c)) -> (forall c x, In x (f c) -> cell_of x = c) -> NoDup (flat_map f l).
Proof.
  induction 1 as [|a l Ha N IH]; intros H1 H2; cbn [flat_map]; [constructor|].
  assert (G : forall l1 l2 : list note, NoDup l1 -> NoDup l2 -> (forall x, In x l1 -> ~ In x l2) -> NoDup (l1 ++ l2)).
  { clear. induction 1 as [|x l1 Hx N IH]; intros N2 D; cbn [app]; auto. constructor.
    - rewrite in_app_iff. intros [H|H]; [contradiction|]. apply (D x); [now left|exact H].
    - apply IH; auto. intros y Hy. apply D. now right. }
  apply G; [apply H1|apply IH; auto|]. intros x Hx Hx'. apply in_flat_map in Hx' as (c & Hc & Hx').
  rewrite <- (H2 a x Hx), (H2 c x Hx') in Ha. contradiction.
Qed.
Lemma output_cells_NoDup Sh : wf Sh -> NoDup (map snd (output_index Sh)).
Proof.
  intros W. pose proof (W_outputs Sh W) as N.
  assert (G : forall n m c, In (n, c) (output_index Sh) -> In (m, c) (output_index Sh) -> n = m).
  { intros n m c H H'. destruct (W_output Sh W n c H) as (_ & k & K & K2 & _). destruct (W_output Sh W m c H') as (_ & k' & K' & K2' & _). congruence. }
  revert N G. generalize (output_index Sh). induction l as [|[n c] l IH]; cbn [map fst snd]; intros N G; [constructor|].
  inversion N as [|? ? Hn Nl]; subst. constructor.
  - intros H. apply in_map_iff in H as ([m d] & E & H). cbn in E. subst d. apply Hn. rewrite (G n m c (or_introl eq_refl) (or_intror H)). apply in_map_iff. exists (m, c). auto.
  - apply IH; auto. intros x y d Hx Hy. apply (G x y d); now right.
Qed.
Lemma ran_notes Sh D l s ns s1 s2 s3 s' pa p : ran Sh D l s ns s1 s2 s3 s' pa p ->
  d_inv s3 = d_inv s /\ d_state s' = d_state s3 /\ d_contrib s' = d_contrib s3 /\ d_dirty s' = d_dirty s3 /\
  d_inv s' = fold_left (fun f c => fset f c (N.land p (d_contrib s3 c) =? 0)%N) (sd_iter D (map snd (output_index Sh))) (d_inv s3).
Proof.
  intros [Uc Uf Ue Up Un Us]. split; [|rewrite Us; auto].
  pose proof (conditionals_cframe Sh (rels Sh) 0 (clear Sh s)) as Fc. rewrite Uc in Fc. destruct Fc as (_ & _ & _ & Fc & _).
  pose proof (flow_off Sh D (w_cond (d_acc s1) s1)) as Of. rewrite Uf in Of. cbn [offs] in Of. destruct Of as (_ & _ & _ & _ & _ & o & _).
  pose proof (evaluate_all_frame Sh (sd_iter D (map snd (output_index Sh))) s2) as Fe. rewrite Ue in Fe. cbn [keeps] in Fe. destruct Fe as (_ & _ & _ & _ & Fe & _).
  rewrite Fe, o. exact Fc.
Qed.
Lemma fold_set (g : nat -> bool) : forall l f c, fold_left (fun f c => fset f c (g c)) l f c = if mem c l then g c else f c.
Proof.
  induction l as [|a l IH]; intros f c; cbn [fold_left mem]; [reflexivity|]. rewrite IH. destruct (mem c l); [now rewrite Bool.orb_true_r|].
  rewrite Bool.orb_false_r. unfold fset. rewrite ?(Nat.eqb_sym a c). destruct (Nat.eqb_spec c a) as [->|]; reflexivity.
Qed.
(** C70: in a history without a throwing update, the monitors of a cell are told its new value exactly
    when it has changed, once; those who asked are told the contributing set. *)
Theorem C70_monitors_are_told_the_changes_partial Sh D l s ns s' rank : reachable true Sh s -> rel_terms_ok Sh -> sched_ok D ->
  update Sh D l s = Some (ROk ns s') -> acyclic_by Sh (d_term s') rank -> self_once Sh (d_term s') ->
  NoDup ns /\
  (forall c v, In (NValue c v) ns <-> (exists n, In (n, c) (output_index Sh)) /\ v = d_state s' c /\ veqb (d_state s' c) (d_state s c) = false) /\
  (forall c b, In (NContributing c b) ns <-> (exists n, In (n, c) (output_index Sh)) /\ l c = true /\ b = d_contrib s' c).
Proof.
  intros R RT HD E AC ONCE. pose proof (reachable_wf _ _ _ R) as W. destruct (update_ran Sh D l s ns s' E) as (s1 & s2 & s3 & pa & p & Rn).
  pose proof (update_done Sh D l s ns s1 s2 s3 s' pa p rank R RT HD Rn AC ONCE) as O.
  destruct (ran_notes Sh D l s ns s1 s2 s3 s' pa p Rn) as (_ & Es & Ec & Ed & _).
  assert (HI : forall c, In c (sd_iter D (map snd (output_index Sh))) <-> exists n, In (n, c) (output_index Sh)).
  { intros c. rewrite iter_In by exact HD. rewrite in_map_iff. split; [intros ([n d] & H & H'); cbn in H; subst; eauto|intros (n & H); exists (n, c); auto]. }
  rewrite (U_notes _ _ _ _ _ _ _ _ _ _ _ Rn). split; [|split].
  - apply flat_NoDup; [|apply notes_NoDup|apply notes_cell]. apply (Permutation_NoDup (l := map snd (output_index Sh))); [apply Permutation_sym, HD|]. now apply output_cells_NoDup.
  - intros c v. rewrite in_flat_map. split.
    + intros (d & Hd & H). assert (d = c) by (symmetry; exact (notes_cell _ _ _ _ _ H)). subst d. apply HI in Hd. split; [exact Hd|]. destruct Hd as (n & Hn).
      unfold notes_of in H. rewrite !in_app_iff in H. destruct H as [H|[H|H]].
      * destruct (Bool.eqb _ _); [destruct H|destruct H as [H|[]]; discriminate].
      * rewrite <- Ed, <- Es in H. destruct (d_dirty s' c) eqn:Dc; [|destruct H]. destruct H as [H|[]]. injection H as <-. split; [reflexivity|].
        rewrite (done_dirty Sh rank D s s1 s2 s3 s' W O n c Hn) in Dc. now apply Bool.negb_true_iff in Dc.
      * destruct (l c); [|destruct H]. destruct H as [H|[]]; discriminate.
    + intros (Hc & -> & Hv). exists c. split; [now apply HI|]. destruct Hc as (n & Hn). unfold notes_of. rewrite !in_app_iff. right; left.
      rewrite <- Ed, <- Es, (done_dirty Sh rank D s s1 s2 s3 s' W O n c Hn), Hv. now left.
  - intros c b. rewrite in_flat_map. split.
    + intros (d & Hd & H). assert (d = c) by (symmetry; exact (notes_cell _ _ _ _ _ H)). subst d. apply HI in Hd. split; [exact Hd|].
      unfold notes_of in H. rewrite !in_app_iff in H. destruct H as [H|[H|H]].
      * destruct (Bool.eqb _ _); [destruct H|destruct H as [H|[]]; discriminate].
      * destruct (d_dirty s3 c); [|destruct H]. destruct H as [H|[]]; discriminate.
      * rewrite <- Ec in H. destruct (l c); [|destruct H]. destruct H as [H|[]]. injection H as <-. auto.
    + intros (Hc & Hl & ->). exists c. split; [now apply HI|]. unfold notes_of. rewrite !in_app_iff, Hl. right; right. rewrite Ec. now left.
Qed.
(** After an update that has thrown, a change can go unreported: [o] gets its value in the update that
    throws, and the next one finds nothing to report. *)
Definition silent : list build_op :=
  [ OInput "sw" (Some (Ret (num 1))); OInterface "a" true (Some (Ret (num 5))) None; OOutput "o" (var "a");
    OOutput "bad" (Look "sw" (fun v => match v with VSize 1 => Fail | _ => Ret (num 0) end)) ]%string.
Theorem C70_after_a_throw_refuted : exists Sh s x s1 u s2 ns s3 c,
  reachable true Sh s /\ lookup "o"%string (output_index Sh) = Some c /\ rels Sh = [] /\
  update Sh D0 nolisten s = Some (RThrow x s1) /\ set_cell Sh "sw"%string (num 0) s1 = ROk u s2 /\ update Sh D0 nolisten s2 = Some (ROk ns s3) /\
  d_state s3 c = num 5 /\ d_state s c = VEmpty /\ (forall v, ~ In (NValue c v) ns).
Proof.
  exists (sheet_of silent), (start_of silent).
  exists (match update (sheet_of silent) D0 nolisten (start_of silent) with Some (RThrow x _) => x | _ => XCast end).
  exists (after (update (sheet_of silent) D0 nolisten (start_of silent))), tt.
  exists (after (Some (set_cell (sheet_of silent) "sw"%string (num 0) (after (update (sheet_of silent) D0 nolisten (start_of silent)))))).
  set (s2 := after (Some (set_cell _ _ _ _))).
  exists (match update (sheet_of silent) D0 nolisten s2 with Some (ROk ns _) => ns | _ => [] end).
  exists (after (update (sheet_of silent) D0 nolisten s2)), 3.
  split; [apply built_reachable|]. split; [vm_compute; reflexivity|]. split; [reflexivity|]. split; [vm_compute; reflexivity|]. split; [vm_compute; reflexivity|].
  split; [vm_compute; reflexivity|]. split; [vm_compute; reflexivity|]. split; [vm_compute; reflexivity|].
  intros v. vm_compute. intuition discriminate.
Qed.

(** *** invariants *)
(** [c] may have to do with a failing invariant: they share a contributing input *)
Definition poisoned_by (s : dyn) (i c : nat) : Prop :=
  d_state s i = VBool false /\ exists k, testb (d_contrib s i) k = true /\ testb (d_contrib s c) k = true.
Lemma land_zero a b : (N.land a b =? 0)%N = true <-> forall k, testb a k = true -> testb b k = true -> False.
Proof.
  rewrite N.eqb_eq. split.
  - intros H k Ha Hb. unfold testb in *. assert (N.testbit (N.land a b) (bit k) = true) by (rewrite N.land_spec, Ha, Hb; reflexivity).
    rewrite H, N.bits_0 in H0. discriminate.
  - intros H. apply N.bits_inj_0. intros n. rewrite N.land_spec. destruct (N.testbit a n) eqn:Ea, (N.testbit b n) eqn:Eb; auto. exfalso.
    apply (H (N.to_nat n)); unfold testb, bit; now rewrite N2Nat.id.
Qed.
Lemma poisoned_spec : forall l p0 s p, poisoned l p0 s = Some p ->
  (forall i, In i l -> exists b, d_state s i = VBool b) /\
  forall k, testb p k = true <-> testb p0 k = true \/ exists i, In i l /\ d_state s i = VBool false /\ testb (d_contrib s i) k = true.
Proof.
  induction l as [|c l IH]; intros p0 s p; cbn [poisoned].
  - intros [= <-]. split; [intros i []|]. intros k. split; [auto|]. intros [H|(i & [] & _)]; exact H.
  - destruct (d_state s c) as [|[|]| | | | | | |] eqn:Ec; try discriminate; intros H; destruct (IH _ _ _ H) as [I1 I2]; (split; [intros i [<-|Hi]; eauto|]); intros k; rewrite I2.
    + split; [intros [A|(i & A & B)]; [auto|right; exists i; cbn [In]; auto]|]. intros [A|(i & [<-|A] & B & C)]; [auto|congruence|right; eauto].
    + rewrite testb_lor, Bool.orb_true_iff. split.
      * intros [[A|A]|(i & A & B)]; [auto|right; exists c; cbn [In]; auto|right; exists i; cbn [In]; auto].
      * intros [A|(i & [<-|A] & B & C)]; [auto|auto|right; eauto].
Qed.
(** C71: the invariant flag of a cell is true exactly when it shares no contributing input with an
    invariant that fails, and its monitors are told exactly when it changes. *)
Theorem C71_invariant_flags b Sh D l s ns s' : reachable b Sh s -> sched_ok D -> update Sh D l s = Some (ROk ns s') ->
  (forall i, In i (invariant_index Sh) -> exists v, d_state s' i = VBool v) /\
  (forall n c, In (n, c) (output_index Sh) -> (d_inv s' c = true <-> forall i, In i (invariant_index Sh) -> ~ poisoned_by s' i c)) /\
  (forall c v, In (NInvariant c v) ns <-> (exists n, In (n, c) (output_index Sh)) /\ v = d_inv s' c /\ d_inv s c = negb v).
Proof.
  intros R HD E. pose proof (reachable_wf _ _ _ R) as W. destruct (update_ran Sh D l s ns s' E) as (s1 & s2 & s3 & pa & p & Rn).
  destruct (ran_notes Sh D l s ns s1 s2 s3 s' pa p Rn) as (Ei & Es & Ec & Ed & Ef).
  assert (HI : forall c, In c (sd_iter D (map snd (output_index Sh))) <-> exists n, In (n, c) (output_index Sh)).
  { intros c. rewrite iter_In by exact HD. rewrite in_map_iff. split; [intros ([n d] & H & H'); cbn in H; subst; eauto|intros (n & H); exists (n, c); auto]. }
  assert (Iv : forall c, (exists n, In (n, c) (output_index Sh)) -> d_inv s' c = (N.land p (d_contrib s3 c) =? 0)%N).
  { intros c Hc. rewrite Ef, fold_set. apply HI in Hc. destruct (mem c _) eqn:Em; [reflexivity|]. exfalso.
    assert (G : forall l, In c l -> mem c l = true).
    { clear. induction l as [|a l IH]; intros []; cbn [mem]; subst; rewrite ?Nat.eqb_refl; auto. rewrite IH by auto. apply Bool.orb_true_r. }
    rewrite (G _ Hc) in Em. discriminate. }
  destruct (poisoned_spec _ _ _ _ (U_poison _ _ _ _ _ _ _ _ _ _ _ Rn)) as [P1 P2].
  split; [intros i Hi; rewrite Es; exact (P1 i Hi)|]. split.
  - intros n c Hc. rewrite (Iv c) by eauto. rewrite land_zero. unfold poisoned_by. rewrite Es, Ec. split.
    + intros H i Hi (A & k & B & C). apply (H k); [|exact C]. apply P2. right. eauto.
    + intros H k A C. apply P2 in A as [A|(i & A & B & F)]; [unfold testb in A; rewrite N.bits_0 in A; discriminate|]. apply (H i A). split; [exact B|]. eauto.
  - intros c v. rewrite (U_notes _ _ _ _ _ _ _ _ _ _ _ Rn), in_flat_map. split.
    + intros (d & Hd & H). assert (d = c) by (symmetry; exact (notes_cell _ _ _ _ _ H)). subst d. apply HI in Hd. split; [exact Hd|]. rewrite (Iv c Hd), <- Ei.
      unfold notes_of in H. rewrite !in_app_iff in H. destruct H as [H|[H|H]].
      * destruct (Bool.eqb _ _) eqn:Eq; [destruct H|destruct H as [H|[]]]. injection H as <-. split; [reflexivity|].
        apply Bool.eqb_false_iff in Eq. destruct (_ =? 0)%N, (d_inv s3 c); auto; congruence.
      * destruct (d_dirty s3 c); [|destruct H]. destruct H as [H|[]]; discriminate.
      * destruct (l c); [|destruct H]. destruct H as [H|[]]; discriminate.
    + intros (Hc & Hv & Hn). exists c. split; [now apply HI|]. rewrite (Iv c Hc) in Hv. rewrite <- Ei in Hn. unfold notes_of. rewrite !in_app_iff. left.
      rewrite <- Hv, Hn. destruct v; cbn [Bool.eqb negb]; now left.
Qed.
(** a failing invariant *)
Definition guard : list build_op :=
  [ OInterface "a" true (Some (Ret (num 5))) None; OInterface "b" true (Some (Ret (num 2))) None;
    OOutput "x" (var "a"); OOutput "y" (var "b"); OInvariant "small" (Look "a" (fun v => match v with VSize z => Ret (VBool (z <? 3)%N) | _ => Fail end)) ]%string.
Example guard_ok : match update (sheet_of guard) D0 nolisten (start_of guard) with
  | Some (ROk ns s') => map (fun n => match lookup n (output_index (sheet_of guard)) with Some c => d_inv s' c | None => true end) ["a"; "b"; "x"; "y"]%string = [false; true; false; true] /\
      In (NInvariant 3 true) ns /\ d_inv (start_of guard) 3 = false
  | _ => False end.
Proof. vm_compute. auto 10. Qed.

(** *** inspecting a sheet *)
(** C72: after an update, inspect() evaluates its expression with the values the sheet holds (it may
    compute logic cells on the way), and changes none of them. *)
Theorem C72_inspect_reads_the_solution Sh D l s ns s' rank e v s'' : reachable true Sh s -> rel_terms_ok Sh -> sched_ok D ->
  update Sh D l s = Some (ROk ns s') -> acyclic_by Sh (d_term s') rank -> self_once Sh (d_term s') ->
  calc_expr Sh e s' = ROk v s'' ->
  run (value_of Sh s'') e = Some v /\ solves Sh (d_term s') (d_state s) (value_of Sh s'') /\
  (forall n w, value_of Sh s' n = Some w -> value_of Sh s'' n = Some w) /\
  (forall c i, input_of Sh c = Some i -> d_state s'' i = d_state s' i) /\ d_term s'' = d_term s' /\ d_prio s'' = d_prio s'.
Proof.
  intros R RT HD E AC ONCE Ei. pose proof (reachable_wf _ _ _ R) as W. destruct (update_ran Sh D l s ns s' E) as (s1 & s2 & s3 & pa & p & Rn).
  pose proof (update_done Sh D l s ns s1 s2 s3 s' pa p rank R RT HD Rn AC ONCE) as O.
  pose proof (done_cons Sh rank D s s1 s2 s3 s' O) as C.
  pose proof (calc_expr_ok Sh W (d_term s') (d_state s) rank AC ONCE any (top_rank Sh rank) e s' (fun m c _ H => top_rank_ok Sh rank m c H) C (O_stack _ _ _ _ _ _ _ _ O)) as Q.
  rewrite Ei in Q. destruct Q as (Q1 & Q2 & Q3 & Q4 & Q5). split; [exact Q4|]. split; [|split; [|split]].
  - intros n w H. unfold value_of in H. destruct (lookup n (name_index Sh)) as [c|] eqn:L; [|discriminate].
    destruct (d_evaluated s'' c) eqn:Ev; [|discriminate]. injection H as <-. exists c. split; [reflexivity|]. exact (C_def _ _ _ _ _ Q1 n c L Ev).
  - intros n w. exact (grows_value Sh s' s'' n w (ext_grows Sh rank _ s' s'' Q2)).
  - intros c i Hi. destruct (E_state _ _ _ _ _ Q2 i) as [H|[H H']]; [exact H|exfalso].
    destruct (E_new _ _ _ _ _ Q2 i H') as [X|(m & X & _)]; [congruence|]. exact (named_not_input Sh W m i X c Hi).
  - destruct (E_frame _ _ _ _ _ Q2) as (F1 & _ & _ & _ & _ & F2 & _). auto.
Qed.
(** operator[] does not: it returns what a logic cell held when it was last computed *)
Definition lazy : list build_op := [ OInterface "a" true (Some (Ret (num 5))) None; OLogic "l" (two plus "a" "a") ]%string.
Theorem C72_subscript_of_logic_cell_refuted : exists Sh s ns s' s'' v,
  reachable true Sh s /\ rels Sh = [] /\ update Sh D0 nolisten s = Some (ROk ns s') /\
  calc_expr Sh (var "l"%string) s' = ROk v s'' /\ v = num 10 /\ at_name Sh "l"%string s' = Some VEmpty.
Proof.
  exists (sheet_of lazy), (start_of lazy).
  exists (match update (sheet_of lazy) D0 nolisten (start_of lazy) with Some (ROk ns _) => ns | _ => [] end).
  set (s' := after (update (sheet_of lazy) D0 nolisten (start_of lazy))). exists s', (after (Some (calc_expr (sheet_of lazy) (var "l"%string) s'))), (num 10).
  split; [apply built_reachable|]. split; [reflexivity|]. split; [vm_compute; reflexivity|]. split; [vm_compute; reflexivity|]. split; [reflexivity|]. vm_compute. reflexivity.
Qed.
