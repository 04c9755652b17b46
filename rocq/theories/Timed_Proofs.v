From Verif Require Import Prelude Timed_Model Timed_Spec.
From Coq Require Import List ZArith Lia Permutation.
Import ListNotations.
Local Open Scope Z_scope.
Ltac Zify.zify_post_hook ::= idtac.

Lemma added_app a b : added (a ++ b) = added a ++ added b. Proof. apply flat_map_app. Qed.
Lemma released_app a b : released (a ++ b) = released a ++ released b. Proof. apply flat_map_app. Qed.
Lemma handed_app a b : handed (a ++ b) = handed a ++ handed b. Proof. apply flat_map_app. Qed.

Definition post_of (k : sched) : list element := match k with SPost w t => [(w, t)] | _ => [] end.
(** at every release: on time, and none of those left behind was due earlier *)
Definition release_ok (l : list event) : Prop :=
  forall l1 w t a l2, l = l1 ++ EReleased w t a :: l2 ->
    w <= a /\ exists rest, Permutation (added l1) (released l1 ++ (w, t) :: rest) /\ forall y, In y rest -> w <= fst y.
Record inv (s : st) : Prop := {
  i_heap : earliest_first (heap s);
  i_who : match who s with
          | SWait => heap s = [] \/ In TNotify (calls s)
          | SUntil t => heap s <> [] /\ (In TNotify (calls s) \/ forall x, In x (heap s) -> t <= fst x)
          | STime => heap s <> []
          | SBroken => False
          | _ => True
          end;
  i_in : Permutation (added (log s)) (released (log s) ++ heap s);
  i_out : released (log s) = handed (log s) ++ post_of (who s);
  i_ok : release_ok (log s) }.

Lemma snoc_split {A} (l l1 l2 : list A) e x : l ++ [e] = l1 ++ x :: l2 -> (l2 = [] /\ e = x /\ l = l1) \/ exists l3, l2 = l3 ++ [e] /\ l = l1 ++ x :: l3.
Proof.
  intros E. destruct l2 as [|y l2].
  - left. apply app_inj_tail in E as [-> ->]. auto.
  - right. destruct (@exists_last _ (y :: l2) ltac:(discriminate)) as (l3 & z & E2). rewrite E2 in *. rewrite app_comm_cons, app_assoc in E. apply app_inj_tail in E as [-> ->]. exists l3. auto.
Qed.
Lemma release_ok_add l e : release_ok l -> (match e with EReleased _ _ _ => False | _ => True end) -> release_ok (l ++ [e]).
Proof.
  intros H N l1 w t a l2 E. apply snoc_split in E as [(_ & -> & _)|(l3 & -> & E)]; [destruct N|]. eapply H, E.
Qed.
Lemma release_ok_release l w t a rest : release_ok l -> w <= a -> Permutation (added l) (released l ++ (w, t) :: rest) -> (forall y, In y rest -> w <= fst y) -> release_ok (l ++ [EReleased w t a]).
Proof.
  intros H W P M l1 w' t' a' l2 E. apply snoc_split in E as [(_ & E & ->)|(l3 & -> & E)]; [injection E as -> -> ->|]; [|eapply H, E].
  split; [auto|]. exists rest. auto.
Qed.

Lemma inv_start t0 : inv (start t0).
Proof. split; cbn; auto. intros l1 w t a l2 E. destruct l1; discriminate. Qed.

Lemma time_test_inv s k h' l : inv s -> post_of (who s) = [] -> heap s <> [] -> time_test s k h' l -> inv (mk_st h' k (calls s) (now s) (log s ++ l)).
Proof.
  intros [Ih Iw Ii Io Ik] P N T. destruct T as [E|x r E L|x r r' E L R F]; [contradiction| |].
  - rewrite app_nil_r. split; cbn [heap who calls now log post_of]; auto.
    + split; [auto|]. right. rewrite E in Ih. cbn in Ih. intros y Y. apply Ih. rewrite E in Y. exact Y.
    + rewrite P in Io. exact Io.
  - destruct x as [w t]. cbn [fst snd] in *. rewrite E in *. split; cbn [heap who calls now log post_of]; auto.
    + rewrite added_app, released_app. cbn. rewrite app_nil_r, <- app_assoc. cbn. rewrite <- R. exact Ii.
    + rewrite released_app, handed_app, Io, P. cbn. now rewrite !app_nil_r.
    + apply release_ok_release with (rest := r); auto. intros y Y. apply (Ih y). now right.
Qed.

Lemma inv_step m s s' : inv s -> step m s s' -> inv s'.
Proof.
  intros I H. assert (I0 := I). destruct I as [Ih Iw Ii Io Ik].
  destruct H as [s w t|s d D|s W|s t W|s a b w t h' C P F|s a b C|s W E|s k h' l W N T|s k h' l W T|s t W D|s w t W]; try (apply time_test_inv; auto; rewrite W; reflexivity).
  - split; cbn [heap who calls now log]; auto. destruct (who s); cbn; tauto.
  - split; cbn [heap who calls now log]; auto.
  - split; cbn [heap who calls now log]; rewrite W in *; auto.
  - split; cbn [heap who calls now log]; rewrite W in *; auto. tauto.
  - split; cbn [heap who calls now log]; auto.
    + assert (HI : In TNotify (a ++ TNotify :: b)) by (apply in_or_app; right; now left).
      assert (HN : h' <> []) by (intros ->; apply Permutation_sym, Permutation_nil in P; discriminate).
      destruct (who s); cbn; auto.
    + rewrite added_app, released_app. cbn. rewrite app_nil_r, <- P, Ii. rewrite <- app_assoc. apply Permutation_app_head. apply Permutation_sym, Permutation_cons_append.
    + rewrite released_app, handed_app. cbn. now rewrite !app_nil_r.
    + apply release_ok_add; cbn; auto.
  - split; cbn [heap who calls now log]; auto.
    + destruct (who s) eqn:W; cbn in *; auto; tauto.
    + rewrite Io. f_equal. destruct (who s); reflexivity.
  - split; cbn [heap who calls now log]; auto. rewrite W in *. exact Io.
  - apply time_test_inv; auto; rewrite W in *; auto.
  - rewrite W in *. split; cbn [heap who calls now log]; auto. tauto.
  - rewrite W in *. split; cbn [heap who calls now log]; auto.
    + now rewrite added_app, released_app, !app_nil_r.
    + rewrite released_app, handed_app. cbn. now rewrite !app_nil_r.
    + apply release_ok_add; cbn; auto.
Qed.
Lemma inv_reachable t0 s : reachable t0 s -> inv s.
Proof. induction 1; [apply inv_start|eapply inv_step; eauto]. Qed.

Lemma in_call_step s c : In c (calls s) -> exists s', step Own s s'.
Proof.
  intros H. apply in_split in H as (a & b & E). destruct c as [w t|].
  - (* the new heap: insert in front of the first not earlier *)
    assert (X : exists h', Permutation ((w, t) :: heap s) h' /\ earliest_first h').
    { assert (G : forall h : list element, h <> [] -> exists x r, Permutation h (x :: r) /\ forall y, In y h -> fst x <= fst y).
      { induction h as [|x [|x2 h] IH]; [contradiction| |]; intros _.
        - exists x, []. split; [auto|]. intros y [-> |[]]. lia.
        - destruct IH as (m & r & P & M); [discriminate|]. destruct (Z_le_gt_dec (fst x) (fst m)) as [L|L].
          + exists x, (x2 :: h). split; [auto|]. intros y [-> |Y]; [lia|]. specialize (M y Y). lia.
          + exists m, (x :: r). split; [rewrite P; apply perm_swap|]. intros y [<- |Y]; [lia|auto]. }
      destruct (G ((w, t) :: heap s)) as (x & r & P & M); [discriminate|]. exists (x :: r). split; [exact P|]. intros y Y. apply M. now rewrite P. }
    destruct X as (h' & P & F). eexists. eapply s_async; eauto.
  - eexists. eapply s_notify; eauto.
Qed.
Lemma time_test_total s : exists k h' l, time_test s k h' l.
Proof.
  destruct (heap s) as [|x r] eqn:E; [do 3 eexists; now apply t_empty|]. destruct (Z_lt_ge_dec (now s) (fst x)) as [L|L]; [do 3 eexists; eapply t_early; eauto|].
  assert (X : exists r', Permutation r r' /\ earliest_first r').
  { clear E. assert (G : forall h : list element, h <> [] -> exists x r, Permutation h (x :: r) /\ forall y, In y h -> fst x <= fst y).
    { induction h as [|z [|x2 h] IH]; [contradiction| |]; intros _.
      - exists z, []. split; [auto|]. intros y [-> |[]]. lia.
      - destruct IH as (m & q & P & M); [discriminate|]. destruct (Z_le_gt_dec (fst z) (fst m)) as [L'|L'].
        + exists z, (x2 :: h). split; [auto|]. intros y [-> |Y]; [lia|]. specialize (M y Y). lia.
        + exists m, (z :: q). split; [rewrite P; apply perm_swap|]. intros y [<- |Y]; [lia|auto]. }
    destruct r as [|z r]; [exists []; cbn; auto|]. destruct (G (z :: r)) as (m & q & P & M); [discriminate|]. exists (m :: q). split; [exact P|]. intros y Y. apply M. now rewrite P. }
  destruct X as (r' & P & F). do 3 eexists. eapply t_due; eauto. lia.
Qed.

Lemma idle_state s : inv s -> idle s -> calls s = [] /\ post_of (who s) = [] /\ forall x, In x (heap s) -> now s < fst x.
Proof.
  intros I H. assert (C : calls s = []).
  { destruct (calls s) as [|c l] eqn:E; [reflexivity|]. destruct (in_call_step s c) as (s' & X); [rewrite E; now left|]. destruct (H s' X). }
  assert (W := i_who _ I). rewrite C in W. split; [exact C|]. destruct (who s) as [| | |t|w t|] eqn:E; try contradiction.
  - exfalso. destruct (heap s) as [|x r] eqn:Eh; [exact (H _ (s_wait s E Eh))|]. destruct (time_test_total s) as (k & h' & l & T). refine (H _ (s_first s k h' l E _ T)). rewrite Eh. discriminate.
  - split; [reflexivity|]. destruct W as [W|[]]. rewrite W. intros x [].
  - exfalso. destruct (time_test_total s) as (k & h' & l & T). exact (H _ (s_time s k h' l E T)).
  - split; [reflexivity|]. destruct W as [_ [[]|W]]. intros x X. specialize (W x X). destruct (Z_lt_ge_dec (now s) t) as [L|L]; [lia|]. exfalso. refine (H _ (s_timeout s t E _)). lia.
  - exfalso. exact (H _ (s_posted s w t E)).
Qed.

Definition w_call (c : call) : nat := match c with TAsync _ _ => 10 | TNotify => 3 end.
Definition w_sched (n : Z) (k : sched) : nat := match k with SCheck | STime => 2 | SWait | SBroken => 0 | SUntil t => if t <=? n then 3 else 0 | SPost _ _ => 3 end.
Definition wsum (l : list call) : nat := list_sum (map w_call l).
Definition work (s : st) : nat := wsum (calls s) + 5 * length (heap s) + w_sched (now s) (who s).
Lemma wsum_mid a c b : wsum (a ++ c :: b) = (w_call c + wsum (a ++ b))%nat.
Proof. unfold wsum. rewrite !map_app. cbn [map]. rewrite !list_sum_app. cbn [list_sum fold_right]. unfold list_sum. lia. Qed.
Lemma time_test_work s k h' l : time_test s k h' l -> (5 * length h' + w_sched (now s) k < 5 * length (heap s) + 2)%nat.
Proof.
  intros [E|x r E L|x r r' E L R F].
  - rewrite E. cbn. lia.
  - cbn [w_sched]. destruct (Z.leb_spec (fst x) (now s)); lia.
  - rewrite E, <- (Permutation_length R). cbn [w_sched length]. lia.
Qed.
Lemma work_own s s' : step Own s s' -> (work s' < work s)%nat.
Proof.
  intros H. inversion H as [| | | |s0 a b w t h' C P F|s0 a b C|s0 W E|s0 k h' l W N T|s0 k h' l W T|s0 t W D|s0 w t W]; subst; unfold work; cbn [calls heap now who];
    try (rewrite W; cbn [w_sched]); try (apply time_test_work in T); try lia.
  - rewrite C, !wsum_mid. cbn [w_call]. apply Permutation_length in P. cbn [length] in P. unfold element in *. lia.
  - rewrite C, wsum_mid. cbn [w_call]. destruct (who s); cbn [w_sched]; lia.
  - destruct (Z.leb_spec t (now s)); lia.
Qed.
Lemma work_other m s s' : step m s s' -> m = Clock \/ m = Spurious -> (work s' <= work s + 3)%nat.
Proof.
  intros H M. destruct H as [s w t|s d D|s W|s t W|s a b w t h' C P F|s a b C|s W E|s k h' l W N T|s k h' l W T|s t W D|s w t W]; try (destruct M; discriminate);
    unfold work; cbn [calls heap now who].
  - destruct (who s); cbn [w_sched]; try lia. destruct (t <=? now s + d), (t <=? now s); lia.
  - rewrite W. cbn [w_sched]. lia.
  - rewrite W. cbn [w_sched]. lia.
Qed.
Lemma running_work k m s s' : running k m s s' -> (work s' + k <= work s + 3 * m)%nat.
Proof.
  induction 1 as [s|k m s s1 s2 H IH X|k m s s1 s2 H IH X|k m s s1 s2 H IH X]; [lia| | |].
  - apply work_own in X. lia.
  - apply work_other in X; [lia|auto].
  - apply work_other in X; [lia|auto].
Qed.
