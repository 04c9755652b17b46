(** Properties C28, C29, C30: searching and sortedness. *)
From Verif Require Import Prelude Search_Model.
Local Open Scope nat_scope.
Ltac Zify.zify_post_hook ::= idtac.

(** *** Specification *)
(** [i] splits the [n] elements from [f] into those satisfying [P], then those that do not. *)
Definition splits {A} (r : list A) (P : A -> bool) (f n i : nat) : Prop :=
  f <= i <= f + n /\
  (forall j v, f <= j < i -> nth_error r j = Some v -> P v = true) /\
  (forall j v, i <= j < f + n -> nth_error r j = Some v -> P v = false).
(** Sorted with respect to [c] through the projection: no element less than an earlier one. *)
Definition Sorted {A T} (c : T -> T -> bool) (p : A -> T) (r : list A) : Prop :=
  forall i j a b, i < j -> nth_error r i = Some a -> nth_error r j = Some b -> c (p b) (p a) = false.
(** The worst case of a halving search of n elements: 0 for n = 0, else 1 + floor(log2 n). *)
Definition log_steps (n : nat) : nat := if n =? 0 then 0 else 1 + Nat.log2 n.

(** *** The halving loop *)
Lemma div2_bounds n : n <> 0 -> Nat.div2 n < n.
Proof. intros H. apply Nat.lt_div2. lia. Qed.
Lemma div2_rest n : n - (Nat.div2 n + 1) <= Nat.div2 n.
Proof. pose proof (Nat.div2_odd n). destruct (Nat.odd n); cbn [Nat.b2n] in *; lia. Qed.
Lemma log_steps_mono m n : m <= n -> log_steps m <= log_steps n.
Proof.
  intros H. unfold log_steps. destruct (Nat.eqb_spec m 0), (Nat.eqb_spec n 0); try lia.
  pose proof (Nat.log2_le_mono m n H). lia.
Qed.
Lemma log_steps_div2 n : n <> 0 -> S (log_steps (Nat.div2 n)) = log_steps n.
Proof.
  intros Hn. unfold log_steps. destruct (Nat.eqb_spec n 0); [contradiction|].
  destruct (Nat.eqb_spec (Nat.div2 n) 0) as [H0|H0].
  - pose proof (Nat.div2_odd n) as E. rewrite H0 in E. destruct (Nat.odd n); cbn in E; subst; [reflexivity|contradiction].
  - pose proof (Nat.div2_odd n) as E. destruct (Nat.odd n); cbn [Nat.b2n] in E.
    + rewrite E at 2. rewrite Nat.log2_succ_double by lia. reflexivity.
    + rewrite E at 2. rewrite Nat.add_0_r, Nat.log2_double by lia. reflexivity.
Qed.

Section Loop.
Context {A : Type} (r : list A) (P : A -> bool).
Fixpoint bs (fuel f n : nat) : option (nat * nat) :=
  if n =? 0 then Some (f, 0) else
  match fuel with
  | 0 => None
  | S fuel =>
    let h := Nat.div2 n in
    let m := f + h in
    match nth_error r m with
    | None => None
    | Some v =>
      match (if P v then bs fuel (m + 1) (n - (h + 1)) else bs fuel f h) with
      | None => None
      | Some (i, k) => Some (i, k + 1)
      end
    end
  end.

Lemma bs_spec s : forall fuel f n, n <= fuel -> f + n <= length r ->
  splits r P f n s -> exists k, bs fuel f n = Some (s, k) /\ k <= log_steps n.
Proof.
  induction fuel as [|fuel IH]; intros f n Hf Hr Hs; cbn [bs].
  - assert (n = 0) as -> by lia. cbn. exists 0. destruct Hs as [H _]. assert (s = f) as -> by lia. auto.
  - destruct (Nat.eqb_spec n 0) as [->|Hn].
    + exists 0. destruct Hs as [H _]. assert (s = f) as -> by lia. auto.
    + pose proof (div2_bounds n Hn) as Hh. pose proof (div2_rest n) as Hh2. pose proof (log_steps_div2 n Hn) as HL.
      set (h := Nat.div2 n) in *. cbn zeta.
      destruct (nth_error r (f + h)) as [v|] eqn:Ev; [|apply nth_error_None in Ev; lia].
      destruct Hs as (Hb & H1 & H2). destruct (P v) eqn:EP.
      * assert (Hms : f + h < s).
        { destruct (Nat.lt_ge_cases (f + h) s); [assumption|]. rewrite (H2 (f + h) v) in EP; [discriminate|lia|exact Ev]. }
        destruct (IH (f + h + 1) (n - (h + 1))) as (k & -> & Hk); [lia|lia| |].
        { split; [lia|]. split; intros j w Hj; [apply H1|apply H2]; lia. }
        exists (k + 1). split; [reflexivity|]. pose proof (log_steps_mono _ _ Hh2). lia.
      * assert (Hms : s <= f + h).
        { destruct (Nat.le_gt_cases s (f + h)); [assumption|]. rewrite (H1 (f + h) v) in EP; [discriminate|lia|exact Ev]. }
        destruct (IH f h) as (k & -> & Hk); [lia|lia| |].
        { split; [lia|]. split; intros j w Hj; [apply H1|apply H2]; lia. }
        exists (k + 1). split; [reflexivity|]. lia.
Qed.
End Loop.

Section Search.
Context {A T : Type} (c : T -> T -> bool) (p : A -> T) (r : list A) (x : T).

Lemma lower_is_bs : forall fuel f n, lower_bound_n_ c p r x fuel f n = bs r (fun v => c (p v) x) fuel f n.
Proof.
  induction fuel as [|fuel IH]; intros f n; cbn [lower_bound_n_ bs]; [reflexivity|].
  destruct (n =? 0); [reflexivity|]. cbn zeta. destruct (nth_error r _) as [v|]; [|reflexivity].
  rewrite !IH. reflexivity.
Qed.
Lemma upper_is_bs : forall fuel f n, upper_bound_n_ c p r x fuel f n = bs r (fun v => negb (c x (p v))) fuel f n.
Proof.
  induction fuel as [|fuel IH]; intros f n; cbn [upper_bound_n_ bs]; [reflexivity|].
  destruct (n =? 0); [reflexivity|]. cbn zeta. destruct (nth_error r _) as [v|]; [|reflexivity].
  rewrite !IH. reflexivity.
Qed.

(** *** C28 *)
(** For any range partitioned with respect to [c(p(v), x)]: the partition point, within
    1 + floor(log2 n) comparisons, reading only inside the [n] elements from [f]. *)
Theorem C28_lower_bound_is_partition_point f n s : f + n <= length r ->
  splits r (fun v => c (p v) x) f n s ->
  exists k, lower_bound_n c p r x f n = Some (s, k) /\ k <= log_steps n.
Proof. intros Hr Hs. unfold lower_bound_n. rewrite lower_is_bs. now apply bs_spec. Qed.

Theorem C28_upper_bound_is_partition_point f n s : f + n <= length r ->
  splits r (fun v => negb (c x (p v))) f n s ->
  exists k, upper_bound_n c p r x f n = Some (s, k) /\ k <= log_steps n.
Proof. intros Hr Hs. unfold upper_bound_n. rewrite upper_is_bs. now apply bs_spec. Qed.

(** equal_range gives both points, with at most twice the comparisons. The hypothesis
    [c(v,x) -> !c(x,v)] holds for every strict weak order. *)
Theorem C28_equal_range_is_both_points lo hi : (forall v, c (p v) x = true -> c x (p v) = false) ->
  forall f n, f + n <= length r ->
  splits r (fun v => c (p v) x) f n lo -> splits r (fun v => negb (c x (p v))) f n hi ->
  exists k, equal_range_n c p r x f n = Some (lo, hi, k) /\ k <= 2 * log_steps n.
Proof.
  intros Has f n Hr. unfold equal_range_n.
  assert (G : forall fuel f n, n <= fuel -> f + n <= length r ->
    splits r (fun v => c (p v) x) f n lo -> splits r (fun v => negb (c x (p v))) f n hi ->
    exists k, equal_range_n_ c p r x fuel f n = Some (lo, hi, k) /\ k <= 2 * log_steps n).
  2: { apply G; [lia|exact Hr]. }
  clear f n Hr.
  induction fuel as [|fuel IH]; intros f n Hf Hr Hs Ht; cbn [equal_range_n_].
  - assert (n = 0) as -> by lia. cbn. exists 0. destruct Hs as [H _]. destruct Ht as [H' _].
    assert (lo = f) as -> by lia. assert (hi = f) as -> by lia. auto.
  - destruct (Nat.eqb_spec n 0) as [->|Hn].
    + exists 0. destruct Hs as [H _]. destruct Ht as [H' _].
      assert (lo = f) as -> by lia. assert (hi = f) as -> by lia. split; [reflexivity|lia].
    + pose proof (div2_bounds n Hn) as Hh. pose proof (div2_rest n) as Hh2. pose proof (log_steps_div2 n Hn) as HL.
      set (h := Nat.div2 n) in *. cbn zeta.
      destruct (nth_error r (f + h)) as [v|] eqn:Ev; [|apply nth_error_None in Ev; lia].
      destruct Hs as (Hb & H1 & H2). destruct Ht as (Hb' & H3 & H4).
      pose proof (log_steps_mono _ _ Hh2) as HL2.
      destruct (c (p v) x) eqn:E1.
      * assert (f + h < lo).
        { destruct (Nat.lt_ge_cases (f + h) lo); [assumption|]. specialize (H2 (f + h) v). cbv beta in H2. rewrite H2 in E1; [discriminate|lia|exact Ev]. }
        assert (f + h < hi).
        { destruct (Nat.lt_ge_cases (f + h) hi); [assumption|]. specialize (H4 (f + h) v). cbv beta in H4.
          rewrite (Has v E1) in H4. discriminate H4; [lia|exact Ev]. }
        destruct (IH (f + h + 1) (n - (h + 1))) as (k & -> & Hk); [lia|lia| | |].
        { split; [lia|]. split; intros j w Hj; [apply H1|apply H2]; lia. }
        { split; [lia|]. split; intros j w Hj; [apply H3|apply H4]; lia. }
        exists (k + 1). split; [reflexivity|lia].
      * assert (lo <= f + h).
        { destruct (Nat.le_gt_cases lo (f + h)); [assumption|]. specialize (H1 (f + h) v). cbv beta in H1. rewrite H1 in E1; [discriminate|lia|exact Ev]. }
        destruct (c x (p v)) eqn:E2.
        -- assert (hi <= f + h).
           { destruct (Nat.le_gt_cases hi (f + h)); [assumption|]. specialize (H3 (f + h) v). cbv beta in H3.
             rewrite E2 in H3. discriminate H3; [lia|exact Ev]. }
           destruct (IH f h) as (k & -> & Hk); [lia|lia| | |].
           { split; [lia|]. split; intros j w Hj; [apply H1|apply H2]; lia. }
           { split; [lia|]. split; intros j w Hj; [apply H3|apply H4]; lia. }
           exists (k + 2). split; [reflexivity|lia].
        -- assert (f + h < hi).
           { destruct (Nat.lt_ge_cases (f + h) hi); [assumption|]. specialize (H4 (f + h) v). cbv beta in H4.
             rewrite E2 in H4. discriminate H4; [lia|exact Ev]. }
           destruct (C28_lower_bound_is_partition_point f h lo) as (k1 & -> & Hk1); [lia| |].
           { split; [lia|]. split; intros j w Hj; [apply H1|apply H2]; lia. }
           destruct (C28_upper_bound_is_partition_point (f + h + 1) (n - (h + 1)) hi) as (k2 & -> & Hk2); [lia| |].
           { split; [lia|]. split; intros j w Hj; [apply H3|apply H4]; lia. }
           exists (k1 + k2 + 2). split; [reflexivity|lia].
Qed.

(** A sorted range is partitioned for every key, so the searches work on it: *)
Lemma swo_lt_of_not_gt a b d : strict_weak_order c -> c b a = false -> c b d = true -> c a d = true.
Proof.
  intros (Hi & Ht & He) H1 H2. destruct (c a d) eqn:E; [reflexivity|exfalso].
  destruct (c d a) eqn:E2.
  - rewrite (Ht b d a) in H1; [discriminate|assumption|assumption].
  - destruct (c a b) eqn:E3.
    + rewrite (Ht a b d) in E; [discriminate|assumption|assumption].
    + destruct (c d b) eqn:E4; [specialize (Hi b); rewrite (Ht b d b H2 E4) in Hi; discriminate|].
      rewrite (He b a d) in H2; [discriminate|assumption|assumption|assumption|assumption].
Qed.

Lemma splits_exists (P : A -> bool) f n : f + n <= length r ->
  (forall i j a b, f <= i < j -> j < f + n -> nth_error r i = Some a -> nth_error r j = Some b -> P b = true -> P a = true) ->
  exists s, splits r P f n s.
Proof.
  intros Hr H. induction n as [|n IH].
  - exists f. split; [lia|]. split; intros; lia.
  - destruct IH as (s & Hs & H1 & H2); [lia|intros; eapply H; eauto; lia|].
    destruct (nth_error r (f + n)) as [v|] eqn:Ev; [|apply nth_error_None in Ev; lia].
    destruct (P v) eqn:EP.
    + exists (f + S n). split; [lia|]. split; [|intros; lia].
      intros j w Hj Hw. destruct (Nat.eq_dec j (f + n)) as [->|Hne]; [congruence|].
      apply (H j (f + n) w v); auto; lia.
    + exists s. split; [lia|]. split; [intros j w Hj; apply H1; lia|].
      intros j w Hj Hw. destruct (Nat.eq_dec j (f + n)) as [->|Hne]; [congruence|]. apply (H2 j w); [lia|exact Hw].
Qed.

Lemma sorted_splits_lower : strict_weak_order c -> Sorted c p r -> exists s, splits r (fun v => c (p v) x) 0 (length r) s.
Proof.
  intros HW HS. apply splits_exists; [lia|]. intros i j a b Hij Hj Ha Hb Hlt.
  apply (swo_lt_of_not_gt (p a) (p b) x HW); [|exact Hlt]. apply (HS i j); auto; lia.
Qed.
Lemma sorted_splits_upper : strict_weak_order c -> Sorted c p r -> exists s, splits r (fun v => negb (c x (p v))) 0 (length r) s.
Proof.
  intros HW HS. apply splits_exists; [lia|]. intros i j a b Hij Hj Ha Hb Hlt.
  apply negb_true_iff in Hlt. apply negb_true_iff. destruct (c x (p a)) eqn:E; [|reflexivity].
  assert (Hab : c (p b) (p a) = false) by (apply (HS i j); auto; lia).
  destruct (c (p a) (p b)) eqn:E2.
  - destruct HW as (_ & Ht & _). rewrite (Ht x (p a) (p b) E E2) in Hlt. discriminate.
  - destruct HW as (Hi & Ht & He).
    assert (c (p a) x = false) as E3. { destruct (c (p a) x) eqn:E3; [|reflexivity]. specialize (Hi x). rewrite (Ht x (p a) x E E3) in Hi. discriminate. }
    destruct (c (p b) x) eqn:E4.
    + rewrite (Ht (p b) x (p a) E4 E) in Hab. discriminate.
    + rewrite (He x (p b) (p a)) in E; [discriminate|assumption..].
Qed.

Theorem C28_searches_of_sorted_ranges : strict_weak_order c -> Sorted c p r ->
  exists lo hi k1 k2 k3,
    lower_bound c p r x = Some (lo, k1) /\ upper_bound c p r x = Some (hi, k2) /\
    equal_range c p r x = Some (lo, hi, k3) /\
    k1 <= log_steps (length r) /\ k2 <= log_steps (length r) /\ k3 <= 2 * log_steps (length r) /\
    lo <= hi <= length r /\
    forall j v, nth_error r j = Some v ->
      (j < lo <-> c (p v) x = true) /\ (hi <= j <-> c x (p v) = true) /\
      (lo <= j < hi <-> c (p v) x = false /\ c x (p v) = false).
Proof.
  intros HW HS. destruct (sorted_splits_lower HW HS) as (lo & Hlo). destruct (sorted_splits_upper HW HS) as (hi & Hhi).
  assert (Has : forall v, c (p v) x = true -> c x (p v) = false).
  { intros v Hv. destruct (c x (p v)) eqn:E; [|reflexivity]. destruct HW as (Hi & Ht & _). specialize (Hi x).
    rewrite (Ht x (p v) x E Hv) in Hi. discriminate. }
  destruct (C28_lower_bound_is_partition_point 0 (length r) lo) as (k1 & H1 & K1); [lia|exact Hlo|].
  destruct (C28_upper_bound_is_partition_point 0 (length r) hi) as (k2 & H2 & K2); [lia|exact Hhi|].
  destruct (C28_equal_range_is_both_points lo hi Has 0 (length r)) as (k3 & H3 & K3); [lia|exact Hlo|exact Hhi|].
  exists lo, hi, k1, k2, k3. repeat split; auto; try apply Hlo; try apply Hhi; try (intros; apply Hlo); try (intros; apply Hhi).
  all: destruct Hlo as (Lb & L1 & L2); destruct Hhi as (Ub & U1 & U2).
  - destruct (Nat.le_gt_cases lo hi); [assumption|]. exfalso.
    destruct (nth_error r hi) as [v|] eqn:Ev; [|apply nth_error_None in Ev; lia].
    specialize (L1 hi v ltac:(lia) Ev). specialize (U2 hi v ltac:(lia) Ev). cbv beta in *.
    rewrite (Has v L1) in U2. discriminate.
  - intros Hj. apply (L1 j); [lia|assumption].
  - intros Hc. destruct (Nat.lt_ge_cases j lo); [assumption|]. specialize (L2 j v). cbv beta in L2.
    rewrite L2 in Hc; [discriminate| |assumption]. pose proof (proj1 (nth_error_Some r j)) as Q. rewrite H in Q. specialize (Q ltac:(congruence)). lia.
  - intros Hj. specialize (U2 j v). cbv beta in U2. apply negb_false_iff, U2; [|assumption].
    pose proof (proj1 (nth_error_Some r j)) as Q. rewrite H in Q. specialize (Q ltac:(congruence)). lia.
  - intros Hc. destruct (Nat.le_gt_cases hi j); [assumption|]. specialize (U1 j v). cbv beta in U1.
    rewrite Hc in U1. discriminate U1; [lia|assumption].
  - specialize (L2 j v). cbv beta in L2. apply L2; [|assumption].
    pose proof (proj1 (nth_error_Some r j)) as Q. rewrite H in Q. specialize (Q ltac:(congruence)). lia.
  - specialize (U1 j v). cbv beta in U1. apply negb_true_iff, U1; [lia|assumption].
  - destruct (Nat.le_gt_cases lo j); [assumption|]. specialize (L1 j v). cbv beta in L1. rewrite L1 in H0; [|lia|assumption]. destruct H0; discriminate.
  - destruct (Nat.lt_ge_cases j hi); [assumption|]. specialize (U2 j v). cbv beta in U2.
    destruct H0 as [_ H0]. rewrite H0 in U2. discriminate U2; [|assumption].
    pose proof (proj1 (nth_error_Some r j)) as Q. rewrite H in Q. specialize (Q ltac:(congruence)). lia.
Qed.

(** *** C29 *)
(** The documentation promises the first element equivalent to [x], or the end. That is what
    happens if elements equivalent to [x] are also equal to it ([eqb] is operator==). MISSING:
    orders where equivalence is coarser than equality, refuted below. *)
Theorem C29_binary_search_partial (eqb : T -> T -> bool) : strict_weak_order c -> Sorted c p r ->
  (forall v, eqb v x = true <-> c v x = false /\ c x v = false) ->
  exists i, binary_search c p r x eqb = Some i /\ i <= length r /\
    (i = length r -> forall v, In v r -> ~ (c (p v) x = false /\ c x (p v) = false)) /\
    (i < length r -> exists v, nth_error r i = Some v /\ c (p v) x = false /\ c x (p v) = false /\
       forall j w, j < i -> nth_error r j = Some w -> ~ (c (p w) x = false /\ c x (p w) = false)).
Proof.
  intros HW HS Heq.
  destruct (C28_searches_of_sorted_ranges HW HS) as (lo & hi & k1 & k2 & k3 & H1 & _ & _ & _ & _ & _ & Hb & Hall).
  unfold binary_search. rewrite H1. destruct (Nat.eqb_spec lo (length r)) as [E|E].
  - exists (length r). split; [reflexivity|]. split; [lia|]. split; [|intros; lia].
    intros _ v Hv Hc. apply In_nth_error in Hv as (j & Hj). pose proof (proj1 (proj2 (proj2 (Hall j v Hj)) ) ) as _.
    apply (proj2 (proj2 (Hall j v Hj))) in Hc. lia.
  - destruct (nth_error r lo) as [v|] eqn:Ev; [|apply nth_error_None in Ev; lia].
    destruct (Hall lo v Ev) as (A1 & A2 & A3). destruct (eqb (p v) x) eqn:Eq.
    + exists lo. split; [reflexivity|]. split; [lia|]. split; [intros; lia|]. intros _.
      apply Heq in Eq as [Q1 Q2]. exists v. split; [exact Ev|]. split; [exact Q1|]. split; [exact Q2|].
      intros j w Hj Hw Hc. apply (proj2 (proj2 (Hall j w Hw))) in Hc. lia.
    + exists (length r). split; [reflexivity|]. split; [lia|]. split; [|intros; lia].
      intros _ w Hw Hc. apply In_nth_error in Hw as (j & Hj). apply (proj2 (proj2 (Hall j w Hj))) in Hc.
      assert (eqb (p v) x = true) as Q; [|congruence]. apply Heq. apply A3. lia.
Qed.
End Search.

(** Pairs ordered by their first component: an equivalent element is present, binary_search says
    there is none. *)
Theorem C29_equivalent_but_unequal_refuted :
  exists (c eqb : nat * nat -> nat * nat -> bool) (r : list (nat * nat)) (x : nat * nat),
    strict_weak_order c /\ (forall a b, eqb a b = true <-> a = b) /\ Sorted c (fun v => v) r /\
    (exists v, In v r /\ c v x = false /\ c x v = false) /\
    binary_search c (fun v => v) r x eqb = Some (length r).
Proof.
  exists (fun a b => fst a <? fst b), (fun a b => (fst a =? fst b) && (snd a =? snd b)), [(1, 1)], (1, 2).
  split; [|split; [|split; [|split]]].
  - split; [|split]; intros.
    + apply Nat.ltb_irrefl.
    + rewrite Nat.ltb_lt in *. lia.
    + rewrite Nat.ltb_ge in *. lia.
  - intros [a1 a2] [b1 b2]. cbn. rewrite andb_true_iff, !Nat.eqb_eq. split; [intros [-> ->]; reflexivity|intros H; injection H; auto].
  - intros i j a b Hij Hi Hj. destruct j as [|[|j]]; [lia| |]; discriminate Hj.
  - exists (1, 1). cbn. auto.
  - reflexivity.
Qed.

Lemma nat_swo : strict_weak_order Nat.ltb.
Proof.
  split; [|split]; intros.
  - apply Nat.ltb_irrefl.
  - rewrite Nat.ltb_lt in *. lia.
  - rewrite Nat.ltb_ge in *. lia.
Qed.
Fixpoint sortedb (r : list nat) : bool :=
  match r with a :: ((b :: _) as r') => (a <=? b) && sortedb r' | _ => true end.
Lemma sortedb_sound r : sortedb r = true -> Sorted Nat.ltb (fun v => v) r.
Proof.
  assert (G : forall r a, sortedb (a :: r) = true -> forall j b, nth_error r j = Some b -> a <= b).
  { induction r0 as [|b r0 IH]; intros a H j d Hj; [destruct j; discriminate|].
    cbn [sortedb] in H. apply andb_true_iff in H as [H1 H2]. apply Nat.leb_le in H1.
    destruct j as [|j]; cbn in Hj; [injection Hj as <-; exact H1|]. pose proof (IH b H2 j d Hj). lia. }
  induction r as [|a r IH]; intros H i j x y Hij Hi Hj; [destruct i; discriminate|].
  destruct j as [|j]; [lia|]. cbn in Hj. destruct i as [|i]; cbn in Hi.
  - injection Hi as <-. apply Nat.ltb_ge. eapply G; eauto.
  - assert (Hr : sortedb r = true). { destruct r; [reflexivity|]. cbn [sortedb] in H. now apply andb_true_iff in H. }
    apply (IH Hr i j); auto; lia.
Qed.

(** The hypotheses are met by [1;3;3;3;5;8], where 3 is at [1,4). *)
Example C28_nonvacuous : strict_weak_order Nat.ltb /\ Sorted Nat.ltb (fun v => v) [1;3;3;3;5;8] /\
  equal_range Nat.ltb (fun v => v) [1;3;3;3;5;8] 3 = Some (1, 4, 6) /\
  lower_bound Nat.ltb (fun v => v) [1;3;3;3;5;8] 9 = Some (6, 2).
Proof. split; [exact nat_swo|]. split; [apply sortedb_sound; reflexivity|]. split; reflexivity. Qed.
Example C29_nonvacuous : binary_search Nat.ltb (fun v => v) [1;3;3;3;5;8] 3 Nat.eqb = Some 1 /\
  binary_search Nat.ltb (fun v => v) [1;3;3;3;5;8] 4 Nat.eqb = Some 6.
Proof. split; reflexivity. Qed.

(** *** C30 *)
Lemma adjacent_find_cons {A} (q : A -> A -> bool) a b r :
  adjacent_find q (a :: b :: r) = if q a b then 0 else S (adjacent_find q (b :: r)).
Proof. reflexivity. Qed.
Lemma adjacent_find_le {A} (q : A -> A -> bool) r : adjacent_find q r <= length r.
Proof. induction r as [|a [|b r] IH]; [cbn; lia|cbn; lia|]. rewrite adjacent_find_cons. cbn [length] in *. destruct (q a b); lia. Qed.

Lemma adjacent_find_spec {A} (q : A -> A -> bool) r :
  (forall i a b, i < adjacent_find q r -> nth_error r i = Some a -> nth_error r (S i) = Some b -> q a b = false) /\
  (adjacent_find q r < length r -> exists a b, nth_error r (adjacent_find q r) = Some a /\ nth_error r (S (adjacent_find q r)) = Some b /\ q a b = true).
Proof.
  induction r as [|a [|b r] IH].
  - split; [intros i a b H; cbn in H; lia|cbn; lia].
  - split; [|cbn; lia]. intros i x y Hi _ H. destruct i; cbn in H; [discriminate|destruct i; discriminate].
  - destruct IH as [I1 I2]. rewrite adjacent_find_cons. destruct (q a b) eqn:E.
    + split; [intros; lia|]. intros _. exists a, b. auto.
    + split.
      * intros [|i] x y Hi Hx Hy; cbn in Hx, Hy; [injection Hx as <-; injection Hy as <-; exact E|].
        apply (I1 i x y); [lia|exact Hx|exact Hy].
      * cbn [length]. intros Hl. apply I2. cbn [length]. lia.
Qed.

Lemma chain_all {T} (c : T -> T -> bool) : (forall a b d, c a b = true -> c b d = true -> c a d = true) ->
  forall r, (forall i a b, nth_error r i = Some a -> nth_error r (S i) = Some b -> c a b = true) ->
  forall i j a b, i < j -> nth_error r i = Some a -> nth_error r j = Some b -> c a b = true.
Proof.
  intros Ht r H i j a b Hij Ha Hb. revert b Hb.
  induction Hij as [|j Hij IH]; intros b Hb; [eapply H; eauto|].
  destruct (nth_error r j) as [d|] eqn:Ed.
  - eapply Ht; [apply IH; reflexivity|]. eapply H; eauto.
  - apply nth_error_None in Ed. assert (S j < length r) by (apply nth_error_Some; congruence). lia.
Qed.

(** What the overloads taking a comparison decide is STRICT sortedness: every element is less than
    every later one. MISSING from the property: ranges with equivalent elements (refuted below). *)
Theorem C30_is_sorted_partial {A T} (c : T -> T -> bool) (p : A -> T) r : strict_weak_order c ->
  (is_sorted c p r = true <->
   forall i j a b, i < j -> nth_error r i = Some a -> nth_error r j = Some b -> c (p a) (p b) = true).
Proof.
  intros (_ & Ht & _). unfold is_sorted. rewrite Nat.eqb_eq.
  destruct (adjacent_find_spec (fun a b => negb (c (p a) (p b))) r) as [H1 H2].
  pose proof (adjacent_find_le (fun a b => negb (c (p a) (p b))) r) as Hle. split.
  - intros E. assert (Hs : forall i a b, nth_error r i = Some a -> nth_error r (S i) = Some b -> c (p a) (p b) = true).
    { intros i a b Ha Hb. specialize (H1 i a b). cbv beta in H1. apply negb_false_iff, H1; auto. rewrite E. apply nth_error_Some. congruence. }
    apply (chain_all (fun a b => c (p a) (p b))); [intros; eapply Ht; eauto|exact Hs].
  - intros H. destruct (Nat.eq_dec (adjacent_find (fun a b => negb (c (p a) (p b))) r) (length r)) as [E|E]; [exact E|exfalso].
    destruct H2 as (a & b & Ha & Hb & Hn); [lia|]. apply negb_true_iff in Hn.
    rewrite (H _ _ _ _ (Nat.lt_succ_diag_r _) Ha Hb) in Hn. discriminate.
Qed.
(** On ranges without equivalent elements that is sortedness. *)
Corollary C30_is_sorted_without_ties_partial {A T} (c : T -> T -> bool) (p : A -> T) r : strict_weak_order c ->
  (forall i j a b, i < j -> nth_error r i = Some a -> nth_error r j = Some b -> c (p a) (p b) = true \/ c (p b) (p a) = true) ->
  (is_sorted c p r = true <-> Sorted c p r).
Proof.
  intros HW Hne. rewrite C30_is_sorted_partial by exact HW. destruct HW as (Hi & Ht & _). split; intros H i j a b Hij Ha Hb.
  - specialize (H i j a b Hij Ha Hb). destruct (c (p b) (p a)) eqn:E; [|reflexivity].
    specialize (Hi (p a)). rewrite (Ht _ _ _ H E) in Hi. discriminate.
  - specialize (H i j a b Hij Ha Hb). destruct (Hne i j a b Hij Ha Hb); congruence.
Qed.
(** The one-argument overload is right for every range. *)
Theorem C30_is_sorted_range_partial {A} (less : A -> A -> bool) r : strict_weak_order less ->
  (is_sorted_range less r = true <-> Sorted less (fun v => v) r).
Proof.
  intros HW. unfold is_sorted_range. split.
  - intros H. assert (Hs : forall i a b, nth_error r i = Some a -> nth_error r (S i) = Some b -> negb (less b a) = true).
    { revert H. induction r as [|a [|b r] IH]; intros H i x y Hx Hy.
      - destruct i; discriminate.
      - destruct i as [|[|i]]; discriminate.
      - cbn [std_is_sorted] in H. apply andb_true_iff in H as [H1 H2]. destruct i as [|i]; cbn in Hx, Hy.
        + injection Hx as <-. injection Hy as <-. exact H1.
        + apply (IH H2 i); assumption. }
    intros i j a b Hij Ha Hb. apply negb_true_iff.
    apply (chain_all (fun a b => negb (less b a))) with (r := r) (i := i) (j := j); auto.
    intros u v w H1 H2. rewrite negb_true_iff in *. destruct (less w u) eqn:E; [exfalso|reflexivity].
    rewrite (swo_lt_of_not_gt less v w u HW H2 E) in H1. discriminate.
  - intros H. induction r as [|a [|b r] IH]; [reflexivity|reflexivity|].
    cbn [std_is_sorted]. apply andb_true_iff. split.
    + apply negb_true_iff. apply (H 0 1); [lia|reflexivity|reflexivity].
    + apply IH. intros i j x y Hij Hx Hy. apply (H (S i) (S j)); [lia|exact Hx|exact Hy].
Qed.
(** sorted(f, l, o) returns the end of the longest strictly increasing prefix. *)
Theorem C30_sorted_prefix_partial {A} (o : A -> A -> bool) r : strict_weak_order o ->
  sorted o r <= length r /\
  (forall i j a b, i < j < sorted o r -> nth_error r i = Some a -> nth_error r j = Some b -> o a b = true) /\
  (sorted o r < length r -> exists i a b, S i = sorted o r /\ nth_error r i = Some a /\ nth_error r (S i) = Some b /\ o a b = false).
Proof.
  intros (_ & Ht & _). unfold sorted.
  destruct (adjacent_find_spec (fun a b => negb (o a b)) r) as [H1 H2].
  pose proof (adjacent_find_le (fun a b => negb (o a b)) r) as Hle.
  set (f := adjacent_find _ r) in *. clearbody f.
  set (s := if f =? length r then f else f + 1).
  assert (Hs : s <= length r /\ (s = S f \/ s = f /\ f = length r)).
  { unfold s. destruct (Nat.eqb_spec f (length r)); lia. }
  split; [lia|]. split.
  - intros i j a b Hij Ha Hb.
    assert (Hf : forall k x y, nth_error (firstn s r) k = Some x -> nth_error (firstn s r) (S k) = Some y -> o x y = true).
    { intros k x y Hx Hy.
      assert (S k < length (firstn s r)) as Hk by (apply nth_error_Some; congruence).
      rewrite firstn_length in Hk.
      specialize (H1 k x y). cbv beta in H1. apply negb_false_iff, H1; [lia| |].
      - rewrite <- (firstn_skipn s r). rewrite nth_error_app1; [exact Hx|]. rewrite firstn_length. lia.
      - rewrite <- (firstn_skipn s r). rewrite nth_error_app1; [exact Hy|]. rewrite firstn_length. lia. }
    apply (chain_all o Ht (firstn s r) Hf i j); [lia| |].
    + rewrite <- (firstn_skipn s r) in Ha. rewrite nth_error_app1 in Ha; [exact Ha|]. rewrite firstn_length. lia.
    + rewrite <- (firstn_skipn s r) in Hb. rewrite nth_error_app1 in Hb; [exact Hb|]. rewrite firstn_length. lia.
  - intros Hlt. destruct H2 as (a & b & Ha & Hb & Hn); [lia|]. exists f, a, b.
    apply negb_true_iff in Hn. split; [lia|]. auto.
Qed.
(** [1;1] is sorted; is_sorted(f, l, less) denies it while is_sorted(range) confirms it. *)
Theorem C30_equal_elements_refuted :
  exists r : list nat, Sorted Nat.ltb (fun v => v) r /\
    is_sorted Nat.ltb (fun v => v) r = false /\ is_sorted_range Nat.ltb r = true.
Proof. exists [1; 1]. split; [apply sortedb_sound; reflexivity|]. split; reflexivity. Qed.

Example C30_nonvacuous : is_sorted Nat.ltb (fun v => v) [1;2;5] = true /\ sorted Nat.ltb [1;2;5;4;7] = 3.
Proof. split; reflexivity. Qed.

Print Assumptions C28_lower_bound_is_partition_point.
Print Assumptions C28_upper_bound_is_partition_point.
Print Assumptions C28_equal_range_is_both_points.
Print Assumptions C28_searches_of_sorted_ranges.
Print Assumptions C29_binary_search_partial.
Print Assumptions C29_equivalent_but_unequal_refuted.
Print Assumptions C30_is_sorted_partial.
Print Assumptions C30_is_sorted_without_ties_partial.
Print Assumptions C30_is_sorted_range_partial.
Print Assumptions C30_sorted_prefix_partial.
Print Assumptions C30_equal_elements_refuted.
