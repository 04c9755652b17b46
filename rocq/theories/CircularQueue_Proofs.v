From Verif Require Import Prelude CircularQueue_Model CircularQueue_Spec.

Section Proofs.
Context {A : Type}.
Implicit Types (q : queue A) (s : fifo A).

Definition wr (cap i : nat) : nat := if i <? cap then i else i - cap.

(** Representation relation between the concrete and the abstract queue. *)
Record R (cap : nat) q s : Prop := mkR {
  R_cap : 0 < cap;
  R_len : length (container q) = cap;
  R_b : qbegin q < cap;
  R_sz : length (held s) <= cap;
  R_e : qend q = wr cap (qbegin q + length (held s));
  R_em : is_empty q = (length (held s) =? 0);
  R_held : forall i, i < length (held s) ->
     nth_error (container q) (wr cap (qbegin q + i)) = nth_error (held s) i;
  R_pop : forall i, i < length (popped s) -> i < cap - length (held s) ->
     nth_error (container q) (wr cap (qbegin q + (cap - 1 - i))) = nth_error (popped s) i }.

Ltac wr := unfold wr in *; repeat match goal with
  | H : context [?a <? ?b] |- _ => destruct (Nat.ltb_spec a b)
  | |- context [?a <? ?b] => destruct (Nat.ltb_spec a b)
  | H : context [?a =? ?b] |- _ => destruct (Nat.eqb_spec a b)
  | |- context [?a =? ?b] => destruct (Nat.eqb_spec a b)
  end.

Lemma R_make d cap : 0 < cap -> R cap (make d cap) (Fifo [] []).
Proof.
  intros H. constructor; simpl; auto; try lia.
  - apply repeat_length.
  - unfold wr. wr; lia.
Qed.

Lemma R_full cap q s : R cap q s -> full q = (length (held s) =? cap).
Proof.
  intros [Hc Hl Hb Hs He Hem Hh Hp]. unfold full. rewrite Hem, He.
  apply eq_true_iff_eq. rewrite andb_true_iff, negb_true_iff, !Nat.eqb_eq, Nat.eqb_neq.
  wr; split; lia.
Qed.

Lemma R_size cap q s : R cap q s -> size q = length (held s).
Proof.
  intros [Hc Hl Hb Hs He Hem Hh Hp]. unfold size, capacity. rewrite Hem, He, Hl.
  wr; simpl in *; lia.
Qed.

Lemma R_front cap q s : R cap q s -> front q = hd_error (held s).
Proof.
  intros [Hc Hl Hb Hs He Hem Hh Hp]. unfold front, empty. rewrite Hem.
  destruct (held s) as [|x r] eqn:E; simpl in *; auto.
  specialize (Hh 0 ltac:(lia)). rewrite Nat.add_0_r in Hh. unfold wr in Hh.
  destruct (Nat.ltb_spec (qbegin q) cap); [|lia]. now rewrite Hh.
Qed.

Lemma R_elt_lt cap q s : R cap q s -> qend q < cap.
Proof. intros [Hc Hl Hb Hs He Hem Hh Hp]. rewrite He. wr; lia. Qed.

Lemma R_push cap q s x s' : R cap q s -> spec_step cap s (Push x) = Some s' ->
  exists q', push_back q x = Some q' /\ R cap q' s'.
Proof.
  intros HR. pose proof (R_elt_lt _ _ _ HR) as Helt. pose proof (R_full _ _ _ HR) as Hfull.
  destruct HR as [Hc Hl Hb Hs He Hem Hh Hp].
  simpl. unfold push_back, advance, capacity. rewrite Hl, Hfull.
  destruct (Nat.ltb_spec (qend q) cap); [|lia].
  destruct (Nat.ltb_spec (length (held s)) cap) as [Hlt|Hge]; intros [= <-].
  - destruct (Nat.eqb_spec (length (held s)) cap) as [Hx|_]; [lia|].
    eexists; split; [reflexivity|].
    constructor; simpl; rewrite ?app_length; simpl; try lia.
    + now rewrite upd_length.
    + wr; lia.
    + intros i Hi. rewrite nth_error_upd, Hl.
      destruct (Nat.eqb_spec (qend q) (wr cap (qbegin q + i))) as [Heq|Hne].
      * assert (i = length (held s)) by (wr; lia). subst i.
        destruct (Nat.ltb_spec (qend q) cap); [|lia].
        rewrite nth_error_app2, Nat.sub_diag by lia. reflexivity.
      * assert (i <> length (held s)) by (intros ->; congruence).
        rewrite nth_error_app1 by lia. apply Hh. lia.
    + intros i Hi1 Hi2. rewrite nth_error_upd_other; [apply Hp; lia|]. wr; lia.
  - destruct (Nat.eqb_spec (length (held s)) cap) as [Heqc|]; [|lia].
    assert (Hbe : qend q = qbegin q) by (wr; lia).
    destruct (held s) as [|y r] eqn:Ehd; simpl in Heqc; [lia|].
    eexists; split; [reflexivity|].
    constructor; simpl; rewrite ?app_length; simpl; try lia.
    + now rewrite upd_length.
    + wr; lia.
    + wr; lia.
    + intros i Hi. rewrite nth_error_upd, Hl.
      destruct (Nat.eqb_spec (qend q) (wr cap ((if S (qend q) =? cap then 0 else S (qend q)) + i))) as [Heq|Hne].
      * assert (i = length r) by (wr; lia). subst i.
        destruct (Nat.ltb_spec (qend q) cap); [|lia].
        rewrite nth_error_app2, Nat.sub_diag by lia. reflexivity.
      * assert (i <> length r) by (intros ->; apply Hne; wr; lia).
        rewrite nth_error_app1 by lia.
        specialize (Hh (S i) ltac:(simpl; lia)). simpl in Hh. rewrite <- Hh. f_equal. wr; lia.
Qed.

Lemma R_pop_front cap q s s' : R cap q s -> spec_step cap s Pop = Some s' ->
  exists q', pop_front q = Some q' /\ R cap q' s'.
Proof.
  intros [Hc Hl Hb Hs He Hem Hh Hp]. simpl.
  destruct (held s) as [|y r] eqn:Ehd; [discriminate|]. intros [= <-].
  unfold pop_front, advance, capacity, empty. rewrite Hl, Hem. simpl.
  destruct (Nat.ltb_spec (qbegin q) cap); [|lia]. simpl in *.
  eexists; split; [reflexivity|].
  constructor; simpl; try lia.
  - wr; lia.
  - wr; lia.
  - apply eq_true_iff_eq. rewrite !Nat.eqb_eq. wr; lia.
  - intros i Hi. specialize (Hh (S i) ltac:(lia)). simpl in Hh. rewrite <- Hh. f_equal. wr; lia.
  - intros [|i] Hi1 Hi2; simpl.
    + specialize (Hh 0 ltac:(lia)). simpl in Hh. rewrite <- Hh. f_equal. wr; lia.
    + specialize (Hp i ltac:(lia) ltac:(lia)). rewrite <- Hp. f_equal. wr; lia.
Qed.

Lemma R_putback cap q s s' : R cap q s -> spec_step cap s Putback = Some s' ->
  exists q', putback q = Some q' /\ R cap q' s'.
Proof.
  intros HR. pose proof (R_full _ _ _ HR) as Hfull.
  destruct HR as [Hc Hl Hb Hs He Hem Hh Hp]. simpl.
  destruct (popped s) as [|x p] eqn:Ep; [discriminate|].
  destruct (Nat.ltb_spec (length (held s)) cap) as [Hlt|]; [|discriminate]. intros [= <-].
  unfold putback, capacity. rewrite Hfull, Hl.
  destruct (Nat.eqb_spec (length (held s)) cap); [lia|].
  assert (Hb' : exists b', (if qbegin q =? 0 then cap else qbegin q) = S b' /\
            b' = wr cap (qbegin q + (cap - 1))).
  { destruct (Nat.eqb_spec (qbegin q) 0) as [E|E].
    - exists (cap - 1). split; [lia|]. wr; lia.
    - exists (qbegin q - 1). split; [lia|]. wr; lia. }
  destruct Hb' as (b' & -> & Hb').
  eexists; split; [reflexivity|].
  assert (Hwb : wr cap (b' + 1) = qbegin q) by (wr; lia).
  assert (Hb'c : b' < cap) by (wr; lia).
  constructor; simpl; try lia; auto.
  - rewrite He, <- Hwb. wr; lia.
  - intros [|i] Hi; simpl.
    + specialize (Hp 0 ltac:(simpl; lia) ltac:(lia)). simpl in Hp. rewrite <- Hp. f_equal.
      rewrite Hb'. wr; lia.
    + rewrite <- Hh by lia. f_equal. rewrite <- Hwb. wr; lia.
  - intros i Hi1 Hi2. specialize (Hp (S i) ltac:(simpl; lia) ltac:(lia)). simpl in Hp.
    rewrite <- Hp. f_equal. rewrite <- Hwb. wr; lia.
Qed.

Lemma R_clear cap q s : R cap q s -> R cap (clear q) (Fifo [] (rev (held s) ++ popped s)).
Proof.
  intros HR. pose proof (R_elt_lt _ _ _ HR) as Helt.
  destruct HR as [Hc Hl Hb Hs He Hem Hh Hp].
  constructor; simpl; try lia; auto.
  - wr; lia.
  - intros i Hi1 Hi2. rewrite app_length, rev_length in Hi1.
    destruct (Nat.lt_ge_cases i (length (held s))) as [Hlt|Hge].
    + rewrite nth_error_app1 by (rewrite rev_length; lia).
      assert (Hrev : nth_error (rev (held s)) i = nth_error (held s) (length (held s) - S i)).
      { destruct (held s) as [|a l] eqn:E; [simpl in *; lia|].
        rewrite (nth_error_nth' (rev (a :: l)) a) by (rewrite rev_length; lia).
        rewrite rev_nth by lia. symmetry. apply nth_error_nth'. simpl in *; lia. }
      rewrite Hrev, <- Hh by lia. f_equal. rewrite He. wr; lia.
    + rewrite nth_error_app2 by (rewrite rev_length; lia). rewrite rev_length.
      rewrite <- Hp by lia. f_equal. rewrite He. wr; lia.
Qed.

Lemma R_step cap q s o s' : R cap q s -> spec_step cap s o = Some s' ->
  exists q', step q o = Some q' /\ R cap q' s'.
Proof.
  intros HR Hs. destruct o as [x| | |]; cbn [step].
  - eapply R_push; eauto.
  - eapply R_pop_front; eauto.
  - eapply R_putback; eauto.
  - injection Hs as <-. eexists; split; [reflexivity|]. now apply R_clear.
Qed.

Lemma R_run cap os : forall q s s', R cap q s -> spec_run cap s os = Some s' ->
  exists q', run q os = Some q' /\ R cap q' s'.
Proof.
  induction os as [|o os IH]; simpl; intros q s s' HR Hs.
  - injection Hs as <-. eauto.
  - destruct (spec_step cap s o) as [s1|] eqn:E; [|discriminate].
    destruct (R_step _ _ _ _ _ HR E) as (q1 & -> & HR1). eauto.
Qed.

(** Observations of a concrete queue agree with the abstract one. *)
Definition agrees (cap : nat) q s : Prop :=
  capacity q = cap /\ size q = length (held s) /\ length (held s) <= cap /\
  empty q = (length (held s) =? 0) /\ full q = (length (held s) =? cap) /\
  front q = hd_error (held s).

Lemma R_agrees cap q s : R cap q s -> agrees cap q s.
Proof.
  intros HR. repeat split.
  - apply HR.
  - eapply R_size; eauto.
  - apply HR.
  - apply HR.
  - eapply R_full; eauto.
  - eapply R_front; eauto.
Qed.

Lemma slice_nth (l : list A) i j k : j <= length l -> k < j - i ->
  nth_error (slice l i j) k = nth_error l (i + k).
Proof.
  intros Hj Hk. unfold slice.
  assert (G : forall n (m : list A) k, k < n -> nth_error (firstn n m) k = nth_error m k).
  { induction n as [|n IH]; intros [|a m] [|k'] Hn; simpl; auto; try lia. apply IH; lia. }
  rewrite G by lia.
  clear. revert l; induction i as [|i IH]; intros l; [reflexivity|].
  destruct l as [|a l]; simpl; [now destruct k|]. apply IH.
Qed.

Lemma slice_length (l : list A) i j : j <= length l -> length (slice l i j) = j - i.
Proof. intros H. unfold slice. rewrite firstn_length, skipn_length. lia. Qed.

Lemma R_ranges cap q s : R cap q s -> held s <> [] -> first_range q ++ second_range q = held s.
Proof.
  intros HR Hne. pose proof (R_elt_lt _ _ _ HR) as Helt.
  destruct HR as [Hc Hl Hb Hs He Hem Hh Hp].
  assert (0 < length (held s)) by (destruct (held s); [congruence|simpl; lia]).
  unfold first_range, second_range, capacity. rewrite Hl.
  destruct (Nat.ltb_spec (qbegin q) (qend q)) as [Hlt|Hge].
  - assert (Hsz : qend q = qbegin q + length (held s)) by (wr; lia).
    apply nth_error_ext. intros i.
    assert (Hs2 : slice (container q) (qend q) (qend q) = []).
    { unfold slice. now rewrite Nat.sub_diag. }
    rewrite Hs2, app_nil_r.
    destruct (Nat.lt_ge_cases i (length (held s))).
    + rewrite slice_nth by lia. rewrite <- Hh by lia. f_equal. wr; lia.
    + assert (G1 : nth_error (slice (container q) (qbegin q) (qend q)) i = None)
        by (apply nth_error_None; rewrite slice_length by lia; lia).
      assert (G2 : nth_error (held s) i = None) by (apply nth_error_None; lia).
      congruence.
  - assert (Hsz : length (held s) = cap - qbegin q + qend q) by (wr; lia).
    apply nth_error_ext. intros i.
    destruct (Nat.lt_ge_cases i (cap - qbegin q)).
    + rewrite nth_error_app1 by (rewrite slice_length; lia).
      rewrite slice_nth by lia. rewrite <- Hh by lia. f_equal. wr; lia.
    + rewrite nth_error_app2 by (rewrite slice_length; lia).
      rewrite slice_length by lia.
      destruct (Nat.lt_ge_cases i (length (held s))).
      * rewrite slice_nth by lia. rewrite <- Hh by lia. f_equal. wr; lia.
      * assert (G1 : nth_error (slice (container q) 0 (qend q)) (i - (cap - qbegin q)) = None)
          by (apply nth_error_None; rewrite slice_length by lia; lia).
        assert (G2 : nth_error (held s) i = None) by (apply nth_error_None; lia).
        congruence.
Qed.

Lemma copy_into_twice (d : A) n xs ys : length xs + length ys <= n ->
  exists c1, copy_into (repeat d n) 0 xs = Some (c1, length xs) /\
  exists c2, copy_into c1 (length xs) ys = Some (c2, length xs + length ys) /\
  c2 = (xs ++ ys) ++ repeat d (n - (length xs + length ys)).
Proof.
  intros H. unfold copy_into at 1. rewrite repeat_length.
  destruct (Nat.leb_spec (0 + length xs) n); [|lia]. simpl.
  eexists; split; [reflexivity|].
  assert (Hsk : forall k m, skipn k (repeat d m) = repeat d (m - k)).
  { induction k as [|k IH]; intros [|m]; simpl; auto. }
  rewrite Hsk. unfold copy_into. rewrite app_length, repeat_length.
  destruct (Nat.leb_spec (length xs + length ys) (length xs + (n - length xs))); [|lia].
  eexists; split; [reflexivity|].
  rewrite firstn_app, Nat.sub_diag, firstn_all, firstn_O, app_nil_r.
  rewrite skipn_app, Hsk.
  rewrite (skipn_all2 xs) by lia. simpl. rewrite app_assoc. f_equal. f_equal. lia.
Qed.

Lemma copy_ctor_nonempty d cap q s : R cap q s -> held s <> [] ->
  copy_ctor d q = Some (Queue (held s ++ repeat d (cap - length (held s))) 0 (length (held s)) false).
Proof.
  intros HR Hne. pose proof (R_ranges _ _ _ HR Hne) as Hr.
  pose proof (f_equal (@length A) Hr) as Hlen. rewrite app_length in Hlen.
  unfold copy_ctor, capacity. rewrite (R_em _ _ _ HR).
  destruct (Nat.eqb_spec (length (held s)) 0) as [E|_]; [destruct (held s); [congruence|discriminate]|].
  rewrite (R_len _ _ _ HR).
  destruct (copy_into_twice d cap (first_range q) (second_range q)) as (c1 & -> & c2 & -> & ->).
  { pose proof (R_sz _ _ _ HR). lia. }
  rewrite Hr, Hlen. reflexivity.
Qed.

Lemma R_copy d cap q s : R cap q s -> length (held s) < cap ->
  exists q', copy_ctor d q = Some q' /\ R cap q' (Fifo (held s) []).
Proof.
  intros HR Hlt.
  destruct (held s) as [|x r] eqn:E.
  - unfold copy_ctor. rewrite (R_em _ _ _ HR), E. simpl. eexists; split; [reflexivity|].
    unfold capacity. rewrite (R_len _ _ _ HR). apply R_make. apply HR.
  - rewrite (copy_ctor_nonempty d cap q s) by (auto; rewrite E; discriminate).
    eexists; split; [reflexivity|]. rewrite E. 
    constructor; cbn [container qbegin qend is_empty held popped]; try lia.
    + rewrite app_length, repeat_length. lia.
    + wr; lia.
    + reflexivity.
    + intros i Hi. rewrite nth_error_app1; [f_equal|]; wr; lia.
    + intros i Hi. simpl in Hi. lia.
Qed.

(** Even a copy of a full queue reports the right front and size. *)
Lemma copy_obs d cap q s : R cap q s -> 
  exists q', copy_ctor d q = Some q' /\ size q' = length (held s) /\
     front q' = hd_error (held s) /\ capacity q' = cap /\ empty q' = empty q.
Proof.
  intros HR. destruct (held s) as [|x r] eqn:E.
  - destruct (R_copy d _ _ _ HR) as (q' & Hq' & HR'); [rewrite E; simpl; apply HR|].
    exists q'. rewrite E in HR'. split; [exact Hq'|].
    split; [now apply (R_size _ _ _ HR')|]. split; [now apply (R_front _ _ _ HR')|].
    split; [apply HR'|]. unfold empty. rewrite (R_em _ _ _ HR), (R_em _ _ _ HR'), E. reflexivity.
  - rewrite (copy_ctor_nonempty d cap q s) by (auto; rewrite E; discriminate).
    eexists; split; [reflexivity|]. rewrite E. pose proof (R_sz _ _ _ HR) as Hsz. rewrite E in Hsz.
    unfold size, front, capacity, empty. cbn [container qbegin qend is_empty].
    rewrite (R_em _ _ _ HR), E. rewrite app_length, repeat_length. simpl in *.
    repeat split; lia.
Qed.

Lemma std_equal_same_length (eqb : A -> A -> bool) xs : forall ys, length xs = length ys ->
  (forall x y, eqb x y = true <-> x = y) ->
  exists r, std_equal eqb xs ys = Some r /\ (r = true <-> xs = ys).
Proof.
  induction xs as [|x xs IH]; intros [|y ys] Hl Heq; simpl in *; try discriminate.
  - exists true. tauto.
  - destruct (eqb x y) eqn:E.
    + apply Heq in E as ->. destruct (IH ys) as (r & -> & Hr); [lia|auto|].
      exists r; split; auto. rewrite Hr. split; congruence.
    + exists false. split; auto. split; [discriminate|]. intros [= -> ->].
      assert (eqb y y = true) by (now apply Heq). congruence.
Qed.

Lemma equal_spec (eqb : A -> A -> bool) c1 c2 q1 q2 s1 s2 :
  (forall x y, eqb x y = true <-> x = y) ->
  R c1 q1 s1 -> R c2 q2 s2 -> held s1 <> [] ->
  exists r, equal eqb q1 q2 = Some r /\ (r = true <-> held s1 = held s2).
Proof.
  intros Heq H1 H2 Hne. unfold equal.
  rewrite (R_size _ _ _ H1), (R_size _ _ _ H2).
  destruct (Nat.eqb_spec (length (held s1)) (length (held s2))) as [E|E]; simpl.
  - assert (held s2 <> []).
    { intros E2. rewrite E2 in E. destruct (held s1); [congruence|discriminate]. }
    rewrite (R_ranges _ _ _ H1), (R_ranges _ _ _ H2) by auto.
    now apply std_equal_same_length.
  - exists false. split; auto. split; [discriminate|]. intros G; rewrite G in E; congruence.
Qed.
End Proofs.
