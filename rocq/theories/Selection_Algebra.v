(** Proofs about selection_operation, equality and inclusion. *)
From Verif Require Import Prelude Selection_Model Selection_Spec.
Ltac Zify.zify_post_hook ::= idtac.

Definition cnt (s : list nat) (i : nat) : nat := length (filter (fun b => Nat.leb b i) s).
Definition st (b : bool) (s : list nat) (i : nat) : bool := xorb b (Nat.odd (cnt s i)).

Lemma selected_st x i : selected x i = st (start_selected x) (bounds x) i.
Proof. reflexivity. Qed.

Lemma inc_tail a s : increasing (a :: s) -> increasing s.
Proof. intros H. inversion H; subst; auto; constructor. Qed.
Lemma inc_lt s : forall a, increasing (a :: s) -> forall b, In b s -> a < b.
Proof.
  induction s as [|c s IH]; intros a H b Hb; [easy|].
  inversion H as [| |x y z Hlt Hi]; subst. destruct Hb as [->|Hb]; auto.
  specialize (IH c Hi b Hb). lia.
Qed.
Lemma inc_intro a s : (forall b, In b s -> a < b) -> increasing s -> increasing (a :: s).
Proof.
  destruct s as [|b s]; intros H Hs; [constructor|]. constructor; auto. apply H. now left.
Qed.
Lemma inc_app s1 s2 :
  increasing s1 -> increasing s2 -> (forall a b, In a s1 -> In b s2 -> a < b) -> increasing (s1 ++ s2).
Proof.
  induction s1 as [|a s1 IH]; intros H1 H2 H; [exact H2|]. cbn [app]. apply inc_intro.
  - intros b Hb. apply in_app_or in Hb. destruct Hb as [Hb|Hb].
    + eapply inc_lt; eauto.
    + apply H; [now left|exact Hb].
  - apply IH; auto. eapply inc_tail; eauto. intros; apply H; auto. now right.
Qed.
Lemma inc_app_inv s1 s2 : increasing (s1 ++ s2) ->
  increasing s1 /\ increasing s2 /\ (forall a b, In a s1 -> In b s2 -> a < b).
Proof.
  induction s1 as [|a s1 IH]; intros H; cbn [app] in H.
  - repeat split; auto; [constructor|easy].
  - destruct (IH (inc_tail _ _ H)) as [A [B C]]. split; [|split]; auto.
    + apply inc_intro; auto. intros b Hb. eapply inc_lt; eauto. apply in_or_app. now left.
    + intros x b [->|Hx] Hb; auto. eapply inc_lt; eauto. apply in_or_app. now right.
Qed.

Lemma cnt_zero s i : (forall b, In b s -> i < b) -> cnt s i = 0.
Proof.
  unfold cnt. induction s as [|a s IH]; intros H; auto. cbn [filter].
  destruct (Nat.leb_spec a i) as [L|L].
  - specialize (H a (or_introl eq_refl)). lia.
  - apply IH. intros b Hb. apply H. now right.
Qed.
Lemma cnt_cons_le a s i : a <= i -> cnt (a :: s) i = S (cnt s i).
Proof. intros H. unfold cnt. cbn [filter]. rewrite (proj2 (Nat.leb_le _ _) H). reflexivity. Qed.
Lemma cnt_cons_gt a s i : i < a -> increasing (a :: s) -> cnt (a :: s) i = 0.
Proof. intros H Hi. apply cnt_zero. intros b [<-|Hb]; auto. pose proof (inc_lt s a Hi b Hb). lia. Qed.
Lemma cnt_app s1 s2 i : cnt (s1 ++ s2) i = cnt s1 i + cnt s2 i.
Proof. unfold cnt. now rewrite filter_app, app_length. Qed.
Lemma st_nil b i : st b [] i = b.
Proof. unfold st. cbn. apply xorb_false_r. Qed.
Lemma st_lo b a s i : i < a -> increasing (a :: s) -> st b (a :: s) i = b.
Proof. intros. unfold st. rewrite cnt_cons_gt; auto. cbn. apply xorb_false_r. Qed.
Lemma st_zero b s i : (forall c, In c s -> i < c) -> st b s i = b.
Proof. intros. unfold st. rewrite cnt_zero; auto. cbn. apply xorb_false_r. Qed.
Lemma st_hi b a s i : a <= i -> st b (a :: s) i = st (negb b) s i.
Proof.
  intros. unfold st. rewrite cnt_cons_le; auto. rewrite Nat.odd_succ, <- Nat.negb_odd.
  destruct b, (Nat.odd (cnt s i)); reflexivity.
Qed.
Lemma negb_eqb_xorb a b : negb (Bool.eqb a b) = xorb a b.
Proof. destruct a, b; reflexivity. Qed.

Lemma rem_in pred : forall s prev t o b, In b (op_remainder_loop pred prev t o s) -> In b s.
Proof.
  induction s as [|a s IH]; intros prev t o b H; [easy|]. cbn [op_remainder_loop] in H. cbv zeta in H.
  destruct (negb _); [destruct H as [->|H]|]; [now left|right; eauto|right; eauto].
Qed.
Lemma rem_inc pred : forall s prev t o, increasing s -> increasing (op_remainder_loop pred prev t o s).
Proof.
  induction s as [|a s IH]; intros prev t o H; [constructor|]. cbn [op_remainder_loop]. cbv zeta.
  pose proof (inc_tail _ _ H) as H'.
  destruct (negb _); auto. apply inc_intro; auto. intros b Hb. apply rem_in in Hb.
  eapply inc_lt; eauto.
Qed.
Lemma st_if c a s prev i : (forall b, In b s -> a < b) -> a <= i ->
  st prev (if negb (Bool.eqb prev c) then a :: s else s) i = st c s i.
Proof.
  intros H Hi. destruct prev, c; cbn [Bool.eqb negb]; auto.
  - rewrite st_hi; auto.
  - rewrite st_hi; auto.
Qed.
Lemma st_if_lo c a s prev i : (forall b, In b s -> a < b) -> i < a ->
  st prev (if negb (Bool.eqb prev c) then a :: s else s) i = prev.
Proof.
  intros H Hi. apply st_zero. destruct (negb _).
  - intros b [<-|Hb]; auto. specialize (H b Hb). lia.
  - intros b Hb. specialize (H b Hb). lia.
Qed.
Lemma rem_st pred : forall s t o, increasing s -> forall i,
  st (pred t o) (op_remainder_loop pred (pred t o) t o s) i = pred (st t s i) o.
Proof.
  induction s as [|a s IH]; intros t o H i; [now rewrite !st_nil|].
  cbn [op_remainder_loop]. cbv zeta. pose proof (inc_tail _ _ H) as H'.
  assert (G : forall b, In b (op_remainder_loop pred (pred (negb t) o) (negb t) o s) -> a < b)
    by (intros b Hb; apply rem_in in Hb; eapply inc_lt; eauto).
  destruct (Nat.ltb_spec i a) as [L|L].
  - rewrite st_if_lo by assumption. rewrite st_lo; auto.
  - rewrite st_if by assumption. rewrite st_hi by lia. apply IH; auto.
Qed.

Section Sym.
Context (pred : bool -> bool -> bool) (sym : forall a b, pred a b = pred b a).

Definition good (out s1 s2 : list nat) (in1 in2 prev : bool) : Prop :=
  increasing out /\ (forall b, In b out -> In b s1 \/ In b s2) /\
  forall i, st prev out i = pred (st in1 s1 i) (st in2 s2 i).

Lemma good_rem1 s2 in1 in2 : increasing s2 ->
  good (op_remainder pred s2 in2 in1) [] s2 in1 in2 (pred in1 in2).
Proof.
  intros H. split; [|split].
  - now apply rem_inc.
  - intros b Hb. right. eapply rem_in; eauto.
  - intros i. unfold op_remainder. rewrite (sym in1 in2), rem_st, st_nil; auto.
Qed.
Lemma good_rem2 s1 in1 in2 : increasing s1 ->
  good (op_remainder pred s1 in1 in2) s1 [] in1 in2 (pred in1 in2).
Proof.
  intros H. split; [|split].
  - now apply rem_inc.
  - intros b Hb. left. eapply rem_in; eauto.
  - intros i. unfold op_remainder. rewrite rem_st, st_nil; auto.
Qed.

(** after consuming [next] *)
Lemma good_step next out s1 s2 t1 t2 in1 in2 in1' in2' :
  (forall b, In b s1 -> next <= b) -> (forall b, In b s2 -> next <= b) ->
  (forall b, In b t1 -> next < b) -> (forall b, In b t2 -> next < b) ->
  (forall b, In b t1 -> In b s1) -> (forall b, In b t2 -> In b s2) ->
  In next s1 \/ In next s2 ->
  (forall i, next <= i -> st in1 s1 i = st in1' t1 i) ->
  (forall i, next <= i -> st in2 s2 i = st in2' t2 i) ->
  good out t1 t2 in1' in2' (pred in1' in2') ->
  good (if negb (Bool.eqb (pred in1 in2) (pred in1' in2')) then next :: out else out)
       s1 s2 in1 in2 (pred in1 in2).
Proof.
  intros A1 A2 B1 B2 C1 C2 D E1 E2 [F [G K]].
  assert (L : forall b, In b out -> next < b).
  { intros b Hb. destruct (G b Hb); auto. }
  split; [|split].
  - destruct (negb _); auto. apply inc_intro; auto.
  - intros b Hb. destruct (negb _).
    + destruct Hb as [<-|Hb]; auto. destruct (G b Hb); auto.
    + destruct (G b Hb); auto.
  - intros i. destruct (Nat.ltb_spec i next) as [Hi|Hi].
    + rewrite st_if_lo by assumption.
      rewrite (st_zero in1 s1 i), (st_zero in2 s2 i); auto.
      * intros c Hc. specialize (A2 c Hc). lia.
      * intros c Hc. specialize (A1 c Hc). lia.
    + rewrite st_if by assumption. rewrite E1, E2 by assumption. apply K.
Qed.

Lemma op_loop_ok : forall fuel s1 s2 in1 in2,
  length s1 + length s2 <= fuel -> s1 <> [] -> s2 <> [] -> increasing s1 -> increasing s2 ->
  exists out, op_loop fuel pred (pred in1 in2) in1 in2 s1 s2 = Some out /\
    good out s1 s2 in1 in2 (pred in1 in2).
Proof.
  induction fuel as [|fuel IH]; intros s1 s2 in1 in2 HF N1 N2 I1 I2.
  { destruct s1; [congruence|]. cbn in HF. lia. }
  destruct s1 as [|a t1]; [congruence|]. destruct s2 as [|b t2]; [congruence|].
  cbn [op_loop length] in *. cbv zeta.
  set (next := if a <? b then a else b).
  assert (Hn : next = Nat.min a b) by (unfold next; destruct (Nat.ltb_spec a b); lia).
  clearbody next.
  pose proof (inc_tail _ _ I1) as J1. pose proof (inc_tail _ _ I2) as J2.
  pose proof (inc_lt _ _ I1) as K1. pose proof (inc_lt _ _ I2) as K2.
  (* a generic continuation *)
  assert (G : forall u1 u2 in1' in2',
    length u1 + length u2 <= fuel -> increasing u1 -> increasing u2 ->
    exists out,
      (match u1, u2 with
       | [], _ => Some (op_remainder pred u2 in2' in1')
       | _, [] => Some (op_remainder pred u1 in1' in2')
       | _, _ => op_loop fuel pred (pred in1' in2') in1' in2' u1 u2
       end) = Some out /\ good out u1 u2 in1' in2' (pred in1' in2')).
  { intros u1 u2 in1' in2' L V1 V2. destruct u1 as [|c u1].
    - eexists; split; [reflexivity|]. now apply good_rem1.
    - destruct u2 as [|d u2].
      + eexists; split; [reflexivity|]. now apply good_rem2.
      + apply IH; auto; discriminate. }
  destruct (Nat.eqb_spec a next) as [Ea|Ea]; destruct (Nat.eqb_spec b next) as [Eb|Eb].
  - destruct (G t1 t2 (negb in1) (negb in2)) as [out [E Q]]; auto; [lia|].
    rewrite E. eexists; split; [reflexivity|]. apply (good_step next out _ _ t1 t2 in1 in2 (negb in1) (negb in2)); auto.
    + intros x [<-|Hx]; [lia|]. specialize (K1 x Hx). lia.
    + intros x [<-|Hx]; [lia|]. specialize (K2 x Hx). lia.
    + intros x Hx. specialize (K1 x Hx). lia.
    + intros x Hx. specialize (K2 x Hx). lia.
    + intros x Hx. now right.
    + intros x Hx. now right.
    + left. now left.
    + intros i Hi. apply st_hi. lia.
    + intros i Hi. apply st_hi. lia.
  - destruct (G t1 (b :: t2) (negb in1) in2) as [out [E Q]]; auto; [cbn; lia|].
    rewrite E. eexists; split; [reflexivity|]. apply (good_step next out _ _ t1 (b :: t2) in1 in2 (negb in1) in2); auto.
    + intros x [<-|Hx]; [lia|]. specialize (K1 x Hx). lia.
    + intros x [<-|Hx]; [lia|]. specialize (K2 x Hx). lia.
    + intros x Hx. specialize (K1 x Hx). lia.
    + intros x [<-|Hx]; [lia|]. specialize (K2 x Hx). lia.
    + intros x Hx. now right.
    + left. now left.
    + intros i Hi. apply st_hi. lia.
  - destruct (G (a :: t1) t2 in1 (negb in2)) as [out [E Q]]; auto; [cbn; lia|].
    rewrite E. eexists; split; [reflexivity|]. apply (good_step next out _ _ (a :: t1) t2 in1 in2 in1 (negb in2)); auto.
    + intros x [<-|Hx]; [lia|]. specialize (K1 x Hx). lia.
    + intros x [<-|Hx]; [lia|]. specialize (K2 x Hx). lia.
    + intros x [<-|Hx]; [lia|]. specialize (K1 x Hx). lia.
    + intros x Hx. specialize (K2 x Hx). lia.
    + intros x Hx. now right.
    + right. now left.
    + intros i Hi. apply st_hi. lia.
  - lia.
Qed.

Lemma op_ok s1 s2 in1 in2 : increasing s1 -> increasing s2 ->
  exists out, selection_operation pred s1 s2 in1 in2 = Some out /\
    good out s1 s2 in1 in2 (pred in1 in2).
Proof.
  intros I1 I2. unfold selection_operation. destruct s1 as [|a s1].
  - eexists; split; [reflexivity|]. now apply good_rem1.
  - destruct s2 as [|b s2].
    + eexists; split; [reflexivity|]. now apply good_rem2.
    + apply op_loop_ok; auto; discriminate.
Qed.
End Sym.

(** Two increasing boundary lists with the same start denote the same set only if equal. *)
Lemma st_inj : forall s1 s2 b, increasing s1 -> increasing s2 ->
  (forall i, st b s1 i = st b s2 i) -> s1 = s2.
Proof.
  induction s1 as [|a s1 IH]; intros [|c s2] b I1 I2 H; auto.
  - specialize (H c). rewrite st_nil, st_hi in H by lia.
    rewrite st_zero in H. destruct b; discriminate. intros x Hx. eapply inc_lt; eauto.
  - specialize (H a). rewrite st_nil, st_hi in H by lia.
    rewrite st_zero in H. destruct b; discriminate. intros x Hx. eapply inc_lt; eauto.
  - assert (E : a = c).
    { destruct (lt_eq_lt_dec a c) as [[L| ->]|L]; auto; exfalso.
      - specialize (H a). rewrite st_hi in H by lia. rewrite (st_lo b c) in H; auto.
        rewrite st_zero in H. destruct b; discriminate. intros x Hx. eapply inc_lt; eauto.
      - specialize (H c). rewrite (st_lo b a) in H; auto. rewrite st_hi in H by lia.
        rewrite st_zero in H. destruct b; discriminate. intros x Hx. eapply inc_lt; eauto. }
    subst c. f_equal. apply (IH s2 (negb b)); eauto using inc_tail.
    intros i. destruct (Nat.ltb_spec i a) as [L|L].
    + rewrite !st_zero; auto; intros x Hx.
      * pose proof (inc_lt _ _ I2 x Hx). lia.
      * pose proof (inc_lt _ _ I1 x Hx). lia.
    + specialize (H i). rewrite !st_hi in H by lia. exact H.
Qed.

Lemma std_equal3_same : forall l, std_equal3 l l = Some true.
Proof. induction l as [|a l IH]; auto. cbn. now rewrite Nat.eqb_refl. Qed.
Lemma std_equal3_prefix : forall l1 l2, std_equal3 l1 l2 = Some true <-> exists r, l2 = l1 ++ r.
Proof.
  induction l1 as [|a l1 IH]; intros l2; cbn [std_equal3].
  - split; auto. intros _. now exists l2.
  - destruct l2 as [|b l2].
    + split; [discriminate|]. intros [r H]. discriminate.
    + destruct (Nat.eqb_spec a b) as [->|Hn].
      * rewrite IH. cbn [app]. split; intros [r Hr]; exists r; congruence.
      * split; [discriminate|]. intros [r H]. cbn [app] in H. congruence.
Qed.
Lemma std_equal3_len : forall l1 l2, length l1 = length l2 ->
  exists b, std_equal3 l1 l2 = Some b /\ (b = true <-> l1 = l2).
Proof.
  induction l1 as [|a l1 IH]; intros [|c l2] H; try discriminate.
  - exists true. split; auto. now split.
  - cbn in H. cbn [std_equal3]. destruct (Nat.eqb_spec a c) as [->|Hn].
    + destruct (IH l2 ltac:(lia)) as [b [E Q]]. exists b. split; auto. rewrite Q.
      split; congruence.
    + exists false. split; auto. split; congruence.
Qed.

(** the largest boundary *)
Lemma above s : exists n, forall b, In b s -> b <= n.
Proof.
  induction s as [|a s [n IH]]; [exists 0; easy|]. exists (Nat.max a n).
  intros b [<-|Hb]; [lia|]. specialize (IH b Hb). lia.
Qed.
Lemma st_above b s n i : (forall c, In c s -> c <= n) -> n <= i -> st b s i = xorb b (Nat.odd (length s)).
Proof.
  intros H Hi. unfold st, cnt. do 3 f_equal. induction s as [|a s IH]; auto. cbn [filter].
  rewrite (proj2 (Nat.leb_le a i)) by (specialize (H a (or_introl eq_refl)); lia).
  f_equal. apply IH. intros c Hc. apply H. now right.
Qed.

Lemma upper_bound_cnt : forall s i, increasing s -> std_upper_bound s i = cnt s i.
Proof.
  induction s as [|a s IH]; intros i H; auto. cbn [std_upper_bound].
  destruct (Nat.ltb_spec i a) as [L|L].
  - now rewrite cnt_cons_gt.
  - rewrite cnt_cons_le by lia. f_equal. apply IH. eapply inc_tail; eauto.
Qed.
Lemma is_selected_ok x i : valid x -> is_selected x i = selected x i.
Proof.
  intros H. unfold is_selected, selected. rewrite upper_bound_cnt by exact H.
  fold (cnt (bounds x) i). generalize (cnt (bounds x) i) as c. intros c.
  rewrite negb_eqb_xorb, xorb_comm. f_equal.
  pose proof (Nat.bit0_mod c) as E. rewrite Nat.bit0_odd in E. rewrite <- E.
  now destruct (Nat.odd c).
Qed.
