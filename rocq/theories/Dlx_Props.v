(** C82: dancing_links_t. *)
From Verif Require Import Prelude Dlx_Model Dlx_Spec Dlx_Mem Dlx_Cover Dlx_Build.
From Coq Require Import List Arith ZArith Lia Bool Permutation.
Import ListNotations.
Ltac Zify.zify_post_hook ::= idtac.

(** The search ends, and the callback hears each solution once, up to the number asked for. *)
Theorem C82_search_reports_every_exact_cover_once rows cols ops max heuristic :
  valid rows cols ops -> 1 <= max -> picks_a_column heuristic ->
  exists sols, all_solutions cols ops sols /\ search rows cols ops max heuristic = Some (Nat.min max (length sols), flat_map tag (firstn max sols)).
Proof. intros V M H. now apply search_ok. Qed.

(** Both heuristics of the library qualify. *)
Lemma most_constrained_linked m : forall f c sz p, linked m c -> (exists q, p = right_of m q /\ linked m q) -> linked m (most_constrained f m c sz p).
Proof.
  induction f as [|f IH]; intros c sz p L (q & E & Lq); cbn [most_constrained]; [exact L|]. destruct (Nat.eqb_spec p 0) as [|N]; [exact L|].
  assert (Lp : linked m p) by (subst p; constructor; auto). destruct (size m p <? sz)%Z; [destruct (size m p =? 1)%Z|destruct (sz =? 1)%Z]; auto; apply IH; auto; exists p; auto.
Qed.
Theorem C82_both_heuristics_pick_a_column : picks_a_column select_right /\ picks_a_column select_most_constrained.
Proof.
  split; intros m H.
  - now constructor.
  - apply most_constrained_linked; [now constructor|]. exists (right_of m 0). split; [reflexivity|now constructor].
Qed.

(** The default picks a column with the fewest rows left, or with one. *)
Lemma most_constrained_least m U : forall post pre f c, ring (MR m) U 0 (pre ++ post) -> length post < f -> In c pre -> (forall d, In d pre -> (size m c <= size m d)%Z) ->
  let r := most_constrained f m c (size m c) (hd 0 post) in (forall d, In d (pre ++ post) -> (size m r <= size m d)%Z) \/ size m r = 1%Z.
Proof.
  induction post as [|p post IH]; intros pre f c R L Ic M; (destruct f as [|f]; [cbn in L; lia|]); cbn [hd most_constrained].
  - left. intros d D. rewrite app_nil_r in D. auto.
  - assert (Np : p <> 0) by (intros ->; assert (X := r_nodup _ _ _ _ R); apply NoDup_cons_iff in X as [X _]; apply X; apply in_app_iff; right; now left).
    destruct (Nat.eqb_spec p 0); [contradiction|]. destruct (ring_at _ _ _ _ _ _ R) as (E & _).
    assert (R' : ring (MR m) U 0 ((pre ++ [p]) ++ post)) by (now rewrite <- app_assoc). unfold right_of. rewrite E. cbn [length] in L.
    destruct (Z.ltb_spec (size m p) (size m c)) as [A|A].
    + destruct (Z.eqb_spec (size m p) 1) as [B|B]; [now right|]. destruct (IH (pre ++ [p]) f p R' ltac:(lia)) as [X|X]; [apply in_app_iff; right; now left| |left|now right].
      * intros d D. apply in_app_iff in D as [D|[<- |[]]]; [specialize (M d D)|]; lia.
      * rewrite <- app_assoc in X. exact X.
    + destruct (Z.eqb_spec (size m c) 1) as [B|B]; [now right|]. destruct (IH (pre ++ [p]) f c R' ltac:(lia)) as [X|X]; [apply in_app_iff; now left| |left|now right].
      * intros d D. apply in_app_iff in D as [D|[<- |[]]]; [auto|lia].
      * rewrite <- app_assoc in X. exact X.
Qed.
(** [P]: the headers linked, in order *)
Theorem C82_the_default_heuristic_picks_a_tightest_column m P : ring (MR m) (ML m) 0 P -> P <> [] -> length (MR m) = length (MC m) ->
  let c := select_most_constrained m in In c P /\ ((forall d, In d P -> (size m c <= size m d)%Z) \/ size m c = 1%Z).
Proof.
  intros R NE LE c. destruct P as [|p P]; [congruence|]. destruct (ring_start _ _ _ _ R) as [E _]. cbn in E.
  assert (Np : p <> 0) by (intros ->; assert (X := r_nodup _ _ _ _ R); apply NoDup_cons_iff in X as [X _]; apply X; now left).
  split.
  - apply (linked_in (MR m) (ML m) (p :: P) m eq_refl R). apply (proj2 C82_both_heuristics_pick_a_column). unfold right_of. rewrite E. exact Np.
  - destruct (ring_at _ _ _ [] p P R) as (E2 & _). assert (SC : c = most_constrained (many m) m p (size m p) (hd 0 P)) by (unfold c, select_most_constrained, right_of; now rewrite E, E2). rewrite SC.
    apply (most_constrained_least m (ML m) P [p]); auto; [|now left|intros d [<- |[]]; lia].
    assert (X := r_nodup _ _ _ _ R). unfold many. assert (Y : length (0 :: p :: P) <= length (seq 0 (length (MR m)))) by (apply NoDup_incl_length; [exact X|]; intros a A; apply in_seq; assert (Z := r_low _ _ _ _ R a A); lia). rewrite seq_length in Y. cbn in Y. lia.
Qed.

(** How many there are does not depend on the heuristic, so neither does the number returned. *)
Lemma inj_length {T} (E : T -> T -> Prop) : (forall a b, E a b -> E b a) -> (forall a b c, E a b -> E b c -> E a c) ->
  forall l1 l2, ForallOrdPairs (fun a b => ~ E a b) l1 -> (forall x, In x l1 -> exists y, In y l2 /\ E x y) -> length l1 <= length l2.
Proof.
  intros SY TR. induction l1 as [|x l1 IH]; intros l2 F H; [cbn; lia|]. inversion F as [|? ? F1 F2]; subst. destruct (H x (or_introl eq_refl)) as (y & Iy & Ey). apply in_split in Iy as (a & b & ->).
  rewrite app_length. cbn. specialize (IH (a ++ b) F2). rewrite app_length in IH. enough (length l1 <= length a + length b) by lia. apply IH. intros z Hz. destruct (H z (or_intror Hz)) as (w & Iw & Ew).
  exists w. split; [|exact Ew]. apply in_app_iff in Iw as [Iw|[<- |Iw]]; [apply in_app_iff; now left| |apply in_app_iff; now right]. exfalso. rewrite Forall_forall in F1. apply (F1 z Hz). eauto.
Qed.
Theorem C82_the_number_found_does_not_depend_on_the_heuristic rows cols ops max h1 h2 n1 t1 n2 t2 :
  valid rows cols ops -> 1 <= max -> picks_a_column h1 -> picks_a_column h2 ->
  search rows cols ops max h1 = Some (n1, t1) -> search rows cols ops max h2 = Some (n2, t2) -> n1 = n2.
Proof.
  intros V M P1 P2 E1 E2. destruct (search_ok rows cols ops V max h1 M P1) as (s1 & A1 & X1). destruct (search_ok rows cols ops V max h2 M P2) as (s2 & A2 & X2).
  rewrite X1 in E1. rewrite X2 in E2. inversion E1. inversion E2. f_equal.
  assert (L : forall a b, all_solutions cols ops a -> all_solutions cols ops b -> length a <= length b).
  { intros a b A B. apply (inj_length (@Permutation nat)); [intros; now symmetry|intros; etransitivity; eauto|apply A|]. intros x Hx. apply B, A. exact Hx. }
  apply Nat.le_antisymm; auto.
Qed.

(** What the caller relies on most: told of one, it is a solution; told of none, there is none. *)
Theorem C82_zero_means_unsolvable rows cols ops max heuristic n calls :
  valid rows cols ops -> 1 <= max -> picks_a_column heuristic -> search rows cols ops max heuristic = Some (n, calls) ->
  (n = 0 <-> forall S, ~ solution cols ops S) /\ (max = 1 -> n = 1 -> exists S, solution cols ops S /\ calls = tag S).
Proof.
  intros V M P E. destruct (search_ok rows cols ops V max heuristic M P) as (s & A & X). rewrite X in E. inversion E. split; [split|].
  - intros Z S HS. destruct (a_complete _ _ _ A S HS) as (S' & I & _). destruct s; [contradiction|]. cbn in Z. lia.
  - intros H. destruct s as [|S s]; [cbn; lia|]. exfalso. apply (H S). apply A. now left.
  - intros -> L. destruct s as [|S s]; [cbn in L; lia|]. exists S. split; [apply A; now left|]. cbn [firstn flat_map]. apply app_nil_r.
Qed.

(** ** the limits: what the header's comment promises and the code does not do *)
(** asked for no solution, it still reports one *)
Theorem C82_asked_for_none_it_reports_one : search 1 1 [OSet 0 0 0%Z] 0 select_right = Some (1, [(0, true)]).
Proof. vm_compute. reflexivity. Qed.
(** a colour given to a cell of a primary column is not ignored (toroid.hpp:140-141): the column is then never covered *)
Theorem C82_a_colour_in_a_primary_column_is_not_ignored :
  search 1 2 [OSet 0 0 0%Z; OSet 0 1 0%Z] 1 select_right = Some (1, [(0, true)]) /\ search 1 2 [OSet 0 0 0%Z; OSet 0 1 1%Z] 1 select_right = Some (0, []).
Proof. vm_compute. auto. Qed.

(** ** a case: Knuth's example with a secondary, coloured column *)
Definition knuth : list op :=
  [OSet 0 2 0%Z; OSet 0 4 0%Z; OSet 0 5 0%Z; OSet 1 0 0%Z; OSet 1 3 0%Z; OSet 1 6 0%Z; OSet 2 1 0%Z; OSet 2 2 0%Z; OSet 2 5 0%Z;
   OSet 3 0 0%Z; OSet 3 3 0%Z; OSet 4 1 0%Z; OSet 4 6 0%Z; OSet 5 3 0%Z; OSet 5 4 0%Z; OSet 5 6 0%Z].
Lemma knuth_valid : valid 6 7 knuth.
Proof.
  split; try lia; unfold cell, secondary, knuth.
  - intros r c k H. cbn [In] in H. repeat (destruct H as [H|H]; [inversion H; subst; lia|]). destruct H.
  - intros c H. cbn [In] in H. repeat (destruct H as [H|H]; [discriminate|]). destruct H.
  - cbn. repeat (constructor; [intros H; cbn [In] in H; repeat (destruct H as [H|H]; [discriminate|]); exact H|]). constructor.
  - intros r c k H _. cbn [In] in H. repeat (destruct H as [H|H]; [inversion H; subst; reflexivity|]). destruct H.
Qed.
Example knuth_search : search 6 7 knuth 10 select_most_constrained = Some (1, [(3, false); (0, false); (4, true)]).
Proof. vm_compute. reflexivity. Qed.
Definition coloured : list op := [OSecondary 2; OSet 0 0 0%Z; OSet 0 2 1%Z; OSet 1 1 0%Z; OSet 1 2 1%Z; OSet 2 1 0%Z; OSet 2 2 2%Z; OSet 3 1 0%Z].
Lemma coloured_valid : valid 4 3 coloured.
Proof.
  split; try lia; unfold cell, secondary, coloured.
  - intros r c k H. cbn [In] in H. repeat (destruct H as [H|H]; [inversion H; subst; lia|]). destruct H.
  - intros c H. cbn [In] in H. repeat (destruct H as [H|H]; [inversion H; subst; lia|]). destruct H.
  - cbn. repeat (constructor; [intros H; cbn [In] in H; repeat (destruct H as [H|H]; [discriminate|]); exact H|]). constructor.
  - intros r c k H N. cbn [In] in H. repeat (destruct H as [H|H]; [inversion H; subst; first [reflexivity|exfalso; apply N; now left]|]). destruct H.
Qed.
Example coloured_search : search 4 3 coloured 10 select_right = Some (2, [(0, false); (1, true); (0, false); (3, true)]).
Proof. vm_compute. reflexivity. Qed.
