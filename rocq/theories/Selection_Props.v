(** C19-C24, C49 and C50: what the selection container and algorithms do. *)
From Verif Require Import Prelude Rearrange_Model Selection_Model Selection_Spec Selection_Algebra Selection_Ranges.
Ltac Zify.zify_post_hook ::= idtac.

(** ** C19: pointwise boolean algebra *)
Lemma lift pred s1 s2 in1 in2 :
  (forall a b, pred a b = pred b a) -> increasing s1 -> increasing s2 ->
  exists z, omap_sel (pred in1 in2) (selection_operation pred s1 s2 in1 in2) = Some z /\ valid z /\
    forall i, selected z i = pred (selected (Sel in1 s1) i) (selected (Sel in2 s2) i).
Proof.
  intros H I1 I2. destruct (op_ok pred H s1 s2 in1 in2 I1 I2) as [out [E [G1 [_ G3]]]].
  rewrite E. eexists; split; [reflexivity|]. split; [exact G1|]. exact G3.
Qed.

Theorem C19_union same x y : valid x -> valid y -> (same = true -> x = y) ->
  exists z, sel_union same x y = Some z /\ valid z /\
    forall i, selected z i = selected x i || selected y i.
Proof.
  intros V1 V2 HS. unfold sel_union. destruct same.
  - rewrite <- (HS eq_refl). exists x. repeat split; auto. intros i. now rewrite orb_diag.
  - destruct x as [b1 s1], y as [b2 s2]. apply lift; auto. apply orb_comm.
Qed.
Theorem C19_intersection same x y : valid x -> valid y -> (same = true -> x = y) ->
  exists z, sel_intersection same x y = Some z /\ valid z /\
    forall i, selected z i = selected x i && selected y i.
Proof.
  intros V1 V2 HS. unfold sel_intersection. destruct same.
  - rewrite <- (HS eq_refl). exists x. repeat split; auto. intros i. now rewrite andb_diag.
  - destruct x as [b1 s1], y as [b2 s2]. apply lift; auto. apply andb_comm.
Qed.
Theorem C19_symmetric_difference same x y : valid x -> valid y -> (same = true -> x = y) ->
  exists z, sel_symmetric_difference same x y = Some z /\ valid z /\
    forall i, selected z i = xorb (selected x i) (selected y i).
Proof.
  intros V1 V2 HS. unfold sel_symmetric_difference. destruct same.
  - rewrite <- (HS eq_refl). eexists; split; [reflexivity|]. split; [constructor|].
    intros i. rewrite xorb_nilpotent. reflexivity.
  - destruct x as [b1 s1], y as [b2 s2].
    destruct (lift logical_xor s1 s2 b1 b2) as [z [E [V P]]]; auto.
    { intros [] []; reflexivity. }
    exists z. split; [exact E|]. split; auto. intros i. rewrite P. apply negb_eqb_xorb.
Qed.
Theorem C19_invert x : valid x ->
  valid (invert x) /\ forall i, selected (invert x) i = negb (selected x i).
Proof.
  intros V. split; [exact V|]. intros i. unfold selected. cbn [invert start_selected bounds].
  now rewrite negb_xorb_l.
Qed.

(** The set difference is right unless the first operand starts unselected and the second selected ... *)
Theorem C19_difference_partial same x y : valid x -> valid y -> (same = true -> x = y) ->
  start_selected x = true \/ start_selected y = false ->
  exists z, sel_difference same x y = Some z /\ valid z /\
    forall i, selected z i = selected x i && negb (selected y i).
Proof.
  intros V1 V2 HS HC. unfold sel_difference. destruct same.
  - rewrite <- (HS eq_refl). eexists; split; [reflexivity|]. split; [constructor|].
    intros i. now rewrite andb_negb_r.
  - destruct x as [b1 s1], y as [b2 s2]. unfold it_difference.
    destruct (lift andb s1 s2 b1 (negb b2)) as [z [E [V P]]]; auto; [apply andb_comm|].
    cbn [start_selected bounds] in *. exists z. split; [|split]; auto.
    + rewrite <- E. unfold it_intersection. f_equal. destruct b1, b2; destruct HC; auto; discriminate.
    + intros i. rewrite P. f_equal. apply (C19_invert (Sel b2 s2)); auto.
Qed.
(** ... and then it is the complement of what it should be (selection_algorithms.hpp:299 uses
    [start_selected(x) != start_selected(y)]). *)
Theorem C19_difference_refuted x y : valid x -> valid y ->
  start_selected x = false -> start_selected y = true ->
  exists z, sel_difference false x y = Some z /\
    forall i, selected z i = negb (selected x i && negb (selected y i)).
Proof.
  intros V1 V2 S1 S2. destruct x as [b1 s1], y as [b2 s2]. cbn [start_selected] in *. subst b1 b2.
  unfold sel_difference, it_difference. cbn [start_selected bounds Bool.eqb negb].
  destruct (lift andb s1 s2 false false) as [z [E [V P]]]; auto; [apply andb_comm|].
  cbn [andb] in E. unfold it_intersection.
  destruct (selection_operation andb s1 s2 false false) as [out|]; [|discriminate].
  cbn [omap_sel] in *. injection E as <-. eexists; split; [reflexivity|]. intros i.
  specialize (P i). change (selected (Sel true out) i) with (selected (invert (Sel false out)) i).
  rewrite (proj2 (C19_invert (Sel false out) V)). f_equal. rewrite P. f_equal.
  apply (C19_invert (Sel true s2)); auto.
Qed.

(** The iterator versions, for any pair of boundary sequences and initial states. *)
Theorem C19_iterators s1 s2 in1 in2 : increasing s1 -> increasing s2 ->
  exists u v w d,
    it_union s1 s2 in1 in2 = Some u /\ it_intersection s1 s2 in1 in2 = Some v /\
    it_symmetric_difference s1 s2 in1 in2 = Some w /\ it_difference s1 s2 in1 in2 = Some d /\
    (increasing u /\ increasing v /\ increasing w /\ increasing d) /\
    forall i,
      selected (Sel (in1 || in2) u) i = selected (Sel in1 s1) i || selected (Sel in2 s2) i /\
      selected (Sel (in1 && in2) v) i = selected (Sel in1 s1) i && selected (Sel in2 s2) i /\
      selected (Sel (xorb in1 in2) w) i = xorb (selected (Sel in1 s1) i) (selected (Sel in2 s2) i) /\
      selected (Sel (in1 && negb in2) d) i = selected (Sel in1 s1) i && negb (selected (Sel in2 s2) i).
Proof.
  intros I1 I2.
  destruct (op_ok orb orb_comm s1 s2 in1 in2 I1 I2) as [u [Eu [Iu [_ Pu]]]].
  destruct (op_ok andb andb_comm s1 s2 in1 in2 I1 I2) as [v [Ev [Iv [_ Pv]]]].
  assert (XC : forall a b, logical_xor a b = logical_xor b a) by (intros [] []; reflexivity).
  destruct (op_ok logical_xor XC s1 s2 in1 in2 I1 I2) as [w [Ew [Iw [_ Pw]]]].
  destruct (op_ok andb andb_comm s1 s2 in1 (negb in2) I1 I2) as [d [Ed [Id [_ Pd]]]].
  exists u, v, w, d. repeat (split; [assumption || tauto|]). intros i.
  split; [exact (Pu i)|]. split; [exact (Pv i)|]. split.
  - specialize (Pw i). unfold logical_xor in Pw. rewrite !negb_eqb_xorb in Pw. exact Pw.
  - specialize (Pd i). unfold selected, start_selected, bounds. unfold st, cnt in Pd.
    rewrite negb_xorb_l. exact Pd.
Qed.

Example C19_ex : sel_union false (Sel false [2; 5; 9]) (Sel false [0; 1; 4; 7]) = Some (Sel false [0; 1; 2; 7; 9])
  /\ valid (Sel false [2; 5; 9]) /\ valid (Sel false [0; 1; 4; 7])
  /\ sel_difference false (Sel false [2; 5]) (Sel true [3]) = Some (Sel true [3; 5]).
Proof. repeat split; try reflexivity; repeat constructor. Qed.

(** is_selected reports membership. *)
Theorem C19_is_selected x i : valid x -> is_selected x i = selected x i.
Proof. apply is_selected_ok. Qed.

(** ** C20: equality *)
Theorem C20_equality_partial x y : valid x -> valid y -> start_selected x = start_selected y ->
  exists b, sel_eqb x y = Some b /\ (b = true <-> forall i, selected x i = selected y i).
Proof.
  intros V1 V2 HS. unfold sel_eqb, bsize.
  assert (Q : (forall i, selected x i = selected y i) <-> bounds x = bounds y).
  { split; intros H.
    - apply (st_inj _ _ (start_selected x)); auto. intros i. specialize (H i).
      rewrite !selected_st in H. now rewrite HS in *.
    - intros i. rewrite !selected_st. now rewrite HS, H. }
  destruct (Nat.eqb_spec (length (bounds x)) (length (bounds y))) as [E|E].
  - destruct (std_equal3_len _ _ E) as [b [E1 E2]]. exists b. split; auto. now rewrite Q.
  - exists false. split; auto. rewrite Q. split; [discriminate|]. intros H. now rewrite H in E.
Qed.
(** [==] ignores the initial state (selection.hpp:131-133): a selection equals its complement,
    and one and the same set can have two unequal representations. *)
Theorem C20_equality_refuted :
  (forall x, sel_eqb x (invert x) = Some true /\ forall i, selected (invert x) i = negb (selected x i)) /\
  (forall s, increasing (0 :: s) ->
     (forall i, selected (Sel true (0 :: s)) i = selected (Sel false s) i) /\
     sel_eqb (Sel true (0 :: s)) (Sel false s) = Some false).
Proof.
  split.
  - intros x. split.
    + unfold sel_eqb. cbn [invert]. unfold bsize. cbn [bounds]. rewrite Nat.eqb_refl. apply std_equal3_same.
    + intros i. unfold selected. cbn [invert start_selected bounds]. now rewrite negb_xorb_l.
  - intros s H. split.
    + intros i. rewrite !selected_st. cbn [start_selected bounds]. now rewrite st_hi by lia.
    + unfold sel_eqb, bsize. cbn [bounds length]. now destruct (Nat.eqb_spec (S (length s)) (length s)); [lia|].
Qed.
Example C20_ex : exists x y, valid x /\ valid y /\ start_selected x = start_selected y /\
  x <> y /\ sel_eqb x y = Some false /\ sel_eqb x x = Some true.
Proof.
  exists (Sel true [1; 4]), (Sel true [1; 5]). repeat split; try reflexivity; repeat constructor. discriminate.
Qed.

(** ** C21: inclusion *)
Lemma includes_same_ok s1 s2 b : increasing s1 -> increasing s2 ->
  (included (Sel b s2) (Sel b s1) -> includes_same s1 s2 b = Some true) /\
  (bounded (Sel b s2) -> includes_same s1 s2 b = Some true -> included (Sel b s2) (Sel b s1)).
Proof.
  intros I1 I2. unfold includes_same, it_intersection.
  destruct (op_ok andb andb_comm s1 s2 b b I1 I2) as [out [E [G1 [_ G3]]]]. rewrite E.
  rewrite andb_diag in G3. split.
  - intros H. assert (out = s2).
    { apply (st_inj _ _ b); auto. intros i. rewrite G3. specialize (H i).
      rewrite !selected_st in H. cbn [start_selected bounds] in H.
      destruct (st b s2 i); [rewrite (H eq_refl)|]; auto. now rewrite andb_false_r. }
    subst out. apply std_equal3_same.
  - intros [N HN] H. apply std_equal3_prefix in H. destruct H as [r Hr].
    destruct r as [|c r].
    + rewrite app_nil_r in Hr. subst out. intros i Hi. rewrite selected_st in *.
      cbn [start_selected bounds] in *. specialize (G3 i). rewrite Hi, andb_true_r in G3. auto.
    + exfalso. (* at the first extra boundary the intersection would be selected though y is not *)
      rewrite Hr in G1. destruct (inc_app_inv _ _ G1) as [_ [J2 J3]].
      destruct (above s2) as [M HM].
      assert (Odd : xorb b (Nat.odd (length s2)) = false).
      { rewrite <- (st_above b s2 M (Nat.max M N)); auto; [|lia]. apply (HN (Nat.max M N)). lia. }
      assert (C1 : forall a, In a s2 -> a <= c) by (intros a Ha; specialize (J3 a c Ha (or_introl eq_refl)); lia).
      specialize (G3 c). rewrite (st_above b s2 c c) in G3 by auto. rewrite Odd, andb_false_r in G3.
      rewrite Hr in G3. unfold st in G3. rewrite cnt_app in G3.
      rewrite cnt_cons_le in G3 by lia.
      rewrite (cnt_zero r) in G3 by (intros a Ha; eapply inc_lt; eauto).
      unfold st in *. assert (Q : st b s2 c = xorb b (Nat.odd (length s2))) by (apply (st_above b s2 c); auto).
      unfold st in Q. rewrite Nat.odd_add in G3. change (Nat.odd 1) with true in G3.
      rewrite Odd in Q. destruct b, (Nat.odd (cnt s2 c)); discriminate.
Qed.

(** With equal initial states: never a wrong "no"; and a "yes" is right when the included selection
    is finite. *)
Theorem C21_includes_partial same x y : valid x -> valid y -> (same = true -> x = y) ->
  start_selected x = start_selected y ->
  (included y x -> sel_includes same x y = Some true) /\
  (bounded y -> sel_includes same x y = Some true -> included y x).
Proof.
  intros V1 V2 HS HE. unfold sel_includes. destruct same.
  - rewrite (HS eq_refl). split; auto. intros _ _ i. auto.
  - destruct x as [b1 s1], y as [b2 s2]. cbn [start_selected bounds] in *. subst b2.
    unfold it_includes. rewrite eqb_reflx. now apply includes_same_ok.
Qed.
(** With the first operand starting selected the answer is right as long as the second one starts no
    earlier than the first boundary. *)
Theorem C21_includes_mixed_partial b s1 s2 : increasing (b :: s1) -> increasing s2 ->
  (forall c, In c s2 -> b <= c) ->
  (included (Sel false s2) (Sel true (b :: s1)) ->
     sel_includes false (Sel true (b :: s1)) (Sel false s2) = Some true) /\
  (bounded (Sel false s2) -> sel_includes false (Sel true (b :: s1)) (Sel false s2) = Some true ->
     included (Sel false s2) (Sel true (b :: s1))).
Proof.
  intros I1 I2 HB. unfold sel_includes, it_includes. cbn [start_selected bounds Bool.eqb negb].
  destruct (includes_same_ok s1 s2 false (inc_tail _ _ I1) I2) as [A B].
  assert (Q : included (Sel false s2) (Sel true (b :: s1)) <-> included (Sel false s2) (Sel false s1)).
  { assert (R : forall i, selected (Sel false s2) i = true ->
      selected (Sel true (b :: s1)) i = selected (Sel false s1) i).
    { intros i Hi. rewrite !selected_st in *. cbn [start_selected bounds] in *.
      destruct (Nat.ltb_spec i b) as [L|L].
      - rewrite st_zero in Hi; [discriminate|]. intros c Hc. specialize (HB c Hc). lia.
      - now rewrite st_hi by lia. }
    split; intros H i Hi; specialize (H i Hi); specialize (R i Hi); congruence. }
  rewrite Q. auto.
Qed.
(** Where it goes wrong. (1) A second operand that never ends: [a,c) "includes" [b,oo).
    (2) std::equal reads past the end of the intersection.  (3) The initially selected run of the
    second operand is dropped: the empty selection "includes" [0,k).  (4) The initially selected run
    of the first operand is dropped: [0,b) does not "include" [0,1). *)
Theorem C21_includes_refuted :
  (forall a b c, a < b -> b < c ->
     sel_includes false (Sel false [a; c]) (Sel false [b]) = Some true /\
     ~ included (Sel false [b]) (Sel false [a; c])) /\
  (forall c s, sel_includes false (Sel false []) (Sel false (c :: s)) = None) /\
  (forall k, 0 < k -> sel_includes false (Sel false []) (Sel true [k]) = Some true /\
     ~ included (Sel true [k]) (Sel false [])) /\
  (forall b, 0 < b -> sel_includes false (Sel true [b]) (Sel false [0; 1]) <> Some true /\
     included (Sel false [0; 1]) (Sel true [b])).
Proof.
  split; [|split; [|split]].
  - intros a b c H1 H2. split.
    + unfold sel_includes, it_includes. cbn [start_selected bounds Bool.eqb].
      unfold includes_same, it_intersection, selection_operation. cbn [length Nat.add op_loop]. cbv zeta.
      destruct (Nat.ltb_spec a b); [|lia]. rewrite Nat.eqb_refl.
      destruct (Nat.eqb_spec b a); [lia|]. cbn [andb negb Bool.eqb].
      destruct (Nat.ltb_spec c b); [lia|]. rewrite Nat.eqb_refl.
      destruct (Nat.eqb_spec c b); [lia|]. cbn. now rewrite Nat.eqb_refl.
    + intros H. specialize (H c). rewrite !selected_st in H. cbn [start_selected bounds] in H.
      rewrite !st_hi, !st_nil in H by lia. specialize (H eq_refl). discriminate.
  - intros c s. unfold sel_includes, it_includes. cbn [start_selected bounds Bool.eqb].
    unfold includes_same, it_intersection, selection_operation, op_remainder. cbn [andb].
    assert (Q : forall l t, op_remainder_loop andb false t false l = []).
    { induction l as [|a l IH]; intros t; auto. cbn [op_remainder_loop]. cbv zeta.
      rewrite andb_false_r. cbn [Bool.eqb negb]. apply IH. }
    now rewrite Q.
  - intros k Hk. split; [reflexivity|]. intros H. specialize (H 0).
    rewrite !selected_st in H. cbn [start_selected bounds] in H.
    rewrite st_nil, st_lo in H; [|lia|constructor]. specialize (H eq_refl). discriminate.
  - intros b Hb. split; [discriminate|]. intros i. rewrite !selected_st. cbn [start_selected bounds].
    destruct i as [|i].
    + intros _. rewrite st_lo; auto. constructor.
    + rewrite (st_hi _ 0), (st_hi _ 1), st_nil by lia. discriminate.
Qed.
Example C21_ex : let x := Sel false [1; 8] in let y := Sel false [2; 4; 5; 8] in
  valid x /\ valid y /\ bounded y /\ included y x /\ sel_includes false x y = Some true /\
  sel_includes false x (Sel false [0; 3]) = Some false.
Proof.
  cbn zeta. split; [repeat constructor|]. split; [repeat constructor|].
  assert (B : forall i, 8 <= i -> selected (Sel false [2; 4; 5; 8]) i = false).
  { intros i Hi. rewrite selected_st. cbn [start_selected bounds]. now rewrite !st_hi, st_nil by lia. }
  split; [exists 8; exact B|]. split; [|split; reflexivity].
  intros i Hi. do 8 (destruct i as [|i]; [first [discriminate Hi|reflexivity]|]).
  rewrite B in Hi by lia. discriminate.
Qed.

(** ** C22: the range algorithms deliver exactly the selected elements, in order *)
Theorem C22_copy {A} (x : selection) (r : list A) : valid x -> within x (length r) ->
  selection_copy x r = Some (pick (selected x) 0 r).
Proof.
  intros V W. unfold selection_copy. destruct r as [|v r]; auto.
  rewrite copy_loop_ok; auto. intros b Hb. split; [lia|]. apply W. exact Hb.
Qed.
Theorem C22_foreach {A} (x : selection) (r : list A) : valid x -> within x (length r) ->
  selection_foreach x r = Some (pick (selected x) 0 r).
Proof.
  intros V W. unfold selection_foreach. rewrite copy_loop_ok; auto.
  intros b Hb. split; [lia|]. apply W. exact Hb.
Qed.
Theorem C22_size {A} (x : selection) (r : list A) : valid x -> within x (length r) ->
  size_in x (length r) = Some (length (pick (selected x) 0 r)).
Proof.
  intros V W. unfold size_in, sel_empty. rewrite pick_length. destruct x as [b s].
  cbn [bounds start_selected] in *. destruct s as [|c s].
  - destruct b; cbn [negb]; f_equal.
    + symmetry. apply filter_all. intros i _ _. reflexivity.
    + symmetry. apply filter_none. intros i _ _. reflexivity.
  - unfold next_begin. rewrite (proj2 (Nat.leb_le _ _) (W c (or_introl eq_refl))).
    rewrite size_loop_ok; auto; [|intros d Hd; split; [lia|apply W; exact Hd]|lia].
    now rewrite Nat.sub_0_r.
Qed.
Example C22_ex : let x := Sel true [1; 3; 4] in valid x /\ within x 5 /\
  selection_copy x [10; 11; 12; 13; 14] = Some [10; 13] /\ size_in x 5 = Some 2.
Proof.
  cbn zeta. split; [repeat constructor|]. split; [|split; reflexivity].
  intros b Hb. cbn in Hb. lia.
Qed.

(** ** C49: selection_partition_copy *)
Theorem C49_partition_copy_inserters_partial {A} (x : selection) (r fl tl : list A) :
  valid x -> within x (length r) ->
  selection_partition_copy x r (Append fl) (Append tl) =
  Some (Append (fl ++ pick (fun i => negb (selected x i)) 0 r), Append (tl ++ pick (selected x) 0 r)).
Proof.
  intros V W. unfold selection_partition_copy. destruct r as [|v r].
  - cbn [pick]. now rewrite !app_nil_r.
  - rewrite partition_copy_ok.
    + now rewrite skipn_O.
    + exact V.
    + intros b Hb. split; [lia|apply W; exact Hb].
    + lia.
Qed.
(** With pointers (or any iterator whose position lives in the iterator) every run is written over
    the previous one, because the iterator returned by std::copy is dropped: of the two unselected
    elements only the last survives, and the returned position has not moved. *)
Theorem C49_partition_copy_pointers_refuted {A} (a b c u v : A) : a <> c ->
  let x := Sel false [1; 2] in
  valid x /\ within x 3 /\ pick (fun i => negb (selected x i)) 0 [a; b; c] = [a; c] /\
  exists l pos t, selection_partition_copy x [a; b; c] (Array [u; v] 0) (Append []) =
    Some (Array l pos, t) /\ l <> [a; c] /\ pos = 0.
Proof.
  cbn zeta. intros H. split; [repeat constructor|]. split; [intros d Hd; cbn in Hd |- *; lia|].
  split; [reflexivity|]. exists [c; v], 0, (Append [b]). split; [reflexivity|]. split; auto. congruence.
Qed.
Example C49_ex : let x := Sel false [1; 3] in valid x /\ within x 4 /\
  selection_partition_copy x [1; 2; 3; 4] (Append []) (Append []) = Some (Append [1; 4], Append [2; 3]).
Proof. cbn zeta. split; [repeat constructor|]. split; [intros d Hd; cbn in Hd; lia|reflexivity]. Qed.

(** ** C23: stable partitions *)
Theorem C23_stable_partition {A} (x : selection) (r : list A) : valid x -> within x (length r) ->
  selection_stable_partition x r =
  Some (pick (fun i => negb (selected x i)) 0 r ++ pick (selected x) 0 r,
        length (pick (fun i => negb (selected x i)) 0 r)).
Proof.
  intros V W. unfold selection_stable_partition, stable_partition_it.
  assert (Q := stp_ok (S (length (bounds x))) (bounds x) r [] r [] (if start_selected x then 1 else 0)).
  cbn [length app Nat.add] in Q. rewrite Q; auto; try (now rewrite app_nil_r).
  - replace (Nat.odd (if start_selected x then 1 else 0)) with (start_selected x) by (now destruct (start_selected x)).
    rewrite app_nil_r. reflexivity.
  - intros b Hb. split; [lia|]. apply W. exact Hb.
Qed.

Lemma lower_bound_split : forall s p, increasing s ->
  std_lower_bound s p <= length s /\
  (forall b, In b (firstn (std_lower_bound s p) s) -> b < p) /\
  (forall b, In b (skipn (std_lower_bound s p) s) -> p <= b).
Proof.
  induction s as [|a s IH]; intros p I; [repeat split; easy|]. cbn [std_lower_bound].
  destruct (Nat.ltb_spec a p) as [L|L].
  - destruct (IH p (inc_tail _ _ I)) as [H1 [H2 H3]]. cbn [length firstn skipn].
    split; [lia|]. split; auto. intros b [<-|Hb]; auto.
  - cbn [length firstn skipn]. split; [lia|]. split; [easy|]. intros b [<-|Hb]; auto.
    pose proof (inc_lt _ _ I b Hb). lia.
Qed.
Lemma find_boundary_eq x p : find_boundary x p = (std_lower_bound (bounds x) p, std_lower_bound (bounds x) p).
Proof. unfold find_boundary, find_boundary_ra, bsize. now destruct (bounds x). Qed.

(** ** C50: selection_stable_partition_about
    General description of selection_stable_partition_about: it looks only at the boundaries. *)
Lemma about_ok {A} (x : selection) (r : list A) p prior : valid x -> within x (length r) -> p <= length r ->
  let f := st (Nat.odd prior) (bounds x) in let g := st false (bounds x) in
  selection_stable_partition_about x r p prior =
  Some ((pick (fun i => negb (f i)) 0 (firstn p r) ++ pick f 0 (firstn p r)) ++
        (pick g p (skipn p r) ++ pick (fun i => negb (g i)) p (skipn p r)),
        length (pick (fun i => negb (f i)) 0 (firstn p r)),
        p + length (pick g p (skipn p r))).
Proof.
  intros V W Hp f g. unfold selection_stable_partition_about. cbv zeta.
  rewrite find_boundary_eq. cbn [fst snd]. set (k := std_lower_bound (bounds x) p).
  destruct (lower_bound_split (bounds x) p V) as [K1 [K2 K3]]. fold k in K1, K2, K3.
  unfold next_begin. rewrite (proj2 (Nat.leb_le _ _) Hp).
  unfold stable_partition_it.
  set (s1 := firstn k (bounds x)) in *. set (s2 := skipn k (bounds x)) in *.
  assert (Es : bounds x = s1 ++ s2) by (unfold s1, s2; now rewrite firstn_skipn).
  assert (I12 : increasing (s1 ++ s2)) by (rewrite <- Es; exact V).
  destruct (inc_app_inv _ _ I12) as [I1 [I2 _]].
  assert (L1 : length s1 = k) by (unfold s1; rewrite firstn_length; lia).
  assert (W2 : forall b, In b s2 -> b <= length r) by (intros b Hb; apply W; rewrite Es; apply in_or_app; now right).
  set (m1 := firstn p r). set (m2 := skipn p r).
  assert (Er : r = m1 ++ m2) by (unfold m1, m2; now rewrite firstn_skipn).
  assert (Lm1 : length m1 = p) by (unfold m1; rewrite firstn_length; lia).
  assert (Lm2 : p + length m2 = length r) by (rewrite Er, app_length; lia).
  clearbody m1 m2 s1 s2 k.
  assert (Q1 := stp_ok (S (length s1)) s1 r [] m1 m2 prior).
  cbn [length app Nat.add] in Q1. rewrite Lm1 in Q1. rewrite Q1; auto; try lia.
  2:{ intros b Hb. specialize (K2 b Hb). lia. }
  clear Q1.
  assert (F1 : forall i, i < p -> st (Nat.odd prior) s1 i = f i).
  { intros i Hi. unfold f. rewrite Es. unfold st. rewrite cnt_app, (cnt_zero s2); [now rewrite Nat.add_0_r|].
    intros b Hb. specialize (K3 b Hb). lia. }
  rewrite (pick_ext (st (Nat.odd prior) s1) f) by (intros; apply F1; lia).
  rewrite (pick_ext (fun i => negb (st (Nat.odd prior) s1 i)) (fun i => negb (f i)))
    by (intros; rewrite F1; auto; lia).
  set (u1 := pick (fun i => negb (f i)) 0 m1). set (t1 := pick f 0 m1).
  assert (Lu : length (u1 ++ t1) = p).
  { rewrite app_length. pose proof (pick_length2 f 0 m1). unfold u1, t1. lia. }
  assert (Q2 := stp_ok (S (length s2)) s2 (u1 ++ t1 ++ m2) (u1 ++ t1) m2 [] (k + 1)).
  rewrite Lu, Lm2 in Q2. rewrite Q2; auto; try lia.
  2:{ now rewrite app_nil_r, app_assoc. }
  clear Q2.
  assert (F2 : forall i, p <= i -> st (Nat.odd (k + 1)) s2 i = negb (g i)).
  { intros i Hi. unfold g. rewrite Es. unfold st. rewrite cnt_app.
    assert (C1 : cnt s1 i = k).
    { rewrite <- L1. unfold cnt. clear - K2 Hi. induction s1 as [|a s1 IH]; auto. cbn [filter].
      rewrite (proj2 (Nat.leb_le a i)) by (specialize (K2 a (or_introl eq_refl)); lia).
      cbn [length]. f_equal. apply IH. intros b Hb. apply K2. now right. }
    rewrite C1, !Nat.odd_add. change (Nat.odd 1) with true.
    destruct (Nat.odd k), (Nat.odd (cnt s2 i)); reflexivity. }
  rewrite (pick_ext (st (Nat.odd (k + 1)) s2) (fun i => negb (g i))) by (intros; apply F2; lia).
  rewrite (pick_ext (fun i => negb (st (Nat.odd (k + 1)) s2 i)) g)
    by (intros; rewrite F2 by lia; apply negb_involutive).
  now rewrite app_nil_r.
Qed.

(** selection_stable_partition_about gathers the selected elements around position p, stably, for a
    selection that starts unselected ... *)
Theorem C50_stable_partition_about_partial {A} (x : selection) (r : list A) p :
  valid x -> within x (length r) -> p <= length r -> start_selected x = false ->
  selection_stable_partition_about x r p 0 =
  Some (pick (fun i => negb (selected x i)) 0 (firstn p r) ++
        pick (selected x) 0 r ++
        pick (fun i => negb (selected x i)) p (skipn p r),
        length (pick (fun i => negb (selected x i)) 0 (firstn p r)),
        length (pick (fun i => negb (selected x i)) 0 (firstn p r)) + length (pick (selected x) 0 r)).
Proof.
  intros V W Hp HS. assert (Q := about_ok x r p 0 V W Hp). cbn zeta in Q.
  change (Nat.odd 0) with false in Q. rewrite Q.
  assert (E : forall i, st false (bounds x) i = selected x i) by (intros i; now rewrite selected_st, HS).
  rewrite (pick_ext (st false (bounds x)) (selected x) 0 (firstn p r)) by auto.
  rewrite (pick_ext (st false (bounds x)) (selected x) p (skipn p r)) by auto.
  rewrite (pick_ext (fun i => negb (st false (bounds x) i)) (fun i => negb (selected x i)) 0 (firstn p r)) by (intros; now rewrite E).
  rewrite (pick_ext (fun i => negb (st false (bounds x) i)) (fun i => negb (selected x i)) p (skipn p r)) by (intros; now rewrite E).
  assert (S1 : pick (selected x) 0 r = pick (selected x) 0 (firstn p r) ++ pick (selected x) p (skipn p r)).
  { rewrite <- (firstn_skipn p r) at 1. rewrite pick_app. rewrite firstn_length, Nat.min_l by lia. reflexivity. }
  rewrite S1. rewrite <- !app_assoc. f_equal. f_equal.
  rewrite app_length. pose proof (pick_length2 (selected x) 0 (firstn p r)) as L.
  rewrite firstn_length, Nat.min_l in L by lia. lia.
Qed.
(** ... but it never looks at start_selected: given a selection that starts selected it gathers the
    elements that are NOT selected, with the default argument; and passing 1 for
    prior_boundary_count repairs only the part before p. *)
Theorem C50_stable_partition_about_refuted {A} (x : selection) (r : list A) p :
  valid x -> within x (length r) -> p <= length r -> start_selected x = true ->
  selection_stable_partition_about x r p 0 =
  Some (pick (selected x) 0 (firstn p r) ++
        pick (fun i => negb (selected x i)) 0 r ++
        pick (selected x) p (skipn p r),
        length (pick (selected x) 0 (firstn p r)),
        length (pick (selected x) 0 (firstn p r)) + length (pick (fun i => negb (selected x i)) 0 r)) /\
  (exists r' i j, selection_stable_partition_about x r p 1 = Some (r', i, j) /\
    i = length (pick (fun i => negb (selected x i)) 0 (firstn p r)) /\
    j = p + length (pick (fun i => negb (selected x i)) p (skipn p r))).
Proof.
  intros V W Hp HS.
  assert (E : forall i, st false (bounds x) i = negb (selected x i)).
  { intros i. rewrite selected_st, HS. unfold st. now destruct (Nat.odd _). }
  split.
  - assert (Q := C50_stable_partition_about_partial (invert x) r p V W Hp).
    assert (HN : start_selected (invert x) = false) by (cbn [invert start_selected]; now rewrite HS).
    specialize (Q HN).
    assert (N : forall i, selected (invert x) i = negb (selected x i))
      by (intros i; apply (C19_invert x V)).
    change (selection_stable_partition_about (invert x) r p 0)
      with (selection_stable_partition_about x r p 0) in Q.
    rewrite Q.
    rewrite (pick_ext (selected (invert x)) (fun i => negb (selected x i)) 0 r) by auto.
    rewrite (pick_ext (fun i => negb (selected (invert x) i)) (selected x) 0 (firstn p r))
      by (intros; rewrite N; apply negb_involutive).
    rewrite (pick_ext (fun i => negb (selected (invert x) i)) (selected x) p (skipn p r))
      by (intros; rewrite N; apply negb_involutive).
    reflexivity.
  - assert (Q := about_ok x r p 1 V W Hp). cbn zeta in Q. change (Nat.odd 1) with true in Q.
    rewrite Q. eexists _, _, _. split; [reflexivity|]. split.
    + f_equal. apply pick_ext. intros i _ _. rewrite selected_st, HS. reflexivity.
    + f_equal. f_equal. apply pick_ext. intros i _ _. apply E.
Qed.
(** the two versions of selection_find_boundary agree *)
Theorem C23_find_boundary x p : find_boundary_fwd x p = find_boundary_ra x p.
Proof.
  unfold find_boundary_fwd, find_boundary_ra. cbv zeta.
  assert (Q : forall s a b, find_boundary_fwd_ s p a b = (a + std_lower_bound s p, b + std_lower_bound s p)).
  { induction s as [|c s IH]; intros a b; cbn [find_boundary_fwd_ std_lower_bound].
    - now rewrite !Nat.add_0_r.
    - destruct (Nat.ltb c p); [|now rewrite !Nat.add_0_r].
      rewrite IH. f_equal; lia. }
  now rewrite Q.
Qed.
Example C23_C50_ex : let x := Sel false [1; 2; 4; 6] in valid x /\ within x 7 /\
  selection_stable_partition x [10; 11; 12; 13; 14; 15; 16] = Some ([10; 12; 13; 16; 11; 14; 15], 4) /\
  selection_stable_partition_about x [10; 11; 12; 13; 14; 15; 16] 3 0 =
    Some ([10; 12; 11; 14; 15; 13; 16], 2, 5).
Proof. cbn zeta. split; [repeat constructor|]. split; [intros d Hd; cbn in Hd; lia|]. split; reflexivity. Qed.

(** ** C24: index sets *)
Lemma inc_ext : forall l1 l2, increasing l1 -> increasing l2 -> (forall i, In i l1 <-> In i l2) -> l1 = l2.
Proof.
  induction l1 as [|a l1 IH]; intros [|b l2] I1 I2 H; auto.
  - destruct (H b) as [_ Q]. destruct Q. now left.
  - destruct (H a) as [Q _]. destruct Q. now left.
  - assert (a = b).
    { destruct (proj1 (H a) (or_introl eq_refl)) as [E|E]; auto.
      destruct (proj2 (H b) (or_introl eq_refl)) as [F|F]; auto.
      pose proof (inc_lt _ _ I1 _ F). pose proof (inc_lt _ _ I2 _ E). lia. }
    subst b. f_equal. apply IH; eauto using inc_tail. intros i. split; intros Hi.
    + destruct (proj1 (H i) (or_intror Hi)) as [E|E]; auto. subst i.
      pose proof (inc_lt _ _ I1 _ Hi). lia.
    + destruct (proj2 (H i) (or_intror Hi)) as [E|E]; auto. subst i.
      pose proof (inc_lt _ _ I2 _ Hi). lia.
Qed.
Lemma inc_filter_seq f : forall k p, increasing (filter f (seq p k)).
Proof.
  induction k as [|k IH]; intros p; [constructor|]. cbn [seq filter]. destruct (f p); auto.
  apply inc_intro; auto. intros b Hb. apply filter_In in Hb. destruct Hb as [Hb _].
  apply in_seq in Hb. lia.
Qed.

Theorem C24_index_set_to_selection s : increasing s ->
  exists x, index_set_to_selection s = Some x /\ valid x /\
    (forall i, is_selected x i = true <-> In i s) /\
    forall n, (forall i, In i s -> i < n) -> selection_to_index_set x n = Some s.
Proof.
  intros I. unfold index_set_to_selection.
  destruct (its_ok (length s) s (le_n _) I) as [out [E [G1 [_ G3]]]]. rewrite E.
  eexists; split; [reflexivity|]. split; [exact G1|]. split.
  - intros i. rewrite is_selected_ok by exact G1. apply G3.
  - intros n Hn. rewrite to_index_ok by exact G1. f_equal. apply inc_ext; auto.
    + apply inc_filter_seq.
    + intros i. rewrite filter_In, in_seq. change (selected (Sel false out) i) with (st false out i).
      rewrite G3. split; [tauto|]. intros H. split; auto. specialize (Hn i H). lia.
Qed.
Theorem C24_selection_to_index_set x n : valid x ->
  exists s, selection_to_index_set x n = Some s /\ increasing s /\
    (forall i, In i s <-> i < n /\ is_selected x i = true).
Proof.
  intros V. eexists; split; [now apply to_index_ok|]. split; [apply inc_filter_seq|].
  intros i. rewrite filter_In, in_seq, is_selected_ok by exact V. split; intros [? ?]; split; auto; lia.
Qed.
(** converting a selection that starts unselected and ends within [n] to indices and back *)
Theorem C24_round_trip x n : valid x -> start_selected x = false ->
  (forall i, n <= i -> selected x i = false) ->
  exists s, selection_to_index_set x n = Some s /\ index_set_to_selection s = Some x.
Proof.
  intros V HS HB. eexists; split; [now apply to_index_ok|].
  destruct (its_ok _ (filter (selected x) (seq 0 n)) (le_n _) (inc_filter_seq _ _ _)) as [out [E [G1 [_ G3]]]].
  unfold index_set_to_selection. rewrite E. destruct x as [b s]. cbn [start_selected] in HS. subst b.
  cbn [omap_sel]. f_equal. f_equal. apply (st_inj _ _ false); auto. intros i.
  specialize (G3 i). change (st false s i) with (selected (Sel false s) i).
  destruct (selected (Sel false s) i) eqn:Q.
  - apply G3. apply filter_In. split; auto. apply in_seq.
    destruct (le_lt_dec n i) as [L|L]; [|lia]. rewrite HB in Q by assumption. discriminate.
  - destruct (st false out i); auto. exfalso. pose proof (proj1 G3 eq_refl) as H.
    apply filter_In in H. destruct H as [_ H]. now rewrite Q in H.
Qed.
Example C24_ex : let s := [0; 1; 2; 5; 7; 8] in increasing s /\
  index_set_to_selection s = Some (Sel false [0; 3; 5; 6; 7; 9]) /\
  selection_to_index_set (Sel false [0; 3; 5; 6; 7; 9]) 9 = Some s.
Proof. cbn zeta. split; [repeat constructor|]. split; reflexivity. Qed.

Print Assumptions C19_union.
Print Assumptions C19_intersection.
Print Assumptions C19_symmetric_difference.
Print Assumptions C19_iterators.
Print Assumptions C19_difference_refuted.
Print Assumptions C20_equality_partial.
Print Assumptions C21_includes_partial.
Print Assumptions C21_includes_refuted.
Print Assumptions C22_copy.
Print Assumptions C22_size.
Print Assumptions C49_partition_copy_inserters_partial.
Print Assumptions C23_stable_partition.
Print Assumptions C50_stable_partition_about_partial.
Print Assumptions C24_index_set_to_selection.
Print Assumptions C24_round_trip.
