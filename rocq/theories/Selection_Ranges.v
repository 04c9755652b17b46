(** Proofs about the algorithms that apply a selection to a range. *)
From Verif Require Import Prelude Rearrange_Model Rearrange_Props Selection_Model Selection_Spec Selection_Algebra.
Ltac Zify.zify_post_hook ::= idtac.

Section P.
Context {A : Type}.
Implicit Types l : list A.
Lemma pick_app f off l1 l2 : pick f off (l1 ++ l2) = pick f off l1 ++ pick f (off + length l1) l2.
Proof.
  revert off; induction l1 as [|v l1 IH]; intros off; cbn [app pick length].
  - now rewrite Nat.add_0_r.
  - rewrite IH. replace (S off + length l1) with (off + S (length l1)) by lia.
    destruct (f off); reflexivity.
Qed.
Lemma pick_ext f g off l :
  (forall i, off <= i -> i < off + length l -> f i = g i) -> pick f off l = pick g off l.
Proof.
  revert off; induction l as [|v l IH]; intros off H; auto. cbn [pick length] in *.
  rewrite (H off) by lia. rewrite (IH (S off)); auto. intros i H1 H2. apply H; lia.
Qed.
Lemma pick_true f off l :
  (forall i, off <= i -> i < off + length l -> f i = true) -> pick f off l = l.
Proof.
  revert off; induction l as [|v l IH]; intros off H; auto. cbn [pick length] in *.
  rewrite (H off) by lia. f_equal. apply IH. intros i H1 H2. apply H; lia.
Qed.
Lemma pick_false f off l :
  (forall i, off <= i -> i < off + length l -> f i = false) -> pick f off l = [].
Proof.
  revert off; induction l as [|v l IH]; intros off H; auto. cbn [pick length] in *.
  rewrite (H off) by lia. apply IH. intros i H1 H2. apply H; lia.
Qed.
Lemma pick_length f off l : length (pick f off l) = length (filter f (seq off (length l))).
Proof.
  revert off; induction l as [|v l IH]; intros off; auto. cbn [pick length seq filter].
  destruct (f off); cbn [length]; now rewrite IH.
Qed.
Lemma pick_length2 f off l :
  length (pick f off l) + length (pick (fun i => negb (f i)) off l) = length l.
Proof.
  revert off; induction l as [|v l IH]; intros off; auto. cbn [pick length].
  specialize (IH (S off)). destruct (f off); cbn [negb length]; lia.
Qed.

Lemma copy_loop_ok n : forall l pos s inside, increasing s ->
  (forall b, In b s -> pos <= b /\ b <= n) ->
  copy_loop n pos l s inside = Some (pick (st inside s) pos l).
Proof.
  induction l as [|v l IH]; intros pos s inside I H; auto. cbn [copy_loop pick].
  destruct s as [|b s].
  - rewrite IH; auto; [|easy]. now rewrite st_nil.
  - pose proof (H b (or_introl eq_refl)) as [Hb1 Hb2]. unfold next_begin.
    rewrite (proj2 (Nat.leb_le b n) Hb2). pose proof (inc_lt _ _ I) as K.
    destruct (Nat.eqb_spec pos b) as [->|Hne].
    + rewrite (IH (S b) s (negb inside)); [|eapply inc_tail; eauto|].
      * rewrite st_hi by lia. rewrite (st_zero (negb inside) s b) by exact K.
        rewrite (pick_ext (st inside (b :: s)) (st (negb inside) s)); auto.
        intros i H1 _. apply st_hi. lia.
      * intros c Hc. specialize (K c Hc). split; [lia|]. apply H. now right.
    + rewrite (IH (S pos) (b :: s) inside); auto.
      * rewrite st_lo; auto. lia.
      * intros c Hc. specialize (H c Hc). split; [|apply H].
        destruct Hc as [<-|Hc]; [lia|]. specialize (K c Hc). lia.
Qed.
End P.

Lemma filter_all (f : nat -> bool) p k : (forall i, p <= i -> i < p + k -> f i = true) ->
  length (filter f (seq p k)) = k.
Proof.
  revert p; induction k as [|k IH]; intros p H; auto. cbn [seq filter].
  rewrite H by lia. cbn [length]. rewrite IH; auto. intros i H1 H2. apply H; lia.
Qed.
Lemma filter_none (f : nat -> bool) p k : (forall i, p <= i -> i < p + k -> f i = false) ->
  length (filter f (seq p k)) = 0.
Proof.
  revert p; induction k as [|k IH]; intros p H; auto. cbn [seq filter].
  rewrite H by lia. apply IH. intros i H1 H2. apply H; lia.
Qed.
Lemma filter_ext_len (f g : nat -> bool) p k : (forall i, p <= i -> i < p + k -> f i = g i) ->
  filter f (seq p k) = filter g (seq p k).
Proof.
  revert p; induction k as [|k IH]; intros p H; auto. cbn [seq filter].
  rewrite (H p) by lia. rewrite (IH (S p)); auto. intros i H1 H2. apply H; lia.
Qed.

Lemma size_loop_ok n : forall s prev iter inside result, increasing s ->
  (forall b, In b s -> prev <= b /\ b <= n) ->
  iter = match s with [] => n | b :: _ => b end -> prev <= n ->
  size_loop n s prev iter inside result =
  Some (result + length (filter (st inside s) (seq prev (n - prev)))).
Proof.
  induction s as [|b s IH]; intros prev iter inside result I H E Hp; subst iter; cbn [size_loop]; cbv zeta.
  - rewrite Nat.eqb_refl. f_equal. destruct inside.
    + rewrite filter_all; [reflexivity|]. intros i _ _. apply st_nil.
    + rewrite filter_none; [lia|]. intros i _ _. apply st_nil.
  - pose proof (H b (or_introl eq_refl)) as [Hb1 Hb2]. pose proof (inc_lt _ _ I) as K.
    assert (S1 : length (filter (st inside (b :: s)) (seq prev (n - prev))) =
      (if inside then b - prev else 0) + length (filter (st (negb inside) s) (seq b (n - b)))).
    { replace (n - prev) with ((b - prev) + (n - b)) by lia. rewrite seq_app, filter_app, app_length.
      replace (prev + (b - prev)) with b by lia. f_equal.
      - destruct inside; [apply filter_all|apply filter_none]; intros i H1 H2; apply st_lo; auto; lia.
      - f_equal. apply filter_ext_len. intros i H1 H2. apply st_hi. lia. }
    rewrite S1. clear S1.
    destruct (Nat.eqb_spec b n) as [->|Hne].
    + replace (n - n) with 0 by lia. cbn [seq filter length]. f_equal. destruct inside; lia.
    + assert (E : forall r, size_loop n s b (match s with [] => n | c :: _ => c end) (negb inside) r =
         Some (r + length (filter (st (negb inside) s) (seq b (n - b))))).
      { intros r. apply IH; auto. eapply inc_tail; eauto.
        intros c Hc. specialize (K c Hc). split; [lia|]. apply H. now right. }
      destruct s as [|c s'].
      * rewrite E. f_equal. destruct inside; lia.
      * unfold next_begin. rewrite (proj2 (Nat.leb_le c n)) by (apply H; right; now left).
        rewrite E. f_equal. destruct inside; lia.
Qed.

Section Q.
Context {A : Type}.
Implicit Types l r : list A.

Lemma partition_copy_ok (r : list A) : forall s first inside fl tl, increasing s ->
  (forall b, In b s -> first <= b /\ b <= length r) -> first <= length r ->
  partition_copy_loop r first s inside (Append fl) (Append tl) =
  Some (Append (fl ++ pick (fun i => negb (st inside s i)) first (skipn first r)),
        Append (tl ++ pick (st inside s) first (skipn first r))).
Proof.
  induction s as [|b s IH]; intros first inside fl tl I H Hf; cbn [partition_copy_loop]; cbv zeta.
  - rewrite (firstn_all2 (skipn first r)) by (rewrite skipn_length; lia).
    rewrite Nat.eqb_refl. destruct inside; cbn [copy_dropping].
    + rewrite (pick_true (st true [])) by (intros; apply st_nil).
      rewrite pick_false by (intros; now rewrite st_nil). now rewrite app_nil_r.
    + rewrite (pick_false (st false [])) by (intros; apply st_nil).
      rewrite pick_true by (intros; now rewrite st_nil). now rewrite app_nil_r.
  - pose proof (H b (or_introl eq_refl)) as [Hb1 Hb2]. pose proof (inc_lt _ _ I) as K.
    unfold next_begin. rewrite (proj2 (Nat.leb_le b _) Hb2).
    set (chunk := firstn (b - first) (skipn first r)).
    assert (Lc : length chunk = b - first).
    { unfold chunk. rewrite firstn_length, skipn_length. lia. }
    assert (Es : skipn first r = chunk ++ skipn b r).
    { unfold chunk. replace (skipn b r) with (skipn (b - first) (skipn first r))
        by (rewrite skipn_skipn; f_equal; lia). now rewrite firstn_skipn. }
    assert (P1 : pick (st inside (b :: s)) first (skipn first r) =
      (if inside then chunk else []) ++ pick (st (negb inside) s) b (skipn b r)).
    { rewrite Es, pick_app, Lc. replace (first + (b - first)) with b by lia. f_equal.
      - destruct inside; [apply pick_true|apply pick_false]; intros i H1 H2; apply st_lo; auto; lia.
      - apply pick_ext. intros i H1 _. apply st_hi. lia. }
    assert (P2 : pick (fun i => negb (st inside (b :: s) i)) first (skipn first r) =
      (if inside then [] else chunk) ++ pick (fun i => negb (st (negb inside) s i)) b (skipn b r)).
    { rewrite Es, pick_app, Lc. replace (first + (b - first)) with b by lia. f_equal.
      - destruct inside; [apply pick_false|apply pick_true]; intros i H1 H2; rewrite st_lo; auto; lia.
      - apply pick_ext. intros i H1 _. rewrite st_hi; auto. }
    rewrite P1, P2.
    assert (Hn : b = length r -> skipn b r = []) by (intros ->; apply skipn_all).
    assert (HI : forall fl tl, partition_copy_loop r b s (negb inside) (Append fl) (Append tl) =
      Some (Append (fl ++ pick (fun i => negb (st (negb inside) s i)) b (skipn b r)),
        Append (tl ++ pick (st (negb inside) s) b (skipn b r)))).
    { intros. apply IH; auto. eapply inc_tail; eauto.
      intros c Hc. specialize (K c Hc). split; [lia|]. apply H. now right. }
    destruct inside; cbn [copy_dropping negb] in *; destruct (Nat.eqb_spec b (length r)) as [E|E].
    + rewrite (Hn E). cbn [pick]. now rewrite !app_nil_r.
    + rewrite HI. now rewrite !app_assoc, app_nil_r.
    + rewrite (Hn E). cbn [pick]. now rewrite !app_nil_r.
    + rewrite HI. now rewrite !app_assoc, app_nil_r.
Qed.

(** stable partition of a sub-range *)
Lemma stp_ok : forall fuel s r pre mid post bc,
  length s < fuel -> increasing s ->
  r = pre ++ mid ++ post ->
  (forall b, In b s -> length pre <= b /\ b <= length pre + length mid) ->
  stable_partition_ fuel r s (length pre) (length pre + length mid) bc =
  Some (pre ++ pick (fun i => negb (st (Nat.odd bc) s i)) (length pre) mid
            ++ pick (st (Nat.odd bc) s) (length pre) mid ++ post,
        length pre + length (pick (fun i => negb (st (Nat.odd bc) s i)) (length pre) mid)).
Proof.
  induction fuel as [|fuel IH]; intros s r pre mid post bc HF I E H; [lia|].
  cbn [stable_partition_]. cbv zeta.
  assert (Hodd : forall k, Nat.eqb (k mod 2) 0 = negb (Nat.odd k)).
  { intros k. pose proof (Nat.bit0_mod k) as Q. rewrite Nat.bit0_odd in Q. rewrite <- Q.
    now destruct (Nat.odd k). }
  destruct (Nat.eqb_spec (length s) 0) as [Hz|Hz].
  { destruct s; [|discriminate]. rewrite Hodd. destruct (Nat.odd bc); cbn [negb].
    - rewrite pick_false by (intros; now rewrite st_nil).
      rewrite pick_true by (intros; now rewrite st_nil). cbn [app length]. now rewrite Nat.add_0_r, E.
    - rewrite pick_true by (intros; now rewrite st_nil).
      rewrite pick_false by (intros; now rewrite st_nil). cbn [app length]. now rewrite E. }
  set (half := length s / 2).
  assert (Hh : half < length s) by (unfold half; apply Nat.div_lt; lia). clearbody half.
  destruct (nth_error s half) as [b|] eqn:Eb; [|apply nth_error_None in Eb; lia].
  destruct (nth_error_split _ _ Eb) as [s1 [s2 [Es Ls]]].
  assert (F1 : firstn half s = s1).
  { rewrite Es, <- Ls, firstn_app, Nat.sub_diag, firstn_all, firstn_O. apply app_nil_r. }
  assert (F2 : skipn (half + 1) s = s2).
  { rewrite Es, <- Ls. replace (length s1 + 1) with (1 + length s1) by lia.
    rewrite <- skipn_skipn, skipn_app, Nat.sub_diag, skipn_all, skipn_O. reflexivity. }
  rewrite F1, F2.
  assert (Hb : length pre <= b /\ b <= length pre + length mid).
  { apply H. rewrite Es. apply in_or_app. right. now left. }
  assert (Lr : length r = length pre + length mid + length post)
    by (rewrite E, !app_length; lia).
  unfold next_begin. rewrite (proj2 (Nat.leb_le b (length r))) by lia.
  set (m1 := firstn (b - length pre) mid). set (m2 := skipn (b - length pre) mid).
  assert (Em : mid = m1 ++ m2) by (unfold m1, m2; now rewrite firstn_skipn).
  assert (L1 : length m1 = b - length pre) by (unfold m1; rewrite firstn_length; lia).
  assert (L2 : length m2 = length mid - length m1) by (rewrite Em, app_length; lia).
  clearbody m1 m2.
  rewrite Es in I. destruct (inc_app_inv _ _ I) as [I1 [I2 I12]].
  pose proof (inc_tail _ _ I2) as I2'. pose proof (inc_lt _ _ I2) as K2.
  assert (Lb : b = length pre + length m1) by lia.
  assert (H1 : forall c, In c s1 -> length pre <= c /\ c <= length pre + length m1).
  { intros c Hc. split.
    - apply H. rewrite Es. apply in_or_app. now left.
    - specialize (I12 c b Hc (or_introl eq_refl)). lia. }
  assert (R1 := IH s1 r pre m1 (m2 ++ post) bc).
  rewrite <- Lb in R1. rewrite R1; [clear R1|rewrite Es, app_length in HF; cbn in HF; lia|exact I1| |].
  2:{ now rewrite E, Em, <- app_assoc. }
  2:{ intros c Hc. specialize (H1 c Hc). lia. }
  set (f1 := st (Nat.odd bc) s1). set (u1 := pick (fun i => negb (f1 i)) (length pre) m1).
  set (t1 := pick f1 (length pre) m1).
  set (bc2 := bc + half + 1).
  set (f2 := st (Nat.odd bc2) s2). set (u2 := pick (fun i => negb (f2 i)) b m2).
  set (t2 := pick f2 b m2).
  assert (Lut : length t1 + length u1 = length m1) by apply pick_length2.
  assert (R2 := IH s2 (pre ++ u1 ++ t1 ++ m2 ++ post) (pre ++ u1 ++ t1) m2 post bc2).
  assert (Lp : length (pre ++ u1 ++ t1) = b) by (rewrite !app_length; lia).
  rewrite Lp in R2.
  replace (length pre + length mid) with (b + length m2) by (rewrite Em, app_length; lia).
  rewrite R2; [clear R2|rewrite Es, app_length in HF; cbn in HF; lia|exact I2'| |].
  2:{ now rewrite !app_assoc. }
  2:{ intros c Hc. specialize (K2 c Hc). split; [lia|].
      assert (In c s) by (rewrite Es; apply in_or_app; right; now right).
      specialize (H c H0). rewrite Em, app_length in H. lia. }
  fold f2. fold u2. fold t2.
  assert (RR := C32_rotate (pre ++ u1) t1 u2 (t2 ++ post)).
  replace (length (pre ++ u1)) with (length pre + length u1) in RR by (now rewrite app_length).
  replace (length pre + length u1 + length t1) with b in RR by lia.
  replace ((pre ++ u1) ++ t1 ++ u2 ++ t2 ++ post)
    with ((pre ++ u1 ++ t1) ++ u2 ++ t2 ++ post) in RR by (now rewrite <- !app_assoc).
  assert (F : forall i, length pre <= i -> i < length pre + length mid ->
    st (Nat.odd bc) s i = if Nat.ltb i b then f1 i else f2 i).
  { intros i G1 G2. rewrite Es. unfold st, f1, f2, st. rewrite cnt_app.
    destruct (Nat.ltb_spec i b) as [L|L].
    - rewrite (cnt_cons_gt b s2) by assumption. now rewrite Nat.add_0_r.
    - rewrite cnt_cons_le by assumption.
      assert (C1 : cnt s1 i = half).
      { rewrite <- Ls. unfold cnt. clear - I12 L.
        assert (Q : forall c, In c s1 -> c <= i) by (intros c Hc; specialize (I12 c b Hc (or_introl eq_refl)); lia).
        clear I12. induction s1 as [|x s1 IHs]; auto. cbn [filter].
        rewrite (proj2 (Nat.leb_le x i)) by (apply Q; now left). cbn [length]. f_equal. apply IHs.
        intros c Hc. apply Q. now right. }
      rewrite C1. unfold bc2. rewrite !Nat.odd_add, Nat.odd_succ, <- Nat.negb_odd. cbn [Nat.odd].
      change (Nat.odd 1) with true.
      destruct (Nat.odd bc), (Nat.odd half), (Nat.odd (cnt s2 i)); reflexivity. }
  assert (PU : pick (fun i => negb (st (Nat.odd bc) s i)) (length pre) mid = u1 ++ u2).
  { rewrite Em, pick_app, <- Lb. f_equal; apply pick_ext; intros i G1 G2; rewrite F.
    - now rewrite (proj2 (Nat.ltb_lt i b)) by lia.
    - lia.
    - rewrite Em, app_length. lia.
    - destruct (Nat.ltb_spec i b); [lia|reflexivity].
    - lia.
    - rewrite Em, app_length. lia. }
  assert (PT : pick (st (Nat.odd bc) s) (length pre) mid = t1 ++ t2).
  { rewrite Em, pick_app, <- Lb. f_equal; apply pick_ext; intros i G1 G2; rewrite F.
    - now rewrite (proj2 (Nat.ltb_lt i b)) by lia.
    - lia.
    - rewrite Em, app_length. lia.
    - destruct (Nat.ltb_spec i b); [lia|reflexivity].
    - lia.
    - rewrite Em, app_length. lia. }
  rewrite PU, PT, RR. f_equal. f_equal.
  - now rewrite <- !app_assoc.
  - unfold other_of. cbn [fst snd]. rewrite app_length.
    destruct (Nat.eqb_spec (Nat.min b (length pre + length u1 + length u2)) b); lia.
Qed.
End Q.

(** index sets *)
Lemma fse_ok : forall s n, increasing s -> (forall b, In b s -> n <= b) ->
  exists k rest, find_sequence_end s n = (rest, n + k) /\ s = seq n k ++ rest /\
    (forall b, In b rest -> n + k < b) /\ length rest <= length s.
Proof.
  induction s as [|b s IH]; intros n I H; cbn [find_sequence_end].
  - exists 0, []. rewrite Nat.add_0_r. repeat split; auto. easy.
  - pose proof (inc_lt _ _ I) as K. destruct (Nat.eqb_spec n b) as [->|Hne].
    + destruct (IH (S b)) as [k [rest [E1 [E2 [E3 E4]]]]].
      * eapply inc_tail; eauto.
      * intros c Hc. specialize (K c Hc). lia.
      * exists (S k), rest. replace (b + S k) with (S b + k) by lia.
        split; [exact E1|]. split; [cbn [seq app]; now rewrite <- E2|]. split; auto. cbn; lia.
    + exists 0, (b :: s). rewrite Nat.add_0_r. repeat split; auto.
      intros c Hc. pose proof (H c Hc). destruct Hc as [<-|Hc]; [lia|]. 
      pose proof (H b (or_introl eq_refl)). specialize (K c Hc). lia.
Qed.

Lemma its_ok : forall fuel s, length s <= fuel -> increasing s ->
  exists out, index_set_to_bounds fuel s = Some out /\ increasing out /\
    (forall n, (forall b, In b s -> n < b) -> forall b, In b out -> n < b) /\
    (forall i, st false out i = true <-> In i s).
Proof.
  induction fuel as [|fuel IH]; intros s HF I.
  - destruct s; [|cbn in HF; lia]. exists []. cbn [index_set_to_bounds]. split; [auto|split; [constructor|split; [easy|]]].
    intros i. rewrite st_nil. split; [discriminate|easy].
  - destruct s as [|n s]; cbn [index_set_to_bounds].
    { exists []. split; [auto|split; [constructor|split; [easy|]]].
      intros i. rewrite st_nil. split; [discriminate|easy]. }
    pose proof (inc_lt _ _ I) as K. pose proof (inc_tail _ _ I) as I'.
    destruct (fse_ok s (S n) I') as [k [rest [E1 [E2 [E3 E4]]]]]; [intros b Hb; apply K in Hb; lia|].
    rewrite E1. set (m := S n + k) in *.
    assert (Ir : increasing rest) by (rewrite E2 in I'; apply inc_app_inv in I'; tauto).
    destruct (IH rest) as [out [O1 [O2 [O3 O4]]]]; auto; [cbn in HF; lia|].
    rewrite O1. exists (n :: m :: out). split; [reflexivity|].
    assert (G : forall b, In b out -> m < b) by (apply O3; exact E3).
    assert (Im : increasing (n :: m :: out)).
    { apply inc_intro; [|apply inc_intro; auto]. intros b [<-|Hb]; [unfold m; lia|].
      specialize (G b Hb). unfold m in G. lia. }
    split; [exact Im|]. split.
    + intros x Hx b [<-|[<-|Hb]].
      * apply Hx. now left.
      * specialize (Hx n (or_introl eq_refl)). unfold m. lia.
      * specialize (Hx n (or_introl eq_refl)). specialize (G b Hb). unfold m in G. lia.
    + intros i. destruct (Nat.ltb_spec i n) as [L|L].
      { rewrite st_lo by assumption. split; [discriminate|]. intros [->|Hi]; [lia|].
        specialize (K i Hi). lia. }
      rewrite st_hi by lia. cbn [negb].
      destruct (Nat.ltb_spec i m) as [L2|L2].
      { rewrite st_lo; [|assumption|eapply inc_tail; eauto]. split; auto. intros _.
        destruct (Nat.eq_dec i n) as [->|Hn]; [now left|]. right. rewrite E2. apply in_or_app. left.
        apply in_seq. unfold m in L2. lia. }
      rewrite st_hi by lia. cbn [negb]. rewrite O4. split.
      * intros Hi. right. rewrite E2. apply in_or_app. now right.
      * intros [->|Hi]; [unfold m in L2; lia|]. rewrite E2 in Hi. apply in_app_or in Hi.
        destruct Hi as [Hi|Hi]; auto. apply in_seq in Hi. unfold m in L2. lia.
Qed.

Lemma index_run_ok : forall fuel index stop maxi sel, maxi - index < fuel -> index <= maxi -> index <= stop ->
  index_run fuel index stop maxi sel =
  Some (if sel then seq index (Nat.min stop maxi - index) else [], Nat.min stop maxi).
Proof.
  induction fuel as [|fuel IH]; intros index stop maxi sel HF H1 H2; [lia|]. cbn [index_run].
  destruct (Nat.eqb_spec index stop) as [->|N1]; cbn [orb].
  - replace (Nat.min stop maxi) with stop by lia. rewrite Nat.sub_diag. now destruct sel.
  - destruct (Nat.eqb_spec index maxi) as [->|N2].
    + replace (Nat.min stop maxi) with maxi by lia. rewrite Nat.sub_diag. now destruct sel.
    + rewrite IH by lia. destruct sel; auto.
      replace (Nat.min stop maxi - index) with (S (Nat.min stop maxi - S index)) by lia. reflexivity.
Qed.

Lemma index_outer_ok maxi : forall s index sel, increasing s -> (forall b, In b s -> index <= b) ->
  index <= maxi ->
  exists out k sel', index_outer s index maxi sel = Some (out, k, sel') /\ index <= k /\ k <= maxi /\
    out ++ (if sel' then seq k (maxi - k) else []) = filter (st sel s) (seq index (maxi - index)).
Proof.
  induction s as [|b s IH]; intros index sel I H Hm; cbn [index_outer].
  - exists [], index, sel. repeat split; auto. cbn [app]. destruct sel.
    + rewrite (filter_ext_len _ (fun _ => true)) by (intros; apply st_nil).
      generalize (seq index (maxi - index)). intros l. induction l; cbn; congruence.
    + rewrite (filter_ext_len _ (fun _ => false)) by (intros; apply st_nil).
      generalize (seq index (maxi - index)). intros l. induction l; cbn; congruence.
  - pose proof (H b (or_introl eq_refl)) as Hb. pose proof (inc_lt _ _ I) as K.
    rewrite index_run_ok by lia.
    destruct (IH (Nat.min b maxi) (negb sel)) as [out [k [sel' [E [G1 [G2 G3]]]]]].
    + eapply inc_tail; eauto.
    + intros c Hc. specialize (K c Hc). lia.
    + lia.
    + rewrite E. eexists _, k, sel'. split; [reflexivity|]. split; [lia|split; [exact G2|]].
      rewrite <- app_assoc, G3.
      replace (maxi - index) with ((Nat.min b maxi - index) + (maxi - Nat.min b maxi)) by lia.
      rewrite seq_app, filter_app. replace (index + (Nat.min b maxi - index)) with (Nat.min b maxi) by lia.
      f_equal.
      * rewrite (filter_ext_len _ (fun _ => sel)) by (intros i G4 G5; apply st_lo; auto; lia).
        generalize (seq index (Nat.min b maxi - index)). intros l. destruct sel; induction l; cbn; congruence.
      * destruct (le_lt_dec b maxi) as [L|L].
        -- apply filter_ext_len. intros i G4 G5. rewrite st_hi; auto. lia.
        -- replace (maxi - Nat.min b maxi) with 0 by lia. reflexivity.
Qed.
Lemma to_index_ok x maxi : valid x -> selection_to_index_set x maxi = Some (filter (selected x) (seq 0 maxi)).
Proof.
  intros V. unfold selection_to_index_set.
  destruct (index_outer_ok maxi (bounds x) 0 (start_selected x) V) as [out [k [sel' [E [G1 [G2 G3]]]]]]; [lia|lia|].
  rewrite E. rewrite Nat.sub_0_r in G3. change (st (start_selected x) (bounds x)) with (selected x) in G3.
  destruct sel'.
  - rewrite index_run_ok by lia. rewrite Nat.min_id. now rewrite G3.
  - rewrite app_nil_r in G3. now rewrite G3.
Qed.
