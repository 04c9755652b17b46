(** Where the guides are after layout. *)
From Verif Require Import Prelude Eve_Model Eve_Spec Eve_Base Eve_Adjust Eve_Solve Eve_Layout Eve_Place Eve_Run Eve_Guides Eve_Lines.
From Coq Require Import List ZArith Lia Bool.
Import ListNotations.
Open Scope Z_scope.
Ltac Zify.zify_post_hook ::= idtac.

Definition offset (d : slice_select) (cs : list view) : nat := fold_right (fun c n => length (fwd_of d c) + n)%nat 0%nat cs.
Definition child_guided (x : Z) (d : slice_select) (v c : view) : Prop :=
  suppressed d c = false ->
  (to_forward (align d c) = true -> forall k g, nth_error (fwd d c) k = Some g -> nth_error (fwd d v) k = Some (ppos d c + g - x)) /\
  (align d c = align_reverse -> forall k g, nth_error (rev_g d c) k = Some g -> nth_error (rev_g d v) k = Some (x + plen d v - (ppos d c + plen d c) + g)).
Definition line_guided (x : Z) (d : slice_select) (v : view) (cs : list view) : Prop :=
  forall before c after, cs = before ++ c :: after -> suppressed d c = false -> to_forward (align d c) = true -> is_leaf c = true -> Forall (fun c => to_reverse (align d c) = false) before ->
  forall k g, nth_error (fwd d c) k = Some g -> nth_error (fwd d v) (offset d before + k) = Some (ppos d c + g - x).
Definition guided (x : Z) (d : slice_select) (v : view) (cs : list view) : Prop :=
  is_leaf v = false -> if is_with (v_placement v) d then line_guided x d v cs else Forall (child_guided x d v) cs.

Lemma rest_facts d c c' : rest d c = rest d c' -> align d c' = align d c /\ suppressed d c' = suppressed d c /\ is_leaf c' = is_leaf c /\ fwd d c' = fwd d c /\ rev_g d c' = rev_g d c /\ fwd_of d c' = fwd_of d c /\ rev_of d c' = rev_of d c /\ v_placement c' = v_placement c.
Proof.
  intros R. apply rest_inv in R as (K&_&_&F&G). apply key_inv in K as (C&_&A&S). pose proof (core_inv _ _ _ C) as (P&_). unfold fwd_of, rev_of, is_leaf. rewrite <- A, <- S, <- F, <- G, <- P. conj; auto.
Qed.
Definition near_by (d : slice_select) (y : Z) (c c' : view) : Prop := rest d c = rest d c' /\ ppos d c' = ppos d c + y /\ plen d c' = plen d c.
Lemma guided_moved d x y v v' cs cs' : rest d v = rest d v' -> plen d v' = plen d v -> Forall2 (near_by d y) cs cs' -> guided x d v cs -> guided (x + y) d v' cs'.
Proof.
  intros R PL F G LF. destruct (rest_facts _ _ _ R) as (_&_&L&FW&RV&_&_&P). rewrite L in LF. rewrite P. specialize (G LF). destruct (is_with (v_placement v) d).
  - intros before' c' after' E S A LC NB k g K. rewrite E in F. apply Forall2_app_inv_r in F as (before&rest0&F1&F2&->). inversion F2 as [|c ? after ? (R1&P1&P2) F3]; subst.
    destruct (rest_facts _ _ _ R1) as (A1&S1&L1&W1&_). rewrite FW. rewrite W1 in K. replace (offset d before') with (offset d before).
    + replace (ppos d c' + g - (x + y)) with (ppos d c + g - x) by lia. eapply G; eauto; try congruence. clear - F1 NB. induction F1 as [|a b l l' (R&_) F IH]; constructor; apply Forall_inv in NB as N1; apply Forall_inv_tail in NB; auto.
      destruct (rest_facts _ _ _ R) as (<-&_). exact N1.
    + clear - F1. induction F1 as [|a b l l' (R&_) F IH]; auto. unfold offset in *. cbn [fold_right]. destruct (rest_facts _ _ _ R) as (_&_&_&_&_&->&_). rewrite IH. reflexivity.
  - clear - F G FW RV PL. induction F as [|c c' cs cs' (R&P1&P2) F IH]; constructor; apply Forall_inv in G as H; apply Forall_inv_tail in G; auto. destruct (rest_facts _ _ _ R) as (A&S&_&W&V&_).
    unfold child_guided in *. rewrite A, S, W, V, FW, RV, PL. intros HS. destruct (H HS) as [H1 H2]. split; intros HA k g K; [rewrite (H1 HA k g K) | rewrite (H2 HA k g K)]; f_equal; lia.
Qed.

(** ** One container *)
Lemma nth_lt {A} (l : list A) k g : nth_error l k = Some g -> (k < length l)%nat.
Proof. intros H. apply nth_error_Some. congruence. Qed.
Lemma agrees_nth b m gs k g : agrees b m gs -> (length m <= length gs)%nat -> nth_error m k = Some g -> nth_error gs k = Some (b + g).
Proof.
  intros A L K. pose proof (nth_lt _ _ _ K) as LK. destruct (nth_error gs k) as [x|] eqn:E; [f_equal; eapply A; eauto|]. apply nth_error_None in E. lia.
Qed.
Lemma nth_skipn {A} n (l : list A) k : nth_error (skipn n l) k = nth_error l (n + k).
Proof. revert l. induction n; intros [|x l]; cbn; auto. destruct k; auto. Qed.
Lemma to_has a : to_forward a = true -> has_forward a = true. Proof. destruct a; auto. Qed.
Lemma forward_guided rp d zero av cs : forall gs len p rem placed, layout_forward rp d zero av cs gs len p rem = Some placed -> line_agrees d cs gs -> (offset d cs <= length gs)%nat ->
  forall before c after, placed = before ++ c :: after -> suppressed d c = false -> to_forward (align d c) = true -> is_leaf c = true ->
  forall k g, nth_error (fwd d c) k = Some g -> nth_error gs (offset d before + k) = Some (ppos d c + g).
Proof.
  induction cs as [|c0 cs IH]; intros gs len p rem placed E AG FIT before c after EP S A LF k g K; cbn [layout_forward] in E; [injection E as <-; destruct before; discriminate|].
  destruct (is_padded (align d c0) && (p =? 0)); try discriminate. cbn [line_agrees] in AG. destruct AG as [AG1 AG2]. cbn [offset fold_right] in FIT. fold (offset d cs) in FIT.
  assert (STEP : forall l x q len' p' rem', layout_forward rp d zero av cs (skipn (length (fwd_of d c0)) gs) len' p' rem' = Some q -> placed = put d l x c0 :: q ->
     (before = [] -> nth_error gs k = Some (x + g)) -> nth_error gs (offset d before + k) = Some (ppos d c + g)).
  { intros l x q len' p' rem' EQ EPL FST. destruct before as [|b before].
    - rewrite EPL in EP. injection EP as EC _. subst c. rewrite ppos_put. cbn. auto.
    - rewrite EPL in EP. injection EP as EB EQ'. subst b. cbn [offset fold_right]. fold (offset d before). destruct (rest_facts d c0 (put d l x c0)) as (_&_&_&_&_&->&_); [symmetry; apply rest_put|].
      rewrite <- Nat.add_assoc, <- nth_skipn. eapply IH; [exact EQ | exact AG2 | rewrite skipn_length; lia | exact EQ' | | | |]; eauto. }
  destruct (align d c0) eqn:A0; try discriminate.
  - assert (FO : fwd_of d c0 = if suppressed d c0 then [] else fwd d c0) by (unfold fwd_of; rewrite A0; destruct (suppressed d c0); reflexivity). rewrite <- FO in E. 
    destruct (match fwd_of d c0 with [] => _ | _ :: _ => _ end) as [o|] eqn:EO; try discriminate. destruct (layout_forward rp d zero av cs _ _ _ _) as [q|] eqn:EQ; try discriminate. cbn [option_map] in E. injection E as <-.
    eapply STEP; [exact EQ | reflexivity|]. intros ->. cbn in EP. injection EP as EC _. subst c. destruct (rest_facts d c0 (put d (clen d c0) o c0)) as (_&SS&LL&FF&_); [symmetry; apply rest_put|]. rewrite FF in K. rewrite SS in S. rewrite LL in LF. rewrite S in FO. rewrite <- FO in K.
    specialize (AG1 LF). destruct (fwd_of d c0) as [|g0 m] eqn:EF; [destruct k; discriminate|]. destruct gs as [|x gs]; [cbn in FIT; lia|]. rewrite LF in EO. injection EO as <-. eapply agrees_nth; eauto. cbn in *. lia.
  - assert (FO : fwd_of d c0 = []) by (unfold fwd_of; rewrite A0; destruct (suppressed d c0); reflexivity). destruct (layout_forward rp d zero av cs _ _ _ _) as [q|] eqn:EQ; try discriminate. cbn [option_map] in E. injection E as <-.
    eapply STEP; [rewrite FO; cbn [length skipn]; exact EQ | reflexivity|]. intros ->. cbn in EP. injection EP as EC _. subst c. destruct (rest_facts d c0 (put d (clen d c0) (len + v_space_before c0 + Z.quot (clen d c0 + Z.quot rem p - clen d c0) 2) c0)) as (AA&_); [symmetry; apply rest_put|]. rewrite AA, A0 in A. discriminate.
  - assert (FO : fwd_of d c0 = []) by (unfold fwd_of; rewrite A0; destruct (suppressed d c0); reflexivity). destruct (rp _ _ _) as [o|]; try discriminate. destruct (layout_forward rp d zero av cs _ _ _ _) as [q|] eqn:EQ; try discriminate. cbn [option_map] in E. injection E as <-.
    eapply STEP; [rewrite FO; cbn [length skipn]; exact EQ | reflexivity|]. intros ->. cbn in EP. injection EP as EC _. subst c. destruct (rest_facts d c0 (put d (clen d c0) (len + v_space_before c0 + o) c0)) as (AA&_); [symmetry; apply rest_put|]. rewrite AA, A0 in A. discriminate.
  - assert (FO : fwd_of d c0 = if suppressed d c0 then [] else fwd d c0) by (unfold fwd_of; rewrite A0; destruct (suppressed d c0); reflexivity). rewrite <- FO in E. 
    destruct (match fwd_of d c0 with [] => _ | _ :: _ => _ end) as [o|] eqn:EO; try discriminate. destruct (layout_forward rp d zero av cs _ _ _ _) as [q|] eqn:EQ; try discriminate. cbn [option_map] in E. injection E as <-.
    eapply STEP; [exact EQ | reflexivity|]. intros ->. cbn in EP. injection EP as EC _. subst c. match type of K with context [put d ?l ?x c0] => destruct (rest_facts d c0 (put d l x c0)) as (_&SS&LL&FF&_); [symmetry; apply rest_put|] end. rewrite FF in K. rewrite SS in S. rewrite LL in LF. rewrite S in FO. rewrite <- FO in K.
    specialize (AG1 LF). destruct (fwd_of d c0) as [|g0 m] eqn:EF; [destruct k; discriminate|]. destruct gs as [|x gs]; [cbn in FIT; lia|]. rewrite LF in EO. injection EO as <-. eapply agrees_nth; eauto. cbn in *. lia.
  - assert (FO : fwd_of d c0 = []) by (unfold fwd_of; rewrite A0; destruct (suppressed d c0); reflexivity). destruct (layout_forward rp d zero av cs _ _ _ _) as [q|] eqn:EQ; try discriminate. cbn [option_map] in E. injection E as <-.
    eapply STEP; [rewrite FO; cbn [length skipn]; exact EQ | reflexivity|]. intros ->. cbn in EP. injection EP as EC _. subst c. destruct (rest_facts d c0 (put d (clen d c0) (ppos d c0) c0)) as (AA&_); [symmetry; apply rest_put|]. rewrite AA, A0 in A. discriminate.
Qed.
Lemma reverse_done d rcs : forall gs r p rem done others p' rem', layout_reverse d rcs gs r p rem = Some (done, others, p', rem') -> Forall (fun c => to_reverse (align d c) = true) done.
Proof.
  induction rcs as [|c rcs IH]; intros gs r p rem done others p' rem' E; cbn [layout_reverse] in E; [injection E as <- _ _ _; constructor|].
  destruct (negb (to_reverse (align d c))) eqn:T; [injection E as <- _ _ _; constructor|]. apply negb_false_iff in T.
  destruct (match (if suppressed d c then [] else rev_g d c) with [] => _ | _ :: _ => _ end) as [o|]; try discriminate.
  assert (P : forall l x, to_reverse (align d (put d l x c)) = true) by (intros l x; destruct (rest_facts d c (put d l x c)) as (->&_); [symmetry; apply rest_put | exact T]).
  destruct (align d c); try discriminate;
  [|destruct (p =? 0); try discriminate];
  (match type of E with context [layout_reverse d rcs ?a ?b ?x ?y] => destruct (layout_reverse d rcs a b x y) as [[[[dn ot] p1] r1]|] eqn:E1; try discriminate end;
    injection E as <- _ _ _; constructor; [apply P | eapply IH; eauto]).
Qed.
Lemma line_agrees_app d a b : forall gs, line_agrees d (a ++ b) gs -> line_agrees d a gs.
Proof. induction a as [|c a IH]; intros gs H; cbn in *; auto. destruct H as [H1 H2]. split; auto. Qed.
Lemma offset_app d a b : offset d (a ++ b) = (offset d a + offset d b)%nat.
Proof. unfold offset. induction a as [|c a IH]; cbn [app fold_right]; auto. rewrite IH. lia. Qed.
Lemma count_offset d cs : count_with (map (fwd_of d) cs) = offset d cs.
Proof. unfold offset, count_with. induction cs as [|c cs IH]; cbn [map fold_right]; auto. Qed.
Lemma count_cross_le (f : view -> list Z) cs : Forall (fun c => (length (f c) <= count_cross (map f cs))%nat) cs.
Proof.
  unfold count_cross. induction cs as [|c cs IH]; cbn [map fold_right]; constructor; [lia|]. eapply Forall_impl; [|exact IH]. cbn beta. intros. lia.
Qed.
Lemma cross_child_guided d v c c' : layout_cross_child d v c = Some c' -> cross_agrees d v c -> (length (fwd_of d c) <= length (fwd d v))%nat -> (length (rev_of d c) <= length (rev_g d v))%nat -> child_guided 0 d v c'.
Proof.
  intros E [AF AR] LF LR. unfold layout_cross_child in E.
  assert (PUT : forall l x, rest d c = rest d (put d l x c)) by (intros; symmetry; apply rest_put).
  intros S. split.
  - intros A k g K.
    assert (A0 : to_forward (align d c) = true /\ suppressed d c = false /\ fwd d c' = fwd d c /\ exists l, c' = put d l (guide_pull c (near_of d v c) (fwd_of d c) (fwd d v)) c).
    { assert (X : align d c' = align d c /\ suppressed d c' = suppressed d c /\ fwd d c' = fwd d c).
      { assert (Y : exists l x, c' = put d l x c) by (destruct (align d c); try (injection E as <-; eauto); match type of E with option_map _ ?o = _ => destruct o; try discriminate; cbn in E; injection E as <-; eauto end).
        destruct Y as (l&x&->). destruct (rest_facts _ _ _ (PUT l x)) as (?&?&_&?&_). auto. }
      destruct X as (X1&X2&X3). rewrite X1 in A. rewrite X2 in S. conj; auto. unfold guide_pull, fwd_of. rewrite S, (to_has _ A). rewrite S in E. unfold fwd_of in LF. rewrite S, (to_has _ A) in LF.
      destruct (align d c); try discriminate; (destruct (fwd d c) as [|g0 m]; [|destruct (fwd d v) as [|x0 gs]; [cbn in LF; lia|]; destruct (is_leaf c)]; cbn in E; injection E as <-; eauto). }
    destruct A0 as (A0&S0&W&l&->). rewrite W in K. rewrite ppos_put. assert (FO : fwd_of d c = fwd d c) by (unfold fwd_of; rewrite S0, (to_has _ A0); reflexivity). rewrite <- FO in K.
    rewrite (agrees_nth _ _ _ _ _ AF LF K). f_equal. lia.
  - intros A k g K.
    assert (A0 : align d c = align_reverse /\ suppressed d c = false /\ rev_g d c' = rev_g d c /\ exists l, c' = put d l (plen d v - guide_pull c (far_of d v c) (rev_of d c) (rev_g d v) - l) c).
    { assert (X : align d c' = align d c /\ suppressed d c' = suppressed d c /\ rev_g d c' = rev_g d c).
      { assert (Y : exists l x, c' = put d l x c) by (destruct (align d c); try (injection E as <-; eauto); match type of E with option_map _ ?o = _ => destruct o; try discriminate; cbn in E; injection E as <-; eauto end).
        destruct Y as (l&x&->). destruct (rest_facts _ _ _ (PUT l x)) as (?&?&_&_&?&_). auto. }
      destruct X as (X1&X2&X3). rewrite X1 in A. rewrite X2 in S. conj; auto. unfold guide_pull, rev_of. rewrite S, A. rewrite S, A in E. unfold rev_of in LR. rewrite S, A in LR. cbn [has_reverse] in *.
      destruct (rev_g d c) as [|g0 m]; [|destruct (rev_g d v) as [|x0 gs]; [cbn in LR; lia|]; destruct (is_leaf c)]; cbn in E; injection E as <-; eauto. }
    destruct A0 as (A0&S0&W&l&->). rewrite W in K. rewrite ppos_put, plen_put. assert (FO : rev_of d c = rev_g d c) by (unfold rev_of; rewrite S0, A0; reflexivity). rewrite <- FO in K.
    rewrite (agrees_nth _ _ _ _ _ AR LR K). f_equal. lia.
Qed.
Definition fits_here (d : slice_select) (v : view) (cs : list view) : Prop :=
  is_leaf v = false -> length (fwd d v) = count_for d v (map (fwd_of d) cs) /\ length (rev_g d v) = count_for d v (map (rev_of d) cs).
Lemma layout_guided rp d v cs vs : calm d v cs -> fits_here d v cs -> layout rp d v cs = Some vs -> guided 0 d v vs.
Proof.
  intros CA FI E LF. specialize (CA LF). destruct (FI LF) as [F1 F2]. unfold layout in E. rewrite LF in E. unfold count_for in *. destruct (is_with (v_placement v) d).
  - unfold layout_with in E. destruct (layout_reverse d (rev cs) _ _ _ _) as [[[[dn ot] p1] r1]|] eqn:E1; try discriminate. pose proof (reverse_done _ _ _ _ _ _ _ _ _ _ E1) as RD. apply layout_reverse_rest in E1 as (pre&E1&FR).
    destruct (layout_forward rp d _ _ _ _ _ _ _) as [pl|] eqn:E2; try discriminate. injection E as <-.
    assert (CS : cs = rev ot ++ rev pre) by (rewrite <- rev_app_distr, <- E1; symmetry; apply rev_involutive).
    intros before c after EP S A LC NB k g K. rewrite Z.sub_0_r.
    assert (X : exists after', pl = before ++ c :: after').
    { clear - EP RD A. revert before EP. induction pl as [|q pl IH]; intros [|b before] EP.
      - exfalso. cbn in EP. assert (I : In c (rev dn)) by (rewrite EP; left; reflexivity). rewrite <- in_rev in I. rewrite Forall_forall in RD. specialize (RD c I). destruct (align d c); discriminate.
      - exfalso. cbn in EP. assert (I : In c (rev dn)) by (rewrite EP; right; apply in_elt). rewrite <- in_rev in I. rewrite Forall_forall in RD. specialize (RD c I). destruct (align d c); discriminate.
      - cbn in EP. injection EP as -> _. exists pl. reflexivity.
      - cbn in EP. injection EP as -> EP. destruct (IH before EP) as (a&->). exists a. reflexivity. }
    destruct X as (after'&X). eapply forward_guided; [exact E2 | | | exact X | | | |]; eauto.
    + rewrite CS in CA. eapply line_agrees_app; eauto.
    + rewrite F1, count_offset, CS, offset_app. lia.
  - unfold layout_cross in E. apply all_some_Forall2 in E. pose proof (count_cross_le (fwd_of d) cs) as C1. pose proof (count_cross_le (rev_of d) cs) as C2. rewrite <- F1 in C1. rewrite <- F2 in C2. clear F1 F2 FI.
    induction E as [|c c' cs vs H F IH]; constructor; apply Forall_inv in CA as CA1; apply Forall_inv_tail in CA; apply Forall_inv in C1 as C11; apply Forall_inv_tail in C1; apply Forall_inv in C2 as C21; apply Forall_inv_tail in C2; auto.
    eapply cross_child_guided; eauto.
Qed.
Lemma calm_rest d v w cs : rest d v = rest d w -> calm d v cs -> calm d w cs.
Proof.
  intros R. destruct (rest_facts _ _ _ R) as (_&_&L&F&G&_&_&P). apply rest_inv in R as (K&_). apply key_inv in K as (C&_). unfold calm, cross_agrees, near_of, far_of. rewrite L, P, F, G. rewrite (near_core _ _ _ C), (far_core _ _ _ C). auto.
Qed.
Lemma layout_pass_guided rp d t : every (fun v ts => calm d v (map root ts)) t -> every (fits d) t -> forall v t', rest d v = rest d (root t) -> preorder_from (layout rp d) t v = Some t' -> every (fun v ts => guided 0 d v (map root ts)) t'.
Proof.
  induction t as [r ts IH] using tree_ind'. rewrite !every_node. intros [C CS] [F FS] v t' RE E. cbn [root] in RE. cbn [preorder_from] in E. destruct (layout rp d v (map root ts)) as [vs|] eqn:EL; try discriminate. cbn [option_map] in E.
  destruct (_ ts vs) as [us|] eqn:EG; try discriminate. injection E as <-. pose proof (layout_rest _ _ _ _ _ EL) as LR. pose proof (Forall2_length _ _ _ LR) as LEN. rewrite map_length in LEN.
  destruct (go_layout (layout rp d) ts (fun t _ v t' => preorder_root _ t v t') vs us EG LEN) as [G1 G2]. apply every_node. split.
  - rewrite G2. eapply layout_guided; [|  |exact EL].
    + eapply calm_rest; [symmetry; exact RE | exact C].
    + intros LF. destruct (rest_facts _ _ _ RE) as (_&_&L&W&V&_&_&P). rewrite <- L in LF. destruct (F LF) as [F1 F2]. rewrite <- W, <- V. unfold count_for in *. rewrite <- P. rewrite !map_map. auto.
  - subst vs. clear - IH G1 LR CS FS. revert IH LR CS FS. induction G1 as [|t u ts us H G IHG]; intros IH LR CS FS; constructor; inversion LR; subst.
    + apply Forall_inv in IH, CS, FS. eapply IH; [exact CS | exact FS | | exact H]. auto.
    + apply Forall_inv_tail in IH, CS, FS. auto.
Qed.

(** ** A whole run *)
Definition delivered (d : slice_select) (v : view) : Prop :=
  (to_forward (align d v) = true -> guides_of d v = fwd d v) /\ (align d v = align_reverse -> guides_of d v = rev (map (fun g => plen d v - g) (rev_g d v))).
Lemma deliver_delivered d v : delivered d (deliver_guides d v).
Proof.
  destruct (rest_deliver d v) as (R&_&PL). destruct (rest_facts d v (deliver_guides d v) (eq_sym R)) as (A&_&_&F&G&_). unfold delivered. rewrite A, F, G, PL. unfold deliver_guides, guides_of.
  split; intros H; [rewrite H | rewrite H; cbn [to_forward to_reverse]]; rewrite slc_upd; reflexivity.
Qed.
Lemma flatten_guided o d t : every (fun v ts => guided 0 d v (map root ts)) t -> forall x, every (fun v ts => guided (origin o d v) d v (map root ts) /\ delivered d v) (flatten_from o d x t).
Proof.
  induction t as [v ts IH] using tree_ind'. intros H x. apply every_node in H as [H1 H2]. rewrite flatten_node. cbv zeta. apply every_node. split.
  - split; [|apply deliver_delivered]. set (v' := deliver_guides d (shift_by d x v)). destruct (rest_deliver d (shift_by d x v)) as (R1&R2&R3). destruct (shift_facts d x v) as (S1&S2&S3).
    change (origin o d v') with (0 + origin o d v'). eapply guided_moved; [| | |exact H1].
    + subst v'. congruence.
    + subst v'. congruence.
    + generalize (origin o d v'). intros y. clear. induction ts as [|[c cs] ts IH]; cbn; constructor; auto. destruct (rest_deliver d (shift_by d y c)) as (R1&R2&R3). destruct (shift_facts d y c) as (S1&S2&S3). unfold near_by. conj; congruence.
  - generalize (origin o d (deliver_guides d (shift_by d x v))). intros y. clear - IH H2. revert IH. induction H2; intros IH; cbn; constructor; [apply Forall_inv in IH; auto | apply Forall_inv_tail in IH; auto].
Qed.
Lemma guided_spots d t t' : alike (spot d) t t' -> every (fun v ts => guided 0 d v (map root ts)) t -> every (fun v ts => guided 0 d v (map root ts)) t'.
Proof.
  apply every_alike. intros v ts v' ts' K F H. apply spot_inv in K as (K1&K2&K3). change 0 with (0 + 0). eapply guided_moved; [exact K1 | congruence | | exact H].
  clear - F. induction F as [|a b l l' A F IH]; cbn; constructor; auto. apply alike_root, spot_inv in A as (A1&A2&A3). unfold near_by. conj; auto; lia.
Qed.
Theorem run_guided rp o d n w t t' : every (fun v _ => unbalanced d v) (postorder (adjust d) t) -> run_slice rp o d n w t = Some (t', true) -> every (fun v ts => guided (origin o d v) d v (map root ts) /\ delivered d v) t'.
Proof.
  intros U E. unfold run_slice in E. destruct (solve d n (postorder (adjust d) t)) as [s prog] eqn:ES. cbn [fst snd] in E. destruct (layout_pass rp d w s) as [l|] eqn:EL; try discriminate.
  apply (f_equal (fun x => match x with Some y => y | None => (t', true) end)) in E. pose proof (f_equal fst E) as EA. pose proof (f_equal snd E) as EB. cbn [fst snd] in EA, EB. clear E. destruct prog; try discriminate.
  destruct (solve_settled _ _ _ _ U ES) as [C G]. pose proof (adjust_fits d t) as F. apply (fits_gkey d _ s) in F; [|apply alike_sym; exact G]. subst t'. apply flatten_guided.
  eapply guided_spots; [apply alike_sym, outsets_spot|]. unfold layout_pass in EL. eapply layout_pass_guided; [exact C | exact F | | exact EL]. apply rest_upd.
Qed.

(** ** In the words of the specification *)
Lemma nth_map_some {A B} (f : A -> B) l k y : nth_error (map f l) k = Some y -> exists x, nth_error l k = Some x /\ y = f x.
Proof. revert k. induction l as [|a l IH]; intros [|k] H; cbn in *; try discriminate; [injection H as <-; eauto | auto]. Qed.
Lemma guided_line_up o d t : every (fun v ts => guided (origin o d v) d v (map root ts) /\ delivered d v) t -> every (guides_line_up d) t.
Proof.
  induction t as [v ts IH] using tree_ind'. rewrite !every_node. intros [[G _] GS]. split.
  - intros LF W t1 t2 k x1 x2 I1 I2 S1 S2. specialize (G LF). rewrite W in G. rewrite Forall_map, Forall_forall in G.
    assert (D : forall t, In t ts -> delivered d (root t)) by (intros t Ht; rewrite Forall_forall in GS; specialize (GS t Ht); destruct t; apply every_node in GS; tauto).
    destruct (G t1 I1 S1) as [F1 R1]. destruct (G t2 I2 S2) as [F2 R2]. destruct (D t1 I1) as [D1 D1']. destruct (D t2 I2) as [D2 D2']. split.
    + intros A1 A2 (g1&K1&->) (g2&K2&->). rewrite D1 in K1 by auto. rewrite D2 in K2 by auto. specialize (F1 A1 _ _ K1). specialize (F2 A2 _ _ K2). rewrite F1 in F2. injection F2. lia.
    + intros A1 A2 (g1&K1&->) (g2&K2&->). rewrite D1', rev_involutive in K1 by auto. rewrite D2', rev_involutive in K2 by auto. apply nth_map_some in K1 as (y1&K1&->). apply nth_map_some in K2 as (y2&K2&->).
      specialize (R1 A1 _ _ K1). specialize (R2 A2 _ _ K2). rewrite R1 in R2. injection R2. lia.
  - rewrite Forall_forall in *. auto.
Qed.
Lemma guided_go_up o d t : every (fun v ts => guided (origin o d v) d v (map root ts) /\ delivered d v) t -> every (guides_go_up o d) t.
Proof.
  induction t as [v ts IH] using tree_ind'. rewrite !every_node. intros [[G DV] GS]. split.
  - intros LF AV before t after E S A k x (g&K&->). specialize (G LF). destruct DV as [DV _]. rewrite DV by auto.
    assert (D : forall t, In t ts -> delivered d (root t)) by (intros u Hu; rewrite Forall_forall in GS; specialize (GS u Hu); destruct u; apply every_node in GS; tauto).
    assert (I : In t ts) by (rewrite E; apply in_elt). destruct (D t I) as [DT _]. rewrite DT in K by auto. destruct (is_with (v_placement v) d).
    + intros LT NB. assert (EM : map root ts = map root before ++ root t :: map root after) by (rewrite E, map_app; reflexivity).
      assert (NB' : Forall (fun c => to_reverse (align d c) = false) (map root before)) by (rewrite Forall_map; exact NB).
      replace (fold_right (fun t n => (shown d t + n)%nat) 0%nat before) with (offset d (map root before)); [apply (G _ _ _ EM S A LT NB' k g K)|].
      assert (DB : Forall (fun t => delivered d (root t)) before) by (apply Forall_forall; intros u Hu; apply D; rewrite E; apply in_or_app; auto).
      clear - NB DB. unfold offset. induction before as [|u us IH]; cbn [map fold_right]; auto. apply Forall_inv in NB as N1. apply Forall_inv_tail in NB. apply Forall_inv in DB as D1. apply Forall_inv_tail in DB. rewrite IH by auto. f_equal.
      unfold shown, fwd_of. destruct D1 as [D1 _]. destruct (suppressed d (root u)); auto. cbn [negb andb]. destruct (align d (root u)); try discriminate; cbn [to_forward has_forward]; auto; rewrite D1 by reflexivity; reflexivity.
    + rewrite Forall_map, Forall_forall in G. destruct (G t I S) as [F _]. apply (F A k g K).
  - rewrite Forall_forall in *. auto.
Qed.
