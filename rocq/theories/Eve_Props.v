(** C83-C87: the Eve layout engine. *)
From Verif Require Import Prelude Eve_Model Eve_Spec Eve_Base Eve_Adjust Eve_Solve Eve_Layout Eve_Place Eve_Run Eve_Total Eve_Whole Eve_Session Eve_Succeeds Eve_History Eve_Flat Eve_Guides Eve_Lines Eve_Aligned Eve_Lift Eve_Kept.
From Coq Require Import List ZArith Lia Bool.
Import ListNotations.
Open Scope Z_scope.

(** ** A concrete form *)
Definition no_place := mk_place 0 0 (0, 0) [].
Definition side (a ca : alignment) (m : Z * Z) : slice := mk_slice a false false m ca (mk_extents 0 (0, 0) (0, 0) []) no_place 0 0 [] [].
Definition size (l : Z) : extents := mk_extents l (0, 0) (0, 0) [].
Definition item (w h : Z) (ah av : alignment) : tree view :=
  Node (mk_view (mk_placeable (size w, size h) None) true place_leaf 0 true [] 0 (side ah align_forward (0, 0)) (side av align_forward (0, 0))) [].
Definition group (p : placement) (m : Z * Z) (sp : list Z) (ah av ch cv : alignment) (ts : list (tree view)) : tree view :=
  Node (mk_view (mk_placeable (size 0, size 0) None) true p 0 true sp 0 (side ah ch m) (side av cv m)) ts.
Definition hide (t : tree view) : tree view := Node (set_visible false (root t)) (kids t).
(** a text that is as high as its width makes it: 600 pixels of text in lines of 10 *)
Definition height (w : Z) : Z := 10 * Z.max 1 ((600 + w - 1) / w).
Definition text : tree view :=
  Node (mk_view (mk_placeable (size 60, size 10) (Some (fun _ p => size (height (p_length (fst p)))))) true place_leaf 0 true [] 0 (side align_forward_fill align_forward (0, 0)) (side align_forward align_forward (0, 0))) [].
Definition dialog : tree view :=
  group place_column (10, 10) [0; 5] align_forward_fill align_forward_fill align_forward_fill align_forward
    [ group place_row (0, 0) [0; 4] align_default align_default align_forward align_center
        [ item 50 20 align_default align_default; item 30 26 align_forward_fill align_default; hide (item 70 70 align_default align_default); item 40 20 align_reverse align_default ];
      text;
      item 33 12 align_center align_default ].
Definition sees (t : tree view) := map_tree (fun v => (ppos horizontal v, plen horizontal v, ppos vertical v, plen vertical v)) t.
Lemma measured_size d v l : 0 <= l -> measured_well d v (size l).
Proof. unfold measured_well, size. cbn. auto with zarith. Qed.
Lemma leaf_good w h f b ah av ch cv : 0 <= w -> 0 <= h -> (forall g, f = Some g -> forall e p, exists l, 0 <= l /\ g e p = size l) ->
  good_form (mk_view (mk_placeable (size w, size h) f) b place_leaf 0 true [] 0 (side ah ch (0, 0)) (side av cv (0, 0))) [].
Proof.
  intros W H F. split; [|split; [|split; [|split]]].
  - unfold formed, no_reverse_fill; cbn. repeat split; auto; try lia; discriminate.
  - unfold formed, no_reverse_fill; cbn. repeat split; auto; try lia; discriminate.
  - apply measured_size; auto.
  - apply measured_size; auto.
  - cbn. intros g E e p. destruct (F g E e p) as (l&L&->). apply measured_size; auto.
Qed.
Lemma group_good p m sp ah av ch cv ts : p <> place_leaf -> 0 <= fst m -> 0 <= snd m -> Forall (fun x => 0 <= x) sp -> ch <> align_default -> cv <> align_default ->
  ch <> align_reverse_fill -> cv <> align_reverse_fill -> Forall (fun t => align horizontal (root t) <> align_reverse_fill /\ align vertical (root t) <> align_reverse_fill) ts -> Forall (every good_form) ts ->
  every good_form (group p m sp ah av ch cv ts).
Proof.
  intros P M1 M2 SP C1 C2 C3 C4 NR G. apply every_node. split; auto. assert (L : match p with place_leaf => true | _ => false end = false) by (destruct p; congruence).
  split; [|split; [|split; [|split]]]; try (apply measured_size; lia); try discriminate.
  - unfold formed, no_reverse_fill, is_leaf, alignment_in. cbn. rewrite L. conj; auto with zarith. intros _ _. eapply Forall_impl; [|exact NR]. cbn. intros [c cs] [H _]. cbn [root] in *; destruct (align horizontal c); congruence.
  - unfold formed, no_reverse_fill, is_leaf, alignment_in. cbn. rewrite L. conj; auto with zarith. intros _ _. eapply Forall_impl; [|exact NR]. cbn. intros [c cs] [_ H]. cbn [root] in *; destruct (align vertical c); congruence.
Qed.
Lemma text_good : every good_form text.
Proof.
  apply every_node; split; auto. apply leaf_good; [lia | lia|]. intros g E e p. apply (f_equal (fun x => match x with Some y => y | None => g end)) in E. subst g. exists (height (p_length (fst p))). split; [|reflexivity]. unfold height. apply Z.mul_nonneg_nonneg; [lia | apply Z.le_trans with 1; [lia | apply Z.le_max_l]].
Qed.
Ltac good := repeat (first
  [ exact text_good | apply group_good; [discriminate | cbn; lia | cbn; lia | repeat constructor; lia | discriminate | discriminate | discriminate | discriminate | repeat constructor; discriminate |]
  | apply every_node; split; [apply leaf_good; [lia | lia | discriminate] |] | constructor ]).
Example dialog_good : every good_form dialog.
Proof. unfold dialog. good. Qed.
(** What the user sees: horizontal position and length, vertical position and length *)
Example dialog_shown :
  option_map (fun r => (sees (fst r), snd r)) (evaluate exact_rounding evaluate_nested 0 0 dialog) =
  Some (Node (0, 148, 0, 118) [Node (10, 128, 10, 26) [Node (0, 50, 3, 20) []; Node (54, 30, 0, 26) []; Node (0, 0, 0, 0) []; Node (88, 40, 3, 20) []]; Node (10, 128, 41, 50) []; Node (57, 33, 96, 12) []], true).
Proof. vm_compute. reflexivity. Qed.
(** shown, resized, one view hidden and another shown, shown again *)
Definition run_of (f : tree view -> option (tree view * bool)) (t : tree view) : tree view := match f t with Some r => fst r | None => t end.
Definition dialog1 := run_of (evaluate exact_rounding evaluate_flat 0 0) dialog.
Definition dialog2 := run_of (resize exact_rounding evaluate_flat 301 205) dialog1.
Definition dialog3 := match dialog2 with Node v (Node r (a :: b :: c :: rest) :: ts) => Node v (Node r (hide a :: b :: set_root c (set_visible true (root c)) :: rest) :: ts) | t => t end.
Definition dialog4 := run_of (evaluate exact_rounding evaluate_flat 250 0) dialog3.
Ltac enough_room := first [left; reflexivity | right; vm_compute; discriminate].
Example dialog_session1 : session exact_rounding dialog1 (Some (evaluate_flat, 0, 0)).
Proof. apply (session_evaluated exact_rounding evaluate_flat 0 0 dialog None dialog1 true); [apply session_opened, dialog_good | enough_room | enough_room | vm_compute; reflexivity]. Qed.
Example dialog_session2 : session exact_rounding dialog2 (Some (evaluate_flat, 301, 205)).
Proof. apply (session_resized exact_rounding evaluate_flat 301 205 dialog1 (evaluate_flat, 0, 0) dialog2 true); [exact dialog_session1 | enough_room | enough_room | vm_compute; reflexivity]. Qed.
Example dialog_session4 : session exact_rounding dialog4 (Some (evaluate_flat, 250, 0)).
Proof.
  apply (session_evaluated exact_rounding evaluate_flat 250 0 dialog3 None dialog4 true); [|enough_room | enough_room | vm_compute; reflexivity].
  apply (session_shown exact_rounding dialog2 (Some (evaluate_flat, 301, 205)) dialog3); [exact dialog_session2 | vm_compute; reflexivity].
Qed.
Example dialog_seen4 : sees dialog4 =
  Node (0, 250, 0, 142) [Node (10, 230, 10, 70) [Node (10, 50, 13, 20) []; Node (10, 112, 32, 26) []; Node (126, 70, 10, 70) []; Node (200, 40, 35, 20) []]; Node (10, 230, 85, 30) []; Node (108, 33, 120, 12) []].
Proof. vm_compute. reflexivity. Qed.

(** ** C83: every view lies in its container, the views of a line in order with their gaps *)
Theorem C83_views_are_contained : forall rp t o w h, sensible_rounding rp -> session rp t (Some (o, w, h)) -> forall d, every (contained o d) (visible_part t).
Proof. intros rp t o w h RP S. destruct (session_good _ _ _ RP S) as (_&[D1 _ _ _ _]&_). exact D1. Qed.
Theorem C83_views_lie_in_the_window : forall rp t w h, sensible_rounding rp -> session rp t (Some (evaluate_flat, w, h)) -> forall d v, In v (views (visible_part t)) -> box_in d v (root t).
Proof.
  intros rp t w h RP S d v V. destruct (session_good _ _ _ RP S) as (G&D&_). destruct D as [D1 _ _ _ D5]. rewrite <- root_visible. pose proof (views_inside d _ (D1 d) (neat_measured d _ (good_visible t G) D5)) as B. rewrite Forall_forall in B. auto.
Qed.
Theorem C83_leaves_do_not_overlap : forall rp t w h, sensible_rounding rp -> session rp t (Some (evaluate_flat, w, h)) -> every (fun v _ => v_placement v <> place_overlay) (visible_part t) ->
  ForallOrdPairs apart (leaves (visible_part t)).
Proof.
  intros rp t w h RP S O. destruct (session_good _ _ _ RP S) as (G&D&_). destruct D as [D1 _ _ _ D5]. apply leaves_apart; auto. intros d. apply (neat_measured d _ (good_visible t G) D5).
Qed.
Example C83_example : every (fun v _ => v_placement v <> place_overlay) (visible_part dialog4) /\ length (leaves (visible_part dialog4)) = 5%nat /\ length (views (visible_part dialog4)) = 7%nat.
Proof. vm_compute. repeat split; discriminate. Qed.
(** A view that fills from the right across its container (halign reverse fill) is put where it would be if it had not been filled: it sticks out *)
Definition sticking_out : tree view := group place_column (0, 0) [0] align_forward align_forward align_forward align_forward [item 40 10 align_reverse_fill align_forward; item 100 10 align_forward align_forward].
Lemma contained_across o d t : every (contained o d) t -> is_leaf (root t) = false -> is_with (v_placement (root t)) d = false ->
  Forall (fun c => ppos d (root c) + plen d (root c) <= origin o d (root t) + plen d (root t) - far d (root t)) (kids t).
Proof. destruct t as [v ts]. rewrite every_node. cbn [root kids]. intros [C _] L W. unfold contained in C. rewrite L, W in C. eapply Forall_impl; [|exact C]. cbn beta. tauto. Qed.
Theorem C83_reverse_fill_refuted : exists t', evaluate exact_rounding evaluate_flat 0 0 sticking_out = Some (t', true) /\ sees t' = Node (0, 100, 0, 20) [Node (60, 100, 0, 10) []; Node (0, 100, 10, 10) []] /\ ~ every (contained evaluate_flat horizontal) t'.
Proof.
  exists (run_of (evaluate exact_rounding evaluate_flat 0 0) sticking_out). split; [vm_compute; reflexivity|]. split; [vm_compute; reflexivity|]. intros C.
  assert (L : is_leaf (root (run_of (evaluate exact_rounding evaluate_flat 0 0) sticking_out)) = false) by (vm_compute; reflexivity).
  assert (W : is_with (v_placement (root (run_of (evaluate exact_rounding evaluate_flat 0 0) sticking_out))) horizontal = false) by (vm_compute; reflexivity).
  assert (N : exists a, hd_error (kids (run_of (evaluate exact_rounding evaluate_flat 0 0) sticking_out)) = Some a /\ ppos horizontal (root a) + plen horizontal (root a) = 160).
  { exists (hd sticking_out (kids (run_of (evaluate exact_rounding evaluate_flat 0 0) sticking_out))). split; vm_compute; reflexivity. }
  assert (R : let r := root (run_of (evaluate exact_rounding evaluate_flat 0 0) sticking_out) in origin evaluate_flat horizontal r + plen horizontal r - far horizontal r = 100) by (vm_compute; reflexivity).
  set (T := run_of (evaluate exact_rounding evaluate_flat 0 0) sticking_out) in *. clearbody T. cbv zeta in R. pose proof (contained_across _ _ _ C L W) as F. destruct N as (a&N&E). destruct (kids T) as [|b l]; [discriminate|]. injection N as ->. apply Forall_inv in F. lia.
Qed.

(** ** C84: where each view is, and how long *)
Theorem C84_layout_is_exact : forall rp t o w h, sensible_rounding rp -> session rp t (Some (o, w, h)) ->
  (forall d, every (laid_out o d) (visible_part t)) /\
  plen horizontal (root t) = (if w =? 0 then natural horizontal (visible_part t) else w) /\ plen vertical (root t) = (if h =? 0 then natural vertical (visible_part t) else h).
Proof. intros rp t o w h RP S. destruct (session_good _ _ _ RP S) as (_&[D1 D2 D3 D4 _]&_). rewrite <- (root_visible t). auto. Qed.
(** the exact quotient, rounded, is a sensible rounding *)
Theorem C84_exact_rounding_is_sensible : sensible_rounding exact_rounding.
Proof. exact exact_sensible. Qed.
Example C84_example : natural horizontal (visible_part dialog4) = 168 /\ natural vertical (visible_part dialog4) = 142 /\ plen horizontal (root dialog4) = 250.
Proof. vm_compute. auto. Qed.

(** ** C85: guides *)
Theorem C85_guides_line_up_when_settled : forall rp o w h t t', (forall d, every (fun v _ => unbalanced d v) (visible_part t)) ->
  evaluate rp o w h t = Some (t', true) \/ resize rp o w h t = Some (t', true) -> forall d, every (guides_line_up d) (visible_part t').
Proof. intros rp o w h t t' U E d. exact (guided_line_up o d _ (evaluate_guided _ _ _ _ _ _ U E d)). Qed.
Theorem C85_guides_of_a_container : forall rp o w h t t', (forall d, every (fun v _ => unbalanced d v) (visible_part t)) ->
  evaluate rp o w h t = Some (t', true) \/ resize rp o w h t = Some (t', true) -> forall d, every (guides_go_up o d) (visible_part t').
Proof. intros rp o w h t t' U E d. exact (guided_go_up o d _ (evaluate_guided _ _ _ _ _ _ U E d)). Qed.
Theorem C85_first_guide_is_kept : forall rp o w h t t' ok, evaluate rp o w h t = Some (t', ok) \/ resize rp o w h t = Some (t', ok) -> forall d, every (keeps_first_guide d) (visible_part t').
Proof. exact evaluate_heads. Qed.
(** The form everyone draws: rows one above the other, each beginning with some labels.  The k-th guide of one row and the k-th of another are at the same place on the screen. *)
Definition row_guide (d : slice_select) (t : tree view) (k : nat) (x : Z) : Prop :=
  exists before u after i, kids t = before ++ u :: after /\ Forall (fun u => to_reverse (align d (root u)) = false) before /\ is_leaf (root u) = true /\ suppressed d (root u) = false /\ to_forward (align d (root u)) = true /\
  at_guide d (root u) i x /\ k = (fold_right (fun t n => shown d t + n) 0 before + i)%nat.
Definition rows_line_up (d : slice_select) (v : view) (ts : list (tree view)) : Prop :=
  is_leaf v = false -> is_with (v_placement v) d = false ->
  forall t1 t2 k x1 x2, In t1 ts -> In t2 ts -> Forall (fun t => is_with (v_placement (root t)) d = true /\ suppressed d (root t) = false /\ to_forward (align d (root t)) = true) [t1; t2] ->
  row_guide d t1 k x1 -> row_guide d t2 k x2 -> x1 = x2.
Theorem C85_rows_line_up : forall rp w h t t', (forall d, every (fun v _ => unbalanced d v) (visible_part t)) ->
  evaluate rp evaluate_flat w h t = Some (t', true) \/ resize rp evaluate_flat w h t = Some (t', true) -> forall d, every (rows_line_up d) (visible_part t').
Proof.
  intros rp w h t t' U E d. pose proof (C85_guides_line_up_when_settled _ _ _ _ _ _ U E d) as A. pose proof (C85_guides_of_a_container _ _ _ _ _ _ U E d) as B.
  set (T := visible_part t') in *. clearbody T. clear - A B. induction T as [v ts IH] using tree_ind'. apply every_node in A as [A AS]. apply every_node in B as [B BS]. apply every_node. split.
  - intros LF W t1 t2 k x1 x2 I1 I2 F G1 G2. pose proof (Forall_inv F) as (W1&S1&A1). pose proof (Forall_inv (Forall_inv_tail F)) as (W2&S2&A2).
    assert (X : forall u x, In u ts -> is_with (v_placement (root u)) d = true -> to_forward (align d (root u)) = true -> row_guide d u k x -> at_guide d (root u) k x).
    { clear - BS. intros u x I W A (before&c&after&i&EK&NB&LC&SC&AC&G&->). rewrite Forall_forall in BS. specialize (BS u I). destruct u as [r us]. cbn [root kids] in *. apply every_node in BS as [BS _].
      assert (LR : is_leaf r = false) by (unfold is_leaf; destruct (v_placement r), d; auto; discriminate). specialize (BS LR A before c after EK SC AC i x G). rewrite W in BS. specialize (BS LC NB).
      exists (x - ppos d r). split; [exact BS | lia]. }
    destruct (A LF W t1 t2 k x1 x2 I1 I2 S1 S2) as [Y _]. apply Y; auto.
  - rewrite Forall_forall in *. auto.
Qed.
Definition guided_item (w h : Z) (gs : list Z) (ah av : alignment) : tree view :=
  Node (mk_view (mk_placeable (mk_extents w (0, 0) (0, 0) gs, size h) None) true place_leaf 0 true [] 0 (side ah align_forward (0, 0)) (side av align_forward (0, 0))) [].
Definition labelled : tree view :=
  group place_column (10, 10) [0; 5] align_forward_fill align_forward_fill align_forward align_forward
    [ group place_row (0, 0) [0; 4] align_default align_default align_forward align_center [ guided_item 30 10 [30] align_default align_default; item 80 20 align_default align_default ];
      group place_row (0, 0) [0; 4] align_default align_default align_forward align_center [ guided_item 55 10 [55] align_default align_default; guided_item 40 20 [25] align_default align_default ];
      guided_item 100 10 [40; 95] align_default align_default;
      guided_item 20 10 [20] align_reverse align_default;
      guided_item 33 10 [12] align_reverse align_default ].
Definition lines (t : tree view) := map_tree (fun v => map (fun g => ppos horizontal v + g) (guides_of horizontal v)) t.
Example C85_example : (forall d, every (fun v _ => unbalanced d v) (visible_part labelled)) /\
  option_map (fun r => (sees (fst r), lines (fst r), snd r)) (evaluate exact_rounding evaluate_flat 0 0 labelled) =
  Some (Node (0, 159, 0, 110) [Node (10, 139, 10, 20) [Node (35, 30, 15, 10) []; Node (69, 80, 10, 20) []]; Node (10, 110, 35, 20) [Node (10, 55, 40, 10) []; Node (80, 40, 35, 20) []];
              Node (25, 100, 60, 10) []; Node (108, 20, 75, 10) []; Node (116, 33, 90, 10) []],
        Node [65; 105] [Node [65] [Node [65] []; Node [] []]; Node [65; 105] [Node [65] []; Node [105] []]; Node [65; 105] []; Node [128] []; Node [128] []], true).
Proof. split; [intros [|]; vm_compute; repeat split | vm_compute; reflexivity]. Qed.
(** In labelled, the second guide of the third item, measured 95 from its left edge, is handed to it as 80: the item has moved right by 15 and its other guides do not push *)
Theorem C85_later_guides_are_squeezed_refuted : exists t', evaluate exact_rounding evaluate_flat 0 0 labelled = Some (t', true) /\
  exists v, In v (views t') /\ e_guides (s_extents (v_horizontal v)) = [40; 95] /\ guides_of horizontal v = [40; 80].
Proof.
  exists (run_of (evaluate exact_rounding evaluate_flat 0 0) labelled). split; [vm_compute; reflexivity|].
  exists (root (nth 2 (kids (run_of (evaluate exact_rounding evaluate_flat 0 0) labelled)) labelled)). split; [|split; vm_compute; reflexivity]. vm_compute. auto 10.
Qed.
(** The solver need not settle: its limit stops it and guides are left one beside the other, with nothing balanced and with one balanced row *)
Definition dot (a : alignment) : tree view := guided_item 0 0 [0] a align_forward.
Definition stretched (p : placement) (m : Z * Z) (ts : list (tree view)) : tree view := group p m [] align_forward_fill align_forward align_forward align_forward ts.
Definition unsettled : tree view :=
  group place_column (0, 0) [] align_reverse align_forward align_forward align_forward
    [ stretched place_row (0, 0) [stretched place_row (0, 0) [dot align_forward; dot align_reverse]; dot align_forward];
      stretched place_row (2, 3) [stretched place_row (0, 0) [dot align_forward; dot align_reverse]; group place_column (0, 0) [] align_forward align_forward align_forward align_forward [dot align_forward]] ].
Theorem C85_solver_need_not_settle_refuted : (forall d, every (fun v _ => unbalanced d v) unsettled) /\ exists t', evaluate exact_rounding evaluate_flat 0 0 unsettled = Some (t', false) /\ ~ every (guides_line_up horizontal) t'.
Proof.
  split; [intros [|]; vm_compute; repeat split|]. exists (run_of (evaluate exact_rounding evaluate_flat 0 0) unsettled). split; [vm_compute; reflexivity|].
  set (T := run_of (evaluate exact_rounding evaluate_flat 0 0) unsettled).
  assert (F : is_leaf (root T) = false /\ is_with (v_placement (root T)) horizontal = false) by (split; vm_compute; reflexivity).
  assert (K : exists a b, kids T = [a; b] /\ suppressed horizontal (root a) = false /\ suppressed horizontal (root b) = false /\ to_forward (align horizontal (root a)) = true /\ to_forward (align horizontal (root b)) = true /\
    ppos horizontal (root a) = 0 /\ ppos horizontal (root b) = 0 /\ nth_error (guides_of horizontal (root a)) 1 = Some 21 /\ nth_error (guides_of horizontal (root b)) 1 = Some 20).
  { exists (nth 0 (kids T) T), (nth 1 (kids T) T). split; [|split; [|split; [|split; [|split; [|split; [|split; [|split]]]]]]]; vm_compute; reflexivity. }
  clearbody T. destruct T as [v ts]. destruct K as (a&b&K&SA&SB&AA&AB&PA&PB&GA&GB). cbn [root kids] in *. intros E. apply every_node in E as [E _]. destruct F as [F1 F2].
  destruct (E F1 F2 a b 1%nat 21 20) as [X _]; try (rewrite K; cbn; auto; fail); auto. assert (21 = 20) by (apply X; auto; [exists 21 | exists 20]; split; auto; lia). lia.
Qed.
Definition set_balance (v : view) : view := upd horizontal (fun s => mk_slice (s_alignment s) (s_suppress s) true (s_margin s) (s_child_alignment s) (s_extents s) (s_place s) (s_container_length s) (s_measured_length s) (s_forward s) (s_reverse s)) v.
Definition balanced_row : tree view :=
  let plain p m ts := group p m [] align_forward align_forward align_forward align_forward ts in
  let t := plain place_row (0, 0) [plain place_row (0, 0) [guided_item 0 0 [0; 0] align_forward align_forward; plain place_column (0, 0) [dot align_forward]]; plain place_row (3, 1) [dot align_forward]] in
  set_root t (set_balance (root t)).
Theorem C85_balance_need_not_settle_refuted : exists t', evaluate exact_rounding evaluate_flat 0 0 balanced_row = Some (t', false).
Proof. exists (run_of (evaluate exact_rounding evaluate_flat 0 0) balanced_row). vm_compute. reflexivity. Qed.

(** ** C86: when a form can be laid out *)
Theorem C86_laid_out_if_right_aligned_items_are_last : forall rp o w h t, every good_form t ->
  (forall d, every (right_last d) (visible_part t)) -> (forall d, every (no_proportional d) (visible_part t)) -> exists t', evaluate rp o w h t = Some (t', true).
Proof. intros rp o w h t G R P. apply evaluate_succeeds; auto; unfold line_ok; apply every_and; auto. Qed.
Theorem C86_resized_if_right_aligned_items_are_last : forall rp o w h t s, sensible_rounding rp -> session rp t (Some s) ->
  (forall d, every (right_last d) (visible_part t)) -> (forall d, every (no_proportional d) (visible_part t)) -> exists t', resize rp o w h t = Some (t', true).
Proof. intros rp o w h t [[o0 w0] h0] RP S R P. destruct (session_good _ _ _ RP S) as (G&_&F&GV). apply resize_succeeds; auto; unfold line_ok; apply every_and; auto. Qed.
Lemma laid_right_last o d v ts : laid_out o d v ts -> right_last d v ts.
Proof. unfold laid_out, right_last. intros L LF W. rewrite LF, W in L. destruct L as (fs&rs&_&_&_&_&_&->&F&R&_). eauto. Qed.
Lemma right_last_alignments d t : forall t', alike (fun v => (v_placement v, s_child_alignment (slc d v))) t t' -> alignments d align_default t = alignments d align_default t' -> every (right_last d) t -> every (right_last d) t'.
Proof.
  assert (X : forall t t' a, alike (fun v => (v_placement v, s_child_alignment (slc d v))) t t' -> alignments d a t = alignments d a t' -> every (right_last d) t -> every (right_last d) t').
  { clear t. intros t. induction t as [v ts IH] using tree_ind'. intros [v' ts'] a P A E. apply alike_node in P as [P PF]. apply pair_equal_spec in P as [P CA]. cbn [alignments] in A. apply Node_inj in A as [_ A]. apply every_node in E as [E1 E3]. apply every_node.
    assert (F : Forall2 (fun t t' => alignment_in d v' (root t') = alignment_in d v (root t)) ts ts').
    { clear - A. revert ts' A. induction ts as [|t ts IH]; intros [|t' ts'] A; try discriminate; constructor; cbn [map] in A; apply cons_inj in A as [A1 A2]; auto. rewrite <- !root_alignments. congruence. }
    split.
    - unfold right_last, is_leaf in *. rewrite <- P. intros LF W. destruct (E1 LF W) as (fs&rs&->&Ff&Fr). apply Forall2_app_inv_l in F as (fs'&rs'&Af&Ar&->). exists fs', rs'. split; auto. split.
      + clear - Af Ff. induction Af as [|x y l l' H F IHF]; constructor; apply Forall_inv in Ff as H1; apply Forall_inv_tail in Ff; auto. congruence.
      + clear - Ar Fr. induction Ar as [|x y l l' H F IHF]; constructor; apply Forall_inv in Fr as H1; apply Forall_inv_tail in Fr; auto. congruence.
    - clear - IH PF A E3 CA. rewrite CA in A. revert ts' PF A E3. induction ts as [|t ts IHts]; intros [|t' ts'] PF A E3; inversion PF; subst; constructor; cbn [map] in A; apply cons_inj in A as [A1 A2]; apply Forall_inv in E3 as E; apply Forall_inv_tail in E3; apply Forall_inv in IH as IH1; apply Forall_inv_tail in IH; eauto. }
  intros t'. apply X.
Qed.
Theorem C86_not_laid_out_otherwise : forall rp o t t' ok, sensible_rounding rp -> every good_form t -> evaluate rp o 0 0 t = Some (t', ok) -> forall d, every (right_last d) (visible_part t).
Proof.
  intros rp o t t' ok RP G E d. destruct (evaluate_lays rp o 0 0 t t' ok RP G ltac:(auto) ltac:(auto) E) as (_&EV&_). destruct EV. apply (right_last_alignments d (visible_part t')); auto.
  - revert ev_attributes. apply alike_impl. intros v v' H. apply attributes_inv in H as (_&_&->&_&_&_&H). destruct (H d) as [_ ->]. reflexivity.
  - eapply every_impl; [intros v ts; apply (laid_right_last o)|]. destruct d; auto.
Qed.
Example C86_example : (forall d, every (right_last d) (visible_part dialog)) /\ (forall d, every (no_proportional d) (visible_part dialog)).
Proof.
  split; intros [|]; vm_compute; repeat split; try discriminate; repeat constructor; try discriminate; intros _ _.
  - match goal with |- exists fs rs, ?l = _ /\ _ => exists (firstn 2 l), (skipn 2 l) end. repeat constructor.
  - match goal with |- exists fs rs, ?l = _ /\ _ => exists l, [] end. repeat constructor.
Qed.
Example C86_thrown : evaluate exact_rounding evaluate_flat 0 0 (group place_row (0, 0) [] align_forward align_forward align_forward align_forward [item 5 5 align_reverse align_forward; item 5 5 align_forward align_forward]) = None.
Proof. vm_compute. reflexivity. Qed.
(** the offset of a proportional item that is alone in its row is zero divided by zero *)
Theorem C86_lone_proportional_item_refuted : exists t, every good_form t /\ (forall d, every (right_last d) (visible_part t)) /\ evaluate exact_rounding evaluate_flat 20 0 t = None.
Proof.
  exists (group place_row (0, 0) [] align_forward align_forward align_forward align_forward [item 5 5 align_proportional align_forward]). split; [good|]. split; [|vm_compute; reflexivity].
  intros [|]; vm_compute; repeat split; try discriminate. intros _ _. match goal with |- exists fs rs, ?l = _ /\ _ => exists l, [] end. repeat constructor.
Qed.

(** ** C87: sessions *)
Theorem C87_every_layout_of_a_session : forall rp t s o w h t' ok, sensible_rounding rp -> session rp t s -> big_enough horizontal w (visible_part t') -> big_enough vertical h (visible_part t') ->
  evaluate rp o w h t = Some (t', ok) \/ (s <> None /\ resize rp o w h t = Some (t', ok)) ->
  ok = true /\ displayed o w h (visible_part t') /\ alike attributes (visible_part t') (visible_part t) /\ (forall d a, alignments d a (visible_part t') = alignments d a (visible_part t)) /\ hidden t' = hidden t /\
  forall d, ppos d (root t') = ppos d (root t).
Proof.
  intros rp t s o w h t' ok RP S W H E. destruct (session_step _ _ _ _ _ _ _ _ RP S W H E) as (OK&S'&A&L&HI&P). conj; auto. destruct (session_good _ _ _ RP S') as (_&D&_). exact D.
Qed.
Theorem C87_heights_come_from_final_widths : forall rp t s, sensible_rounding rp -> session rp t (Some s) -> every (fun v _ => measured_from_width v) (visible_part t).
Proof. intros rp t [[o w] h] RP S. destruct (session_good _ _ _ RP S) as (_&[_ _ _ _ D]&_). exact D. Qed.
Example C87_example : length (hidden dialog4) = 1%nat /\ length (hidden dialog2) = 1%nat /\ map (fun t => plen horizontal (root t)) (hidden dialog2) = [0].
Proof. vm_compute. auto. Qed.
(** Resized without being evaluated after a view is hidden, a form does not get smaller *)
Theorem C87_resize_after_hiding_refuted : exists t t' , session exact_rounding t None /\ resize exact_rounding evaluate_flat 0 0 t = Some (t', true) /\ natural horizontal (visible_part t') < plen horizontal (root t').
Proof.
  set (hidden3 := match dialog1 with Node v (r :: rest) => Node v (hide r :: rest) | t => t end).
  exists hidden3, (run_of (resize exact_rounding evaluate_flat 0 0) hidden3). split; [|split; vm_compute; reflexivity].
  apply (session_shown exact_rounding dialog1 (Some (evaluate_flat, 0, 0)) hidden3); [exact dialog_session1 | vm_compute; reflexivity].
Qed.
(** A container that gives its children no alignment (align_default) lets them move at each evaluation *)
Theorem C87_default_alignment_refuted : exists t, let f := run_of (evaluate exact_rounding evaluate_flat 0 0) in sees (f t) <> sees (f (f t)).
Proof.
  exists (group place_column (3, 3) [] align_forward align_forward align_forward align_forward [group place_column (0, 0) [] align_forward align_forward align_default align_forward [item 5 5 align_default align_forward]]).
  vm_compute. discriminate.
Qed.
