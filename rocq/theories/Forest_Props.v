(** Properties C14-C16, C47, C48: adobe::forest. *)
From Coq Require Import Permutation.
From Verif Require Import Prelude Forest_Model Forest_Spec Forest_WalkSpec Forest_Words Forest_Links Forest_Inv Forest_Ops Forest_Ops2 Forest_Ops3 Forest_Ops4 Forest_Ops5 Forest_Top Forest_Walk Forest_Vals.
Ltac Zify.zify_post_hook ::= idtac.

Lemma reaches_rel {T} (eqb : T -> T -> bool) ops s xs m : reaches eqb ops s xs m -> rel m s.
Proof.
  intros (St & N & HN). destruct (run_sim eqb _ _ _ _ _ St rel_init) as (N' & m' & E' & R').
  specialize (HN (N + N') ltac:(lia)). rewrite (E' (N + N') ltac:(lia)) in HN. injection HN as <-. exact R'.
Qed.

Lemma rel_alive {T} (m : mstate (T := T)) s n : rel m s ->
  (get (mstore m) n <> None <-> exists k r w, nth_error (words s) k = Some (r, w) /\ (n = r \/ In (lead n) w)).
Proof.
  intros R. pose proof (r_inv _ _ R) as I.
  assert (Hg : get (mstore m) n <> None <-> dat (mstore m) n <> None).
  { unfold dat. destruct (get (mstore m) n); cbn [option_map]; split; congruence. }
  rewrite Hg. split.
  - intros H. destruct (i_out _ _ _ I n H) as [(k & [r w] & Hk & Hi)|[]]. exists k, r, w. split; [exact Hk|].
    apply in_circle in Hi. destruct Hi as [E|[Hi|E]]; [left; injection E as ->; reflexivity|auto|discriminate].
  - intros (k & r & w & Hk & Hn). change n with (fst (lead n)). rewrite (i_in _ _ _ I (lead n)); [congruence|].
    left. exists k, (r, w). split; [exact Hk|]. apply in_circle. destruct Hn as [->|Hn]; auto.
Qed.

Lemma filter_length_le {A} (p : A -> bool) l : length (filter p l) <= length l.
Proof. induction l as [|x l IH]; [reflexivity|]. cbn [filter]. destruct (p x); cbn [length]; lia. Qed.
Lemma seq_shift_n k a n : map (fun i => k + i) (seq a n) = seq (k + a) n.
Proof. revert a; induction n as [|n IH]; intros a; cbn; [reflexivity|]. rewrite IH. do 2 f_equal. lia. Qed.
Lemma map_nth_seq {A} (d : A) l : map (fun i => nth i l d) (seq 0 (length l)) = l.
Proof.
  induction l as [|x l IH]; [reflexivity|]. cbn [length seq map nth]. f_equal. rewrite <- seq_shift, map_map. exact IH.
Qed.

(** C14. Every history of operations allowed by the specification runs on the linked
    node representation without undefined behaviour, with the specified results;
    afterwards the walk from begin() to end() over forest k is the specified word, the
    walk back from end() is its reverse, every node dereferences to the value it was
    created with, and the nodes still allocated are exactly those of the forests (nothing
    leaked, nothing freed that is still in use). *)
Theorem C14_forest_operations_refine_ordered_trees :
  forall (T : Type) (eqb : T -> T -> bool) (ops : list fop) (s : sstate T) (xs : list fout),
    ssteps eqb ops (SS [] []) s xs ->
    exists m, reaches eqb ops s xs m /\
      length (forests m) = length (words s) /\
      (forall k r w, at_ s k (r, w) ->
         exists f, nth_error (forests m) k = Some f /\ root f = lead r /\ end_ f = trail r /\
           steps (increment (mstore m)) (root f) w (end_ f) /\
           steps (decrement (mstore m)) (end_ f) (rev w) (root f) /\
           nested w /\ NoDup w /\
           (forall i, In i w -> deref (mstore m) i = nth (fst i) (vals s) None /\ deref (mstore m) i <> None)) /\
      (forall n, get (mstore m) n <> None <->
         exists k r w, at_ s k (r, w) /\ (n = r \/ In (lead n) w)) /\
      (forall k1 k2 r1 r2 w1 w2 i, at_ s k1 (r1, w1) -> at_ s k2 (r2, w2) -> In i w1 -> In i w2 -> k1 = k2).
Proof.
  intros T eqb ops s xs St. destruct (run_sim eqb _ _ _ _ _ St rel_init) as (N & m & E & R).
  exists m. split; [split; [exact St|exists N; exact E]|]. split; [exact (r_len _ _ R)|]. pose proof (r_inv _ _ R) as I.
  split; [|split].
  - intros k r w Hk. destruct (rel_at _ _ _ _ R Hk) as (f & Ef & Ff). exists f. split; [exact Ef|].
    pose proof (proj1 Ff) as Et. cbn [fst] in Et. unfold root, end_. rewrite Et. split; [reflexivity|]. split; [reflexivity|].
    split; [exact (walk_forward _ _ _ _ _ R Hk)|]. split; [exact (walk_backward _ _ _ _ _ R Hk)|].
    split; [exact (i_nested _ _ _ I _ _ _ Hk)|].
    split; [pose proof (i_nodup _ _ _ I _ _ _ Hk) as Hd; apply nodup_circle in Hd; exact (proj1 Hd)|].
    intros i Hi. destruct (i_some _ _ _ I i) as (v & Hv); [left; exists k, r, w; auto|].
    assert (Ed : deref (mstore m) i = nth (fst i) (vals s) None).
    { rewrite deref_dat, (i_in _ _ _ I i); [reflexivity|]. left. eapply mem_at; [exact Hk|]. apply in_circle. auto. }
    split; [exact Ed|]. rewrite Ed, Hv. discriminate.
  - intros n. exact (rel_alive m s n R).
  - intros k1 k2 r1 r2 w1 w2 i H1 H2 Hi1 Hi2. apply (i_disj _ _ _ I k1 k2 (r1, w1) (r2, w2) i H1 H2); apply in_circle; auto.
Qed.
Print Assumptions C14_forest_operations_refine_ordered_trees.

(** The words of the specification are exactly the fullorder words of lists of trees,
    each of one list only. *)
Theorem C14_words_are_ordered_trees :
  forall w : word, nested w <-> exists! ts, w = forest_word ts.
Proof.
  intros w. split.
  - intros H. destruct (nested_forest w H) as (ts & ->). exists ts. split; [reflexivity|]. intros us. apply forest_word_inj.
  - intros (ts & -> & _). apply nested_forest_word.
Qed.
Print Assumptions C14_words_are_ordered_trees.

Lemma ss_next {T} (eqb : T -> T -> bool) o o' ops s s1 s2 x x' xs :
  sstep eqb o s s1 x -> o = o' -> x = x' -> ssteps eqb ops s1 s2 xs -> ssteps eqb (o' :: ops) s s2 (x' :: xs).
Proof. intros H <- <- Hs. econstructor; eauto. Qed.
Tactic Notation "sstep_by" uconstr(t) := eapply ss_next; [eapply t; try discriminate; reflexivity|reflexivity|reflexivity|
   cbn [words vals upd app length nth fst snd map filter option_map without inside_both existsb lead trail renumber]].

(** A history over three forests: 2 is a copy of 1 made before the splice. *)
Definition demo : list (fop (T := nat)) :=
  [FNew; FInsert 0 (trail 0) 10; FInsert 0 (trail 1) 20; FPushBack 0 30; FInsertParent 0 (lead 1) (trail 0) 40;
   FNew; FInsert 1 (trail 5) 50; FCopy 1; FEqual 1 2; FSpliceNode 0 (lead 1) 1 (lead 6);
   FErase 0 (lead 1); FSize 0; FReverseChildren 0 4; FParent 0 (lead 2); FEqual 1 2;
   FTransform 1 (trail 5) 0 (lead 4) (trail 0) S].
Example C14_nonvacuous :
  exists s, ssteps Nat.eqb demo (SS [] []) s
    [FNothing; FIter (lead 1); FIter (lead 2); FNothing; FIter (lead 4); FNothing; FIter (lead 6); FNothing;
     FBool true; FIter (lead 6); FIter (lead 2); FNum 4; FNothing; FIter (trail 4); FBool false; FNothing].
Proof.
  eexists. unfold demo.
  sstep_by (@s_new nat Nat.eqb).
  sstep_by (@s_insert nat Nat.eqb _ 0 0 [] [] 10).
  sstep_by (@s_insert nat Nat.eqb _ 0 0 [lead 1] [trail 1] 20).
  sstep_by (@s_push_back nat Nat.eqb _ 0).
  sstep_by (@s_insert_parent nat Nat.eqb _ 0 0 [] [lead 1; lead 2; trail 2; trail 1; lead 3; trail 3] [] 40).
  sstep_by (@s_new nat Nat.eqb).
  sstep_by (@s_insert nat Nat.eqb _ 1 5 [] [] 50).
  sstep_by (@s_copy nat Nat.eqb _ 1).
  sstep_by (@s_equal nat Nat.eqb _ 1 2).
  sstep_by (@s_splice_node nat Nat.eqb _ 0 1 0 [lead 4] [lead 1; lead 2; trail 2; trail 1; lead 3; trail 3; trail 4] 5 [] 6 true [] []).
  sstep_by (@s_erase nat Nat.eqb _ 0 0 [lead 4; lead 6; trail 6] 1 true [lead 2; trail 2; trail 1; lead 3; trail 3; trail 4]).
  sstep_by (@s_size nat Nat.eqb _ 0).
  sstep_by (@s_reverse nat Nat.eqb _ 0 0 _ [lead 0] 4 [TNode 6 []; TNode 2 []; TNode 3 []] [trail 0] [lead 4; lead 3; trail 3; lead 2; trail 2; lead 6; trail 6; trail 4]).
  sstep_by (@s_parent nat Nat.eqb _ 0 0 _ [lead 0] 4 [TNode 3 []] 2 [] [TNode 6 []] [trail 0]).
  sstep_by (@s_equal nat Nat.eqb _ 1 2).
  sstep_by (@s_transform nat Nat.eqb _ 1 0 5 [] [] 0 [] [lead 4; lead 3; trail 3; lead 2; trail 2; lead 6; trail 6; trail 4] [] S).
  apply ss_nil.
Qed.

(** C15. Traversals of forest k of any reachable state, whose trees are [ts]:
    fullorder, backwards, preorder, postorder, depth, reverse and filtered ranges visit
    exactly the edges they should, in order. *)
Theorem C15_traversals :
  forall (T : Type) (eqb : T -> T -> bool) ops (s : sstate T) xs m k r w,
    reaches eqb ops s xs m -> at_ s k (r, w) ->
    exists ts f, w = forest_word ts /\ nth_error (forests m) k = Some f /\ end_ f = trail r /\
    let h := mstore m in
    forall fuel, length w + 2 < fuel ->
    exists b, begin h f = Some b /\
      (* fullorder *)
      visit_loop fuel (increment h) (fun i => iter_eqb i (end_ f)) b = Some (forest_word ts) /\
      (* preorder_range: edge_iterator(begin), edge_iterator(end) *)
      (exists first last, find_edge fuel h b true = Some first /\ find_edge fuel h (end_ f) true = Some last /\
         visit_loop fuel (edge_increment fuel h true) (fun i => iter_eqb i last) first = Some (map lead (flat_map preorder ts))) /\
      (* postorder_range *)
      (exists first last, find_edge fuel h b false = Some first /\ find_edge fuel h (end_ f) false = Some last /\
         visit_loop fuel (edge_increment fuel h false) (fun i => iter_eqb i last) first = Some (map trail (flat_map postorder ts))) /\
      (* depth_range *)
      visit_loop fuel (depth_increment h) (fun i => iter_eqb (fst i) (end_ f)) (b, 0%Z) = Some (flat_map (depth_word 0) ts) /\
      (* reverse_fullorder_range: the fullorder of the mirror image *)
      (exists first last l, reverse_make h (end_ f) = Some first /\ reverse_make h b = Some last /\
         visit_loop fuel (reverse_increment h)
           (fun i => (iter_eqb (fst i) (fst last) && Bool.eqb (snd i) (snd last))%bool) first = Some l /\
         map (fun i => (fst (fst i), snd i)) l = forest_word (rev (map mirror ts))) /\
      (* filter_fullorder_range *)
      (forall p, exists first,
         skip_forward fuel h p b (end_ f) = Some first /\ skip_forward fuel h p (end_ f) (end_ f) = Some (end_ f) /\
         visit_loop fuel (filter_increment fuel h p b (end_ f)) (fun i => iter_eqb (fst i) (end_ f)) (first, true)
         = Some (map (fun i => (i, true)) (forest_word (flat_map
             (prune (fun n => match nth n (vals s) None with Some v => p v | None => false end)) ts)))).
Proof.
  intros T eqb ops s xs m k r w Hr Hk. pose proof (reaches_rel _ _ _ _ _ Hr) as R. pose proof (r_inv _ _ R) as I.
  destruct (rel_at _ _ _ _ R Hk) as (f & Ef & Ff). pose proof (proj1 Ff) as Et. cbn [fst] in Et.
  destruct (nested_forest w (i_nested _ _ _ I _ _ _ Hk)) as (ts & Ew).
  exists ts, f. split; [exact Ew|]. split; [exact Ef|]. unfold end_. rewrite Et. split; [reflexivity|].
  set (h := mstore m) in *. intros fuel Hf. exists (hd (trail r) w). split; [exact (begin_ok _ _ _ _ _ _ _ I Hk Et)|].
  assert (Hk0 : nth_error (words s) k = Some (r, [] ++ w)) by exact Hk.
  assert (Hke : nth_error (words s) k = Some (r, w ++ [])) by (rewrite app_nil_r; exact Hk).
  split; [|split; [|split; [|split; [|split]]]].
  - rewrite <- Ew. apply visits_loop; [|lia]. exact (fullorder_visits h s k r w I Hk w [] eq_refl).
  - exists (next_lead r w), (next_lead r []). split; [|split].
    + apply (find_edge_ok h s [] k r w [] I Hk0). lia.
    + apply (find_edge_ok h s [] k r [] w I Hke). cbn; lia.
    + rewrite <- preorder_word, <- Ew. apply visits_loop.
      * apply (preorder_visits h s k r w I Hk w [] fuel eq_refl). lia.
      * eapply Nat.le_lt_trans; [apply filter_length_le|]. change (@length iter w < fuel). lia.
  - exists (next_trail r w), (next_trail r []). split; [|split].
    + apply (find_trail_ok h s k r w I Hk w [] fuel eq_refl). lia.
    + apply (find_trail_ok h s k r w I Hk [] w fuel); [now rewrite app_nil_r|cbn; lia].
    + rewrite <- postorder_word, <- Ew. apply visits_loop.
      * apply (postorder_visits h s k r w I Hk w [] fuel eq_refl). lia.
      * eapply Nat.le_lt_trans; [apply filter_length_le|]. change (@length iter w < fuel). lia.
  - pose proof (dw_forest ts 0 []) as Ed. rewrite !app_nil_r in Ed. rewrite <- Ed, <- Ew.
    apply visits_loop.
    + apply (depth_visits h s k r w I Hk w [] 0%Z 0%Z eq_refl). intros n e b' E.
      destruct e; [reflexivity|]. pose proof (i_nested _ _ _ I _ _ _ Hk) as Hn. rewrite E in Hn. discriminate.
    + assert (Hl : forall u H, length (dw H u) = length u).
      { induction u as [|[n [|]] u IH]; intros H; cbn [dw length]; [reflexivity| |]; now rewrite IH. }
      rewrite Hl. lia.
  - exists (rstate (last w (lead r))), (rstate (lead r)), (map rstate (rev w)). split; [|split; [|split]].
    + pose proof (inv_decr _ _ _ _ _ _ _ I Hke) as Hd. cbn [hd] in Hd. unfold reverse_make. rewrite Hd. reflexivity.
    + pose proof (inv_decr _ _ _ _ _ _ _ I Hk0) as Hd. unfold reverse_make. rewrite Hd. reflexivity.
    + apply visits_loop; [|rewrite map_length, rev_length; lia].
      pose proof (reverse_visits h s k r w I Hk w [] ltac:(now rewrite app_nil_r)) as V. exact V.
    + rewrite mirror_word, <- Ew, map_map. apply map_ext. intros [n e]. reflexivity.
  - intros p.
    assert (Eh : forall n, (match nth n (vals s) None with Some v => p v | None => false end) = holds s p n) by reflexivity.
    destruct (filter_visits h s k r w I Hk p fuel (hd (trail r) w) ts [] [] (trail r) []) as (i' & S1 & V1).
    + cbn [app]. rewrite app_nil_r. exact Ew.
    + lia.
    + intros g Hg. destruct g as [|g]; [cbn in Hg; lia|]. reflexivity.
    + cbn [visits fst]. apply iter_eqb_refl.
    + rewrite app_nil_r in S1. rewrite <- Ew in S1. exists i'. split; [apply S1; lia|]. split.
      { destruct fuel as [|fuel]; [lia|]. reflexivity. }
      rewrite app_nil_r in V1. apply visits_loop; [exact V1|]. rewrite map_length.
      assert (Hl : length (forest_word (flat_map (prune (holds s p)) ts)) <= length (forest_word ts)).
      { clear. induction ts as [|n kids ts IH1 IH2] using trees_ind; [reflexivity|].
        cbn [flat_map prune]. rewrite fw_cons. cbn [length]. rewrite app_length. cbn [length].
        destruct (holds s p n); cbn [app]; [|lia]. rewrite fw_cons. cbn [length]. rewrite app_length. cbn [length]. lia. }
      rewrite <- Ew in Hl. change (fun n : nat => match nth n (vals s) None with Some v => p v | None => false end) with (holds s p). lia.
Qed.
Print Assumptions C15_traversals.

(** C15. Each node is met once on each edge: the fullorder word of forest k has no
    repetition, contains the trailing edge of a node iff it contains the leading one,
    and decrement undoes increment everywhere on it. *)
Theorem C15_each_edge_once_and_reversible :
  forall (T : Type) (eqb : T -> T -> bool) ops (s : sstate T) xs m k r w,
    reaches eqb ops s xs m -> at_ s k (r, w) ->
    NoDup w /\ (forall n, In (lead n) w <-> In (trail n) w) /\
    (forall a i b, w = a ++ i :: b ->
       exists j, increment (mstore m) i = Some j /\ decrement (mstore m) j = Some i).
Proof.
  intros T eqb ops s xs m k r w Hr Hk. pose proof (reaches_rel _ _ _ _ _ Hr) as R. pose proof (r_inv _ _ R) as I.
  split; [pose proof (i_nodup _ _ _ I _ _ _ Hk) as Hd; apply nodup_circle in Hd; exact (proj1 Hd)|].
  split; [intros n; apply nested_both; exact (i_nested _ _ _ I _ _ _ Hk)|].
  intros a i b E. unfold at_ in Hk. rewrite E in Hk. exists (hd (trail r) b). split; [exact (inv_step _ _ _ _ _ _ _ _ I Hk)|].
  assert (Hk2 : nth_error (words s) k = Some (r, (a ++ [i]) ++ b)) by (rewrite Hk; now lapp).
  pose proof (inv_decr _ _ _ _ _ _ _ I Hk2) as Hd. rewrite last_app_cons in Hd. exact Hd.
Qed.
Print Assumptions C15_each_edge_once_and_reversible.

(** C15. The child range of any node p (or of the root) visits its children in order,
    and child iterators step back. *)
Theorem C15_child_range :
  forall (T : Type) (eqb : T -> T -> bool) ops (s : sstate T) xs m k r w a p ts b,
    reaches eqb ops s xs m -> at_ s k (r, w) ->
    circle (r, w) = a ++ lead p :: forest_word ts ++ trail p :: b ->
    forall fuel, length ts < fuel ->
    exists first, child_begin (mstore m) (lead p) = Some first /\
      visit_loop fuel (child_increment (mstore m)) (fun i => iter_eqb i (child_end (lead p))) first
      = Some (map (fun t => lead (root_id t)) ts) /\
      (forall n, In n (map root_id ts) ->
         exists j, child_increment (mstore m) (lead n) = Some j /\ child_decrement (mstore m) j = Some (lead n)).
Proof.
  intros T eqb ops s xs m k r w a p ts b Hr Hk E fuel Hf. pose proof (reaches_rel _ _ _ _ _ Hr) as R. pose proof (r_inv _ _ R) as I.
  exists (hd (trail p) (forest_word ts)). split; [|split].
  - unfold child_begin. change (leading_of (lead p)) with (lead p). exact (step_to _ _ _ _ _ I Hk _ _ _ _ _ E).
  - apply visits_loop; [|rewrite map_length; exact Hf].
    apply (children_visits _ _ _ _ _ I Hk p ts (a ++ [lead p]) b). rewrite E. now lapp.
  - intros n Hn. apply in_map_iff in Hn. destruct Hn as ([n' kids] & <- & Hin). cbn [root_id].
    apply in_split in Hin. destruct Hin as (ts1 & ts2 & ->).
    rewrite forest_word_app, forest_word_cons in E.
    eapply (child_back _ _ _ _ _ I Hk (a ++ lead p :: forest_word ts1) n' kids (forest_word ts2 ++ trail p :: b)).
    + rewrite E. now lapp.
    + destruct (forest_word ts2); discriminate.
Qed.
Print Assumptions C15_child_range.

Example C15_nonvacuous :
  match mrun Nat.eqb 20 demo (MS [] []) with
  | Some (m, _) =>
    visit_loop 30 (edge_increment 30 (mstore m) false) (fun i => iter_eqb i (trail 0)) (trail 3) = Some [trail 3; trail 2; trail 6; trail 4] /\
    visit_loop 30 (depth_increment (mstore m)) (fun i => iter_eqb (fst i) (trail 0)) (lead 4, 0%Z)
    = Some (flat_map (depth_word 0) [TNode 4 [TNode 3 []; TNode 2 []; TNode 6 []]])
  | None => False end.
Proof. vm_compute. split; reflexivity. Qed.

(** C16. erase(first,last) on any reachable forest, for any fullorder range [u]: the
    nodes with both edges in [u] disappear and are freed, and nothing else changes; the
    size() reported afterwards is the number of remaining nodes. *)
Theorem C16_erase_range :
  forall (T : Type) (eqb : T -> T -> bool) ops (s : sstate T) xs m k r a u b f,
    reaches eqb ops s xs m -> at_ s k (r, a ++ u ++ b) -> nth_error (forests m) k = Some f ->
    let both n := (existsb (iter_eqb (lead n)) u && existsb (iter_eqb (trail n)) u)%bool in
    let w' := filter (fun i : iter => negb (both (fst i))) (a ++ u ++ b) : word in
    exists N h' f', (forall fuel, N <= fuel ->
        erase_range fuel (mstore m) f (hd (end_ f) (u ++ b)) (hd (end_ f) b) = Some (h', f', hd (end_ f) b) /\
        visit_loop fuel (increment h') (fun i => iter_eqb i (end_ f)) (hd (end_ f) w') = Some w' /\
        exists f'', size fuel h' f' = Some (f'', node_count w')) /\
      begin h' f' = Some (hd (end_ f) w') /\
      (forall n, get h' n <> None <-> get (mstore m) n <> None /\ both n = false) /\
      (forall n v, get h' n <> None -> (deref h' (lead n) = v <-> deref (mstore m) (lead n) = v)).
Proof.
  intros T eqb ops s xs m k r a u b f Hr Hk Hf both w'. pose proof (reaches_rel _ _ _ _ _ Hr) as R. pose proof (r_inv _ _ R) as I.
  destruct (rel_at _ _ _ _ R Hk) as (f0 & Ef0 & Ff). rewrite Hf in Ef0. injection Ef0 as <-.
  pose proof (proj1 Ff) as Et. cbn [fst] in Et. unfold end_. rewrite Et.
  assert (Hnd : NoDup (a ++ u ++ b)).
  { pose proof (i_nodup _ _ _ I _ _ _ Hk) as Hd. apply nodup_circle in Hd. exact (proj1 Hd). }
  assert (Hbin : forall n, both n = true <-> In (lead n) u /\ In (trail n) u).
  { intros n. unfold both. rewrite andb_true_iff, !existsb_exists. split.
    - intros ((x & Hx & Ex) & (y & Hy & Ey)). destruct (iter_eqb_spec (lead n) x) as [<-|]; [|discriminate].
      destruct (iter_eqb_spec (trail n) y) as [<-|]; [|discriminate]. auto.
    - intros (Hx & Hy). split; [exists (lead n)|exists (trail n)]; (split; [assumption|apply iter_eqb_refl]). }
  assert (Ew' : w' = a ++ without (inside_both u) u ++ b).
  { unfold w'. change (filter (fun i => negb (both (fst i))) (a ++ u ++ b)) with (without both (a ++ u ++ b)). rewrite !without_app.
    apply nodup_app_iff in Hnd. destruct Hnd as (_ & Hub & Hda). apply nodup_app_iff in Hub. destruct Hub as (_ & _ & Hdb).
    f_equal; [|f_equal].
    - apply without_all. intros [n e] Hi. destruct (both (fst (n, e))) eqn:B; [|reflexivity]. exfalso.
      apply Hbin in B. cbn [fst] in B. apply (Hda (n, e) Hi), in_or_app. left. destruct e; tauto.
    - apply without_all. intros [n e] Hi. destruct (both (fst (n, e))) eqn:B; [|reflexivity]. exfalso.
      apply Hbin in B. cbn [fst] in B. apply (Hdb (n, e)); [destruct e; tauto|exact Hi]. }
  destruct (erase_range_ok (mstore m) s f k r a u b I Hk Ff) as (h' & f' & E & I' & F'). rewrite <- Ew' in I', F'.
  set (s' := SS (upd (words s) k (r, w')) (vals s)) in *.
  assert (Hk' : nth_error (words s') k = Some (r, w')) by (unfold s'; cbn [words]; exact (nth_upd_same _ _ _ _ Hk)).
  destruct (size_ok h' s' k f' r w' I' Hk' F') as (f'' & Es & _).
  assert (R' : rel (MS h' (upd (forests m) k f')) s') by (eapply rel_upd1; eauto).
  exists (length (a ++ u ++ b) + 3), h', f'.
  assert (Hw'len : length w' <= length (a ++ u ++ b)) by (unfold w'; apply filter_length_le).
  split; [|split; [|split]].
  - intros fuel Hfu. split; [|split].
    + apply E. rewrite !app_length in Hfu. lia.
    + apply visits_loop; [|lia]. exact (fullorder_visits h' s' k r w' I' Hk' w' [] eq_refl).
    + exists f''. apply Es. lia.
  - exact (begin_ok _ _ _ _ _ _ _ I' Hk' (proj1 F')).
  - intros n. change h' with (mstore (MS h' (upd (forests m) k f'))). rewrite (rel_alive _ _ n R'), (rel_alive _ _ n R).
    assert (Hinw : In (lead n) w' <-> In (lead n) (a ++ u ++ b) /\ both n = false).
    { unfold w'. rewrite filter_In. cbn [fst lead]. change (fst (lead n)) with n. rewrite negb_true_iff. tauto. }
    assert (Hboth : forall n, both n = true -> In (lead n) (a ++ u ++ b)).
    { intros n0 B. apply Hbin in B. rewrite !in_app_iff. tauto. }
    split.
    + intros (j & r0 & w0 & Hj & Hn). unfold s' in Hj; cbn [words] in Hj. apply nth_upd_cases in Hj.
      destruct Hj as [(-> & E0)|(Hj & Hj0)].
      * injection E0 as -> ->. destruct Hn as [->|Hn].
        { split; [exists k, r, (a ++ u ++ b); auto|]. destruct (both r) eqn:B; [|reflexivity]. exfalso.
          apply Hboth in B. pose proof (i_nodup _ _ _ I _ _ _ Hk) as Hd. apply nodup_circle in Hd. tauto. }
        { apply Hinw in Hn. destruct Hn as (Hn & B). split; [exists k, r, (a ++ u ++ b); auto|exact B]. }
      * split; [exists j, r0, w0; auto|]. destruct (both n) eqn:B; [|reflexivity]. exfalso. apply Hj.
        apply Hboth in B. apply (i_disj _ _ _ I j k (r0, w0) (r, a ++ u ++ b) (lead n) Hj0 Hk); apply in_circle; [|auto].
        destruct Hn as [->|Hn]; auto.
    + intros ((j & r0 & w0 & Hj & Hn) & B). destruct (Nat.eq_dec j k) as [->|Hjk].
      * unfold at_ in Hk. rewrite Hk in Hj. injection Hj as <- <-. exists k, r, w'. split; [exact Hk'|].
        destruct Hn as [->|Hn]; [auto|]. right. apply Hinw. auto.
      * exists j, r0, w0. split; [|exact Hn]. unfold s'; cbn [words]. rewrite nth_error_upd_other by congruence. exact Hj.
  - intros n v Hn.
    assert (Hd1 : dat h' n = Some (nth n (vals s) None)).
    { change h' with (mstore (MS h' (upd (forests m) k f'))) in Hn. rewrite (rel_alive _ _ n R') in Hn.
      destruct Hn as (j & r0 & w0 & Hj & Hn). change n with (fst (lead n)) at 1. rewrite (i_in _ _ _ I' (lead n)); [reflexivity|].
      left. exists j, (r0, w0). split; [exact Hj|]. apply in_circle. destruct Hn as [->|Hn]; auto. }
    assert (Hd2 : dat (mstore m) n = Some (nth n (vals s) None)).
    { change h' with (mstore (MS h' (upd (forests m) k f'))) in Hn. rewrite (rel_alive _ _ n R') in Hn.
      destruct Hn as (j & r0 & w0 & Hj & Hn). change n with (fst (lead n)) at 1. rewrite (i_in _ _ _ I (lead n)); [reflexivity|].
      left. unfold s' in Hj; cbn [words] in Hj. apply nth_upd_cases in Hj. destruct Hj as [(-> & E0)|(_ & Hj)].
      - injection E0 as -> ->. exists k, (r, a ++ u ++ b). split; [exact Hk|]. apply in_circle. destruct Hn as [->|Hn]; [auto|].
        right; left. unfold w' in Hn. apply filter_In in Hn. tauto.
      - exists j, (r0, w0). split; [exact Hj|]. apply in_circle. destruct Hn as [->|Hn]; auto. }
    rewrite !deref_dat. cbn [fst lead]. rewrite Hd1, Hd2. tauto.
Qed.
Print Assumptions C16_erase_range.

(** A range that cuts through node 1: node 2 and 3 are erased, 1 and 4 stay. *)
Example C16_nonvacuous :
  exists s xs, ssteps Nat.eqb [FNew; FInsert 0 (trail 0) 10; FInsert 0 (trail 1) 20; FInsert 0 (trail 1) 30; FInsert 0 (trail 0) 40]
     (SS [] []) s xs /\
    at_ s 0 (0, [lead 1] ++ [lead 2; trail 2; lead 3; trail 3; trail 1] ++ [lead 4; trail 4]).
Proof.
  eexists. eexists. split.
  - sstep_by (@s_new nat Nat.eqb).
    sstep_by (@s_insert nat Nat.eqb _ 0 0 [] [] 10).
    sstep_by (@s_insert nat Nat.eqb _ 0 0 [lead 1] [trail 1] 20).
    sstep_by (@s_insert nat Nat.eqb _ 0 0 [lead 1; lead 2; trail 2] [trail 1] 30).
    sstep_by (@s_insert nat Nat.eqb _ 0 0 [lead 1; lead 2; trail 2; lead 3; trail 3; trail 1] [] 40).
    apply ss_nil.
  - reflexivity.
Qed.

(** C47 (part). reverse(child_begin(p), child_end(p)), for any node p of any reachable
    forest or its root, reverses the order of p's children, each keeping its subtree.
    Missing: child ranges that end before child_end, for which it is false. *)
Theorem C47_reverse_children_partial :
  forall (T : Type) (eqb : T -> T -> bool) ops (s : sstate T) xs m k r w a p ts b,
    reaches eqb ops s xs m -> at_ s k (r, w) ->
    circle (r, w) = a ++ lead p :: forest_word ts ++ trail p :: b ->
    exists h' first, child_begin (mstore m) (lead p) = Some first /\
      (forall fuel, length ts < fuel -> reverse fuel (mstore m) first (child_end (lead p)) = Some h') /\
      forall i j A B, a ++ lead p :: forest_word (rev ts) ++ trail p :: b = A ++ i :: j :: B ->
        increment h' i = Some j /\ decrement h' j = Some i.
Proof.
  intros T eqb ops s xs m k r w a p ts b Hr Hk E. pose proof (reaches_rel _ _ _ _ _ Hr) as R. pose proof (r_inv _ _ R) as I.
  assert (Hw' : exists w', circle (r, w') = a ++ lead p :: forest_word (rev ts) ++ trail p :: b).
  { unfold circle in *. cbn [fst snd] in *. destruct a as [|x a].
    - cbn [app] in E. injection E as -> E. exists (forest_word (rev ts)). cbn [app]. f_equal.
      assert (Hn : nested w) by exact (i_nested _ _ _ I _ _ _ Hk).
      destruct (forest_word_cons_cancel (S (length w)) w (forest_word ts) [] b p ltac:(lia) Hn (nested_forest_word ts)) as (_ & <-); [exact E|].
      reflexivity.
    - cbn [app] in E. injection E as <- E. destruct (rev b) as [|y b'] eqn:Eb.
      + assert (b = []) by (rewrite <- (rev_involutive b), Eb; reflexivity). subst b.
        exists (a ++ lead p :: forest_word (rev ts)). cbn [app]. f_equal.
        change [trail p] with ([] ++ [trail p]) in E. rewrite ?app_comm_cons, ?app_assoc in E.
        assert (E2 : w ++ [trail r] = (a ++ lead p :: forest_word ts) ++ [trail p]) by (rewrite E; now lapp).
        apply app_inj_tail in E2. destruct E2 as (_ & E2). injection E2 as ->. now lapp.
      + assert (Eb2 : b = rev b' ++ [y]) by (rewrite <- (rev_involutive b), Eb; reflexivity). subst b.
        exists (a ++ lead p :: forest_word (rev ts) ++ trail p :: rev b'). cbn [app]. f_equal.
        assert (E2 : w ++ [trail r] = (a ++ lead p :: forest_word ts ++ trail p :: rev b') ++ [y]) by (rewrite E; now lapp).
        apply app_inj_tail in E2. destruct E2 as (_ & <-). now lapp. }
  destruct Hw' as (w' & Ew').
  destruct (reverse_ok (mstore m) s k r w a p ts b w' I Hk E Ew') as (h' & Er & I').
  assert (Hb : exists first, child_begin (mstore m) (lead p) = Some first).
  { specialize (Er (S (length ts)) ltac:(lia)). destruct (child_begin (mstore m) (lead p)) as [x|]; [eauto|discriminate]. }
  destruct Hb as (first & Hb). exists h', first. split; [exact Hb|]. split.
  - intros fuel Hf. specialize (Er fuel Hf). rewrite Hb in Er. exact Er.
  - intros i j A B EE. rewrite <- Ew' in EE.
    pose proof (nth_upd_same (words s) k (r, w') (r, w) Hk) as Hk'.
    split; [eapply ring_increment|eapply ring_decrement];
      try exact (i_nested _ _ _ I' k r w' Hk'); try exact (i_nodup _ _ _ I' k r w' Hk'); try exact (i_ring _ _ _ I' k r w' Hk'); exact EE.
Qed.
Print Assumptions C47_reverse_children_partial.

(** C47 refuted. Reversing the middle two of four siblings, reverse(i1, i3), corrupts the
    forest: the walk from begin() then meets node 4, the one after the range, on its
    trailing edge without ever meeting its leading edge. *)
Definition four : list (fop (T := nat)) := [FNew; FPushBack 0 10; FPushBack 0 20; FPushBack 0 30; FPushBack 0 40].
Theorem C47_reverse_inner_range_refuted :
  exists m h', mrun Nat.eqb 20 four (MS [] []) = Some (m, [FNothing; FNothing; FNothing; FNothing; FNothing]) /\
    reverse 20 (mstore m) (lead 2) (lead 4) = Some h' /\
    visit_loop 20 (increment (mstore m)) (fun i => iter_eqb i (trail 0)) (lead 1)
      = Some [lead 1; trail 1; lead 2; trail 2; lead 3; trail 3; lead 4; trail 4] /\
    exists l, visit_loop 20 (increment h') (fun i => iter_eqb i (trail 0)) (lead 1) = Some l /\
      In (trail 4) l /\ ~ In (lead 4) l.
Proof.
  eexists. eexists. split; [vm_compute; reflexivity|]. split; [vm_compute; reflexivity|]. split; [vm_compute; reflexivity|].
  eexists. split; [vm_compute; reflexivity|]. split; [cbn; tauto|].
  cbn. unfold lead, trail. intros H. repeat (destruct H as [H|H]; [discriminate|]). exact H.
Qed.
Print Assumptions C47_reverse_inner_range_refuted.

(** C48. f == x is true exactly when the two forests have the same trees of values
    (for an element equality that decides equality). *)
Theorem C48_equality_is_equality_of_value_trees :
  forall (T : Type) (eqb : T -> T -> bool) ops (s : sstate T) xs m k kx r rx ts us f x,
    (forall a b, eqb a b = true <-> a = b) ->
    reaches eqb ops s xs m ->
    at_ s k (r, forest_word ts) -> at_ s kx (rx, forest_word us) ->
    nth_error (forests m) k = Some f -> nth_error (forests m) kx = Some x ->
    exists N f' x' v, (forall fuel, N <= fuel -> equal eqb fuel (mstore m) f x = Some (f', x', v)) /\
      (v = true <-> map (valued (vals s)) ts = map (valued (vals s)) us).
Proof.
  intros T eqb ops s xs m k kx r rx ts us f x Heq Hr Hk Hkx Hf Hx.
  pose proof (reaches_rel _ _ _ _ _ Hr) as R. pose proof (r_inv _ _ R) as I.
  destruct (rel_at _ _ _ _ R Hk) as (f0 & Ef0 & Ff). rewrite Hf in Ef0. injection Ef0 as <-.
  destruct (rel_at _ _ _ _ R Hkx) as (x0 & Ex0 & Fx). rewrite Hx in Ex0. injection Ex0 as <-.
  destruct (equal_ok eqb (mstore m) s k kx f x r rx _ _ I Hk Hkx Ff Fx) as (f' & x' & E & _ & _).
  exists (length (forest_word ts) + length (forest_word us) + 2), f', x', (same_forest eqb (vals s) (forest_word ts) (forest_word us)).
  split; [intros fuel Hfu; apply E; lia|].
  rewrite <- (app_nil_r (forest_word ts)), <- (app_nil_r (forest_word us)).
  rewrite same_forest_trees; [cbn; tauto|exact Heq|intros ? ?; discriminate|intros ? ?; discriminate|].
  intros n Hn. destruct (i_some _ _ _ I (lead n)) as (v & Hv); [|change (fst (lead n)) with n in Hv; congruence].
  left. exists k, r, (forest_word ts). split; [exact Hk|].
  assert (Hi : In (lead n) (filter snd (forest_word ts))) by (rewrite preorder_word; now apply in_map).
  apply filter_In in Hi. tauto.
Qed.
Print Assumptions C48_equality_is_equality_of_value_trees.

(** C48. A copied forest has new nodes and the same trees of values. *)
Theorem C48_copy_has_the_same_value_trees :
  forall (T : Type) (eqb : T -> T -> bool) ops (s : sstate T) xs m kx rx ts,
    reaches eqb ops s xs m -> at_ s kx (rx, forest_word ts) ->
    exists s' m' r' us, reaches eqb (ops ++ [FCopy kx]) s' (xs ++ [FNothing]) m' /\
      words s' = words s ++ [(r', forest_word us)] /\
      map (valued (vals s')) us = map (valued (vals s)) ts /\
      (forall n, In n (flat_map preorder us) -> get (mstore m) n = None /\ get (mstore m') n <> None) /\
      (forall k, nth_error (words s') k = nth_error (words s) k \/ k = length (words s)) /\
      (forall n, n < length (vals s) -> nth n (vals s') None = nth n (vals s) None).
Proof.
  intros T eqb ops s xs m kx rx ts Hr Hkx.
  pose proof (reaches_rel _ _ _ _ _ Hr) as R. pose proof (r_inv _ _ R) as I.
  pose proof (i_nodup _ _ _ I _ _ _ Hkx) as Hd. apply nodup_circle in Hd. destruct Hd as (Hd & _).
  destruct (renumber_forest ts (S (length (vals s))) [] [] (nodup_ids ts Hd)) as (us & ren' & E & Sh & Pre & _).
  rewrite app_nil_r in E. cbn [renumber] in E. rewrite app_nil_r in E.
  pose proof (@s_copy T eqb s kx rx (forest_word ts) Hkx) as St. rewrite E in St.
  match type of St with sstep _ _ _ ?S' _ => set (s' := S') in * end.
  destruct Hr as (Hs & N & HN).
  destruct (step_sim eqb _ _ _ _ _ St R) as (N1 & m' & E1 & R').
  exists s', m', (length (vals s)), us. split; [|split; [|split; [|split; [|split]]]].
  - split.
    + clear - Hs St. revert Hs. generalize (SS (T := T) [] []) as s0. intros s0 Hs.
      induction Hs as [s0|o ops s0 s1 s2 x xs H Hs IH]; cbn [app].
      * econstructor; [exact St|constructor].
      * econstructor; [exact H|apply IH; exact St].
    + exists (N + N1). intros fuel Hfu. specialize (HN fuel ltac:(lia)). specialize (E1 fuel ltac:(lia)).
      clear - HN E1. revert HN. generalize (MS (T := T) [] []) as m0. revert xs.
      induction ops as [|o ops IH]; intros xs m0 HN; cbn [app mrun] in *.
      * injection HN as -> <-. rewrite E1. reflexivity.
      * destruct (mstep eqb fuel o m0) as [[m1 x]|]; [|discriminate].
        destruct (mrun eqb fuel ops m1) as [[m2 ys]|] eqn:E2; [|discriminate]. injection HN as -> <-.
        rewrite (IH _ _ E2). reflexivity.
  - reflexivity.
  - apply valued_shape; [exact Sh|]. rewrite Pre. unfold s'; cbn [vals].
    rewrite preorder_word, map_map. cbn [fst lead].
    set (vs := vals s). set (l := flat_map preorder ts).
    transitivity (map (fun i => nth i (map (fun n => nth n vs None) l) None) (seq 0 (length l))).
    + pose proof (seq_shift_n (S (length vs)) 0 (length l)) as Eq. rewrite Nat.add_0_r in Eq. rewrite <- Eq, map_map. apply map_ext_in. intros i Hi. apply in_seq in Hi.
      rewrite app_nth2 by lia. replace (S (length vs) + i - length vs) with (S i) by lia. cbn [nth]. reflexivity.
    + rewrite <- (map_length (fun n => nth n vs None) l). apply map_nth_seq.
  - intros n Hn. rewrite Pre in Hn. apply in_seq in Hn. split.
    + unfold get. replace (nth_error (mstore m) n) with (@None (option (node (T := T)))); [reflexivity|].
      symmetry. apply nth_error_None. rewrite (i_len _ _ _ I). lia.
    + rewrite (rel_alive _ _ n R'). exists (length (words s)), (length (vals s)), (forest_word us). split.
      * unfold s'; cbn [words]. rewrite nth_error_app2, Nat.sub_diag by lia. reflexivity.
      * right. assert (Hi : In (lead n) (filter snd (forest_word us))).
        { rewrite preorder_word. apply in_map. rewrite Pre. apply in_seq. exact Hn. }
        apply filter_In in Hi. tauto.
  - intros k. unfold s'; cbn [words]. destruct (lt_eq_lt_dec k (length (words s))) as [ [ Hlt | -> ] | Hgt ].
    + left. now apply nth_error_app1.
    + auto.
    + left. rewrite nth_error_app2 by lia. replace (k - length (words s)) with (S (k - length (words s) - 1)) by lia.
      cbn [nth_error]. transitivity (@None (nat * word)).
      * destruct (k - length (words s) - 1); reflexivity.
      * symmetry. apply nth_error_None. lia.
  - intros n Hn. unfold s'; cbn [vals]. now apply app_nth1.
Qed.
Print Assumptions C48_copy_has_the_same_value_trees.

Example C48_nonvacuous :
  match mrun Nat.eqb 30 (firstn 9 demo) (MS [] []) with
  | Some (m, xs) => nth 8 xs FNothing = FBool true | None => False end.
Proof. vm_compute. reflexivity. Qed.
