(** C106: the iterator adaptors of a forest are bidirectional. *)
From Coq Require Import Permutation.
From Verif Require Import Prelude Forest_Model Forest_Spec Forest_WalkSpec Forest_Words Forest_Links Forest_Inv Forest_Ops Forest_Ops2 Forest_Ops3 Forest_Ops4 Forest_Ops5 Forest_Vals Forest_Walk Forest_Top Forest_Props Forest_Back.
Ltac Zify.zify_post_hook ::= idtac.

(** ++ leads somewhere, and -- from there leads back. *)
Definition undone {S : Type} (next prior : S -> option S) (i : S) : Prop :=
  exists j, next i = Some j /\ prior j = Some i.

(** Forest k of any reachable state, whose trees are [ts]: at every position
    which the preorder, postorder, depth and reverse ranges visit, and every
    position which the filtered range visits, -- undoes ++. (The ranges visit
    what C15 says.)  For the filtered range this is said of iterators that were
    obtained by incrementing begin(). *)
Theorem C106_decrement_undoes_increment_partial :
  forall (T : Type) (eqb : T -> T -> bool) ops (s : sstate T) xs m k r w,
    reaches eqb ops s xs m -> at_ s k (r, w) ->
    exists ts f b, w = forest_word ts /\ nth_error (forests m) k = Some f /\ begin (mstore m) f = Some b /\
    let h := mstore m in
    forall fuel, length w + 1 < fuel ->
      (forall n, In n (flat_map preorder ts) -> undone (edge_increment fuel h true) (edge_decrement fuel h true) (lead n)) /\
      (forall n, In n (flat_map postorder ts) -> undone (edge_increment fuel h false) (edge_decrement fuel h false) (trail n)) /\
      (forall i, In i (flat_map (depth_word 0) ts) -> undone (depth_increment h) (depth_decrement h) i) /\
      (forall i, In i w -> undone (reverse_increment h) (reverse_decrement h) (i, negb (snd i))) /\
      (forall p i, In i (forest_word (flat_map
            (prune (fun n => match nth n (vals s) None with Some v => p v | None => false end)) ts)) ->
         forall j, filter_increment fuel h p b (end_ f) (i, true) = Some j ->
         filter_decrement fuel h p b (end_ f) j = Some (i, true)).
Proof.
  intros T eqb ops s xs m k r w Hr Hk. pose proof (reaches_rel _ _ _ _ _ Hr) as R. pose proof (r_inv _ _ R) as I.
  destruct (rel_at _ _ _ _ R Hk) as (f & Ef & Ff). pose proof (proj1 Ff) as Et. cbn [fst] in Et.
  destruct (nested_forest w (i_nested _ _ _ I _ _ _ Hk)) as (ts & Ew).
  exists ts, f, (hd (trail r) w). split; [exact Ew|]. split; [exact Ef|].
  split; [exact (begin_ok _ _ _ _ _ _ _ I Hk Et)|]. cbv zeta. intros fuel Hf. unfold end_. rewrite Et.
  split; [|split; [|split; [|split]]].
  - intros n Hn. apply (pre_back _ _ _ _ _ I Hk fuel (lead n) Hf). rewrite Ew, preorder_word. apply in_map. exact Hn.
  - intros n Hn. apply (post_back _ _ _ _ _ I Hk fuel (trail n) Hf). rewrite Ew, postorder_word. apply in_map. exact Hn.
  - intros [i d] Hi.
    assert (Hw : In i w).
    { rewrite Ew. clear - Hi. revert Hi. generalize 0%Z.
      induction ts as [|n kids ts IH1 IH2] using trees_ind; intros z Hi; [destruct Hi|].
      cbn [flat_map depth_word] in Hi. rewrite fw_cons. destruct Hi as [X|Hi]; [injection X as <- _; left; reflexivity|].
      rewrite <- app_assoc in Hi. apply in_app_iff in Hi. right. apply in_app_iff. destruct Hi as [Hi|[X|Hi]].
      - left. exact (IH1 _ Hi).
      - injection X as <- _. right. left. reflexivity.
      - right. right. exact (IH2 _ Hi). }
    apply in_split in Hw. destruct Hw as (a & b & E). exact (depth_back _ _ _ _ _ I Hk a i b d E).
  - intros i Hi. apply in_split in Hi. destruct Hi as (a & b & E). exact (reverse_back _ _ _ _ _ I Hk a i b E).
  - intros p i Hi j Hj. apply prune_in in Hi. destruct Hi as (Hi & Ho). rewrite <- Ew in Hi.
    exact (proj2 (filter_back _ _ _ _ _ I Hk p fuel i j ltac:(lia) Hi Ho Hj)).
Qed.

(** The filtered range of a forest with a parent 1 (value 10) with a child 2
    (value 3), and a root 3 (value 7), filtered by "at least 5". *)
Definition filter_demo : list (fop (T := nat)) :=
  [FNew; FPushBack 0 10; FInsert 0 (trail 1) 3; FPushBack 0 7].
Example C106_example :
  match mrun Nat.eqb 20 filter_demo (MS [] []) with
  | Some (m, _) =>
    visit_loop 30 (filter_increment 30 (mstore m) (Nat.leb 5) (lead 1) (trail 0)) (fun i => iter_eqb (fst i) (trail 0)) (lead 1, true)
      = Some [(lead 1, true); (trail 1, true); (lead 3, true); (trail 3, true)] /\
    filter_decrement 30 (mstore m) (Nat.leb 5) (lead 1) (trail 0) (trail 1, true) = Some (lead 1, true)
  | None => False end.
Proof. vm_compute. split; reflexivity. Qed.

(** But the iterator which filter_fullorder_range returns as the end of the
    range is not one that was obtained by incrementing: its first_m is end()
    too, so stepping back from it does not filter.  With "at least 8" the last
    node of the range is 1, yet --end is the edge of 3, which holds 7, and one
    further step back enters 3's leading edge. *)
Theorem C106_end_refuted :
  exists m, mrun Nat.eqb 20 filter_demo (MS [] []) = Some (m, [FNothing; FNothing; FIter (lead 2); FNothing]) /\
    let h := mstore m in let p := Nat.leb 8 in
    visit_loop 30 (filter_increment 30 h p (lead 1) (trail 0)) (fun i => iter_eqb (fst i) (trail 0)) (lead 1, true)
      = Some [(lead 1, true); (trail 1, true)] /\
    filter_decrement 30 h p (trail 0) (trail 0) (trail 0, true) = Some (trail 3, false) /\
    filter_decrement 30 h p (trail 0) (trail 0) (trail 3, false) = Some (lead 3, false) /\
    deref h (trail 3) = Some 7 /\ p 7 = false.
Proof. eexists. split; [vm_compute; reflexivity|]. vm_compute. repeat split. Qed.
