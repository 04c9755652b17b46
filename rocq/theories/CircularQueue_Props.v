(** Properties C01-C03: adobe::circular_queue. *)
From Verif Require Import Prelude CircularQueue_Model CircularQueue_Spec CircularQueue_Proofs.

(** C01. For every capacity and every history whose documented preconditions hold
    ([spec_run] is defined), the queue runs without undefined behaviour and
    size/empty/full/front/capacity report what the abstract FIFO reports. *)
Theorem C01_circular_queue_is_bounded_fifo :
  forall (A : Type) (d : A) (cap : nat) (history : list (op A)) (s : fifo A),
    0 < cap ->
    spec_run cap (Fifo [] []) history = Some s ->
    exists q, run (make d cap) history = Some q /\
      capacity q = cap /\
      size q = length (held s) /\ length (held s) <= cap /\
      empty q = (length (held s) =? 0) /\
      full q = (length (held s) =? cap) /\
      front q = hd_error (held s).
Proof.
  intros A d cap history s Hc Hr.
  destruct (R_run cap history _ _ _ (R_make d cap Hc) Hr) as (q & Hq & HR).
  exists q. split; [exact Hq|]. exact (R_agrees _ _ _ HR).
Qed.
Print Assumptions C01_circular_queue_is_bounded_fifo.

(** Draining a reachable queue yields exactly the held elements, oldest first. *)
Example C01_nonvacuous :
  spec_run 2 (Fifo [] []) [Push 1; Push 2; Push 3; Pop; Pop; Putback; Push 4; Clear; Putback]
  = Some (Fifo [4] [3; 2]).
Proof. vm_compute. reflexivity. Qed.

(** C02 (part). Copying a reachable queue that is not full gives a queue that from then on
    behaves, under every later history, like the FIFO holding the same elements (nothing
    popped yet). Missing: full queues, for which the claim is false, see below. *)
Theorem C02_copy_of_nonfull_queue_partial :
  forall (A : Type) (d : A) (cap : nat) (history later : list (op A)) (s s' : fifo A),
    0 < cap ->
    spec_run cap (Fifo [] []) history = Some s ->
    length (held s) < cap ->
    spec_run cap (Fifo (held s) []) later = Some s' ->
    exists q c q', run (make d cap) history = Some q /\ copy_ctor d q = Some c /\
      run c later = Some q' /\
      capacity q' = cap /\ size q' = length (held s') /\
      empty q' = (length (held s') =? 0) /\ full q' = (length (held s') =? cap) /\
      front q' = hd_error (held s').
Proof.
  intros A d cap history later s s' Hc Hr Hlt Hl.
  destruct (R_run cap history _ _ _ (R_make d cap Hc) Hr) as (q & Hq & HR).
  destruct (R_copy d _ _ _ HR Hlt) as (c & Hcp & HRc).
  destruct (R_run cap later _ _ _ HRc Hl) as (q' & Hq' & HR').
  destruct (R_agrees _ _ _ HR') as (A1 & A2 & A3 & A4 & A5 & A6).
  exists q, c, q'. repeat (split; [assumption|]). assumption.
Qed.
Print Assumptions C02_copy_of_nonfull_queue_partial.

(** C02 (part). For every reachable queue, full or not, the copy itself has the same
    size, front, capacity and emptiness as the source. *)
Theorem C02_copy_reports_same_elements_partial :
  forall (A : Type) (d : A) (cap : nat) (history : list (op A)) (s : fifo A),
    0 < cap ->
    spec_run cap (Fifo [] []) history = Some s ->
    exists q c, run (make d cap) history = Some q /\ copy_ctor d q = Some c /\
      size c = length (held s) /\ front c = hd_error (held s) /\ capacity c = cap /\
      empty c = empty q.
Proof.
  intros A d cap history s Hc Hr.
  destruct (R_run cap history _ _ _ (R_make d cap Hc) Hr) as (q & Hq & HR).
  destruct (copy_obs d _ _ _ HR) as (c & Hcp & HO). eauto.
Qed.
Print Assumptions C02_copy_reports_same_elements_partial.

Example C02_nonvacuous :
  spec_run 3 (Fifo [] []) [Push 1; Push 2; Push 3; Push 4; Pop] = Some (Fifo [3; 4] [2]) /\
  spec_run 3 (Fifo [3; 4] []) [Push 5; Push 6; Pop; Putback] = Some (Fifo [4; 5; 6] []).
Proof. vm_compute. auto. Qed.

(** C02 refuted. Copying any full queue yields one that is not full() and whose next
    push_back writes past the end of its buffer: the copy constructor
    (circular_queue.hpp copy constructor) leaves the end iterator unwrapped. *)
Theorem C02_copy_of_full_queue_refuted :
  forall (A : Type) (d : A) (cap : nat) (history : list (op A)) (s : fifo A) (x : A),
    0 < cap ->
    spec_run cap (Fifo [] []) history = Some s ->
    length (held s) = cap ->
    exists q c, run (make d cap) history = Some q /\ full q = true /\
      copy_ctor d q = Some c /\ full c = false /\
      push_back c x = None (* undefined behaviour *) /\
      (exists q', push_back q x = Some q').
Proof.
  intros A d cap history s x Hc Hr Hfull.
  destruct (R_run cap history _ _ _ (R_make d cap Hc) Hr) as (q & Hq & HR).
  assert (Hne : held s <> []) by (intros E; rewrite E in Hfull; simpl in Hfull; lia).
  assert (Hst : exists s1, spec_step cap s (Push x) = Some s1).
  { simpl. destruct (length (held s) <? cap); eauto. }
  destruct Hst as (s1 & Hst). destruct (R_push _ _ _ _ _ HR Hst) as (q' & Hq' & _).
  eexists q, _. split; [exact Hq|].
  split; [rewrite (R_full _ _ _ HR), Hfull; apply Nat.eqb_refl|].
  split; [exact (copy_ctor_nonempty d _ _ _ HR Hne)|].
  unfold full, push_back, capacity; cbn [container qbegin qend is_empty].
  rewrite app_length, repeat_length, Hfull, Nat.sub_diag, Nat.add_0_r.
  rewrite Nat.ltb_irrefl. split; [destruct cap; [lia|reflexivity]|]. split; [reflexivity|eauto].
Qed.
Print Assumptions C02_copy_of_full_queue_refuted.

Example C02_refuted_witness :
  exists q c, run (make 0 2) [Push 1; Push 2] = Some q /\ full q = true /\
    copy_ctor 0 q = Some c /\ full c = false /\ push_back c 3 = None.
Proof. eexists _, _; repeat split; vm_compute; reflexivity. Qed.

(** C03 (part). Comparing two reachable queues (of any capacities) of which the first is not
    empty is defined and decides equality of the held sequences. Missing: two empty
    queues, for which the claim is false, see below. *)
Theorem C03_equality_of_nonempty_queues_partial :
  forall (A : Type) (eqb : A -> A -> bool) (d1 d2 : A) (cap1 cap2 : nat)
         (h1 h2 : list (op A)) (s1 s2 : fifo A),
    (forall x y, eqb x y = true <-> x = y) ->
    0 < cap1 -> 0 < cap2 ->
    spec_run cap1 (Fifo [] []) h1 = Some s1 ->
    spec_run cap2 (Fifo [] []) h2 = Some s2 ->
    held s1 <> [] ->
    exists q1 q2 r, run (make d1 cap1) h1 = Some q1 /\ run (make d2 cap2) h2 = Some q2 /\
      equal eqb q1 q2 = Some r /\ (r = true <-> held s1 = held s2).
Proof.
  intros A eqb d1 d2 cap1 cap2 h1 h2 s1 s2 Heq H1 H2 R1 R2 Hne.
  destruct (R_run cap1 h1 _ _ _ (R_make d1 cap1 H1) R1) as (q1 & Hq1 & HR1).
  destruct (R_run cap2 h2 _ _ _ (R_make d2 cap2 H2) R2) as (q2 & Hq2 & HR2).
  destruct (equal_spec eqb _ _ _ _ _ _ Heq HR1 HR2 Hne) as (r & Hr & Hiff).
  exists q1, q2, r. auto.
Qed.
Print Assumptions C03_equality_of_nonempty_queues_partial.

Example C03_nonvacuous :
  spec_run 2 (Fifo [] []) [Push 1; Push 2; Push 3] = Some (Fifo [2; 3] []) /\
  spec_run 5 (Fifo [] []) [Push 2; Push 3] = Some (Fifo [2; 3] []) /\
  exists q1 q2, run (make 0 2) [Push 1; Push 2; Push 3] = Some q1 /\
    run (make 0 5) [Push 2; Push 3] = Some q2 /\ equal Nat.eqb q1 q2 = Some true.
Proof. repeat split. eexists _, _; repeat split; vm_compute; reflexivity. Qed.

(** C03 refuted. Two empty queues of equal capacity can compare unequal (popped elements
    are compared), and comparing empty queues of different capacity reads out of range. *)
Theorem C03_equality_of_empty_queues_refuted :
  (exists h q, run (make 0 2) h = Some q /\ empty q = true /\
      equal Nat.eqb q (make 0 2) = Some false) /\
  (equal Nat.eqb (make 0 2) (make 0 1) = None).
Proof.
  split; [|vm_compute; reflexivity].
  exists [Push 1; Pop]. eexists. repeat split; vm_compute; reflexivity.
Qed.
Print Assumptions C03_equality_of_empty_queues_refuted.
