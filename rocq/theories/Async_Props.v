(** C75-C78: shared_task_queue and the thread pool, for every number of workers, every history of calls and every
    interleaving of the threads. *)
From Verif Require Import Prelude Async_Model Async_Spec Async_Proofs Async_Pool.
From Coq Require Import List Arith Lia Permutation Bool.
Import ListNotations.
Ltac Zify.zify_post_hook ::= idtac.

(** ** C75: the tasks of a queue run one at a time, in the order in which they were submitted, none twice *)
Theorem C75_one_at_a_time_in_order :
  forall n s q, reachable n s ->
    one_at_a_time q (log s) /\ exists waiting, submitted q (log s) = begun q (log s) ++ waiting.
Proof.
  intros n s q H. assert (I := inv_reachable n s H q). split; [apply I|]. exists (U q s ++ items (at_q q s)). apply I.
Qed.

(** ** C76: while a queue is suspended at most one more of its tasks begins, the one that was on its way to a
    worker; none if a task was running when suspend() took effect *)
Theorem C76_suspended :
  forall n s q before after, reachable n s -> log s = before ++ ESuspend q :: after -> ~ In (EResume q) after ->
    length (begun q after) <= 1 /\ (begun q before <> ended q before -> begun q after = []).
Proof.
  intros n s q before after H E N. assert (I := inv_reachable n s H q). destruct (i_sus _ _ I before after E N) as [_ L].
  assert (O := i_one _ _ I before (ESuspend q :: after) E).
  assert (L2 : length (ended q before) <= length (begun q before)) by (destruct O as [-> | (t & ->)]; rewrite ?app_length; lia).
  split; [lia|]. intros X. destruct O as [O|(t & O)]; [contradiction|]. rewrite O, app_length in L. cbn in L. destruct (begun q after); [reflexivity|cbn in L; lia].
Qed.

(** ** C77: no task of a queue is forgotten: the threads cannot go on forever without new calls, and when nothing is
    left to do every task submitted to a queue that is not suspended has run, whatever suspends and resumes there were *)
Theorem C77_work_comes_to_an_end :
  forall s, exists bound, forall steps wakeups s', running steps wakeups s s' -> steps <= bound + wakeups.
Proof. intros s. exists (work s). intros k m s' H. apply running_work in H. lia. Qed.
Theorem C77_no_task_is_forgotten :
  forall n s q, 0 < n -> reachable n s -> idle s -> ~ is_suspended q (log s) -> ended q (log s) = submitted q (log s).
Proof. intros n s q N H I S. destruct (idle_all_done n s N H I) as (_ & _ & D). destruct (D q) as [X|X]; [contradiction|auto]. Qed.

(** ** C78: the pool runs every job it is given, each once, takes them in order, and never more than it has workers;
    no wake-up is lost *)
Theorem C78_jobs_are_taken_in_order_and_run_once :
  forall n s, reachable n s ->
    (exists waiting, posted (log s) = taken (log s) ++ waiting) /\
    (exists held, Permutation (taken (log s)) (all_begun (log s) ++ held)) /\
    (exists running, Permutation (all_begun (log s)) (all_ended (log s) ++ running) /\ length running <= n).
Proof.
  intros n s H. assert (P := pinv_reachable n s H). split; [exists (pool s); apply P|]. split; [exists (flat_map got (workers s)); apply P|].
  exists (flat_map ins (workers s)). split; [apply P|]. rewrite <- (p_workers _ _ P). induction (workers s) as [|w l IH]; [reflexivity|]. cbn [flat_map length]. rewrite app_length. destruct w; cbn; lia.
Qed.
Theorem C78_every_job_is_run :
  forall n s, 0 < n -> reachable n s -> idle s -> calls s = [] /\ Permutation (all_ended (log s)) (posted (log s)).
Proof.
  intros n s N H I. split; [exact (idle_calls n s (pinv_reachable n s H) I)|]. destruct (idle_all_done n s N H I) as (_ & D & _). now symmetry.
Qed.
(** [thread::hardware_concurrency()] may be 0 ("not computable"): then the pool has no worker and nothing is run *)
Theorem C78_no_workers_refuted :
  exists s, reachable 0 s /\ idle s /\ posted (log s) = [Free 1] /\ all_begun (log s) = [].
Proof.
  pose (s1 := mk_st [] [] [CPost (Free 1)] [] []). pose (s2 := mk_st [Free 1] [] [CNotify] [] [EPosted (Free 1)]). pose (s3 := mk_st [Free 1] [] [] [] [EPosted (Free 1)]).
  exists s3. split; [|split; [|auto]].
  - apply (r_step 0 Own s2); [|exact (s_notify_none s2 [] [] eq_refl (fun x => x))].
    apply (r_step 0 Own s1); [|exact (s_post s1 [] [] (Free 1) eq_refl)].
    apply (r_step 0 Env (start 0)); [apply r_start|]. exact (s_call (start 0) (CPost (Free 1)) I).
  - intros s' H. inversion H; subst; cbn in *; try (destruct a; discriminate).
Qed.

(** *** a case: one worker; a queue with two tasks, suspended while the first is on its way, then resumed *)
Definition mk (p : list job) (w : worker) (cl : list call) (x : tq) (l : list event) : st := mk_st p [w] cl [x] l.
Definition case_log : list event := [ESubmit 0 1; EPosted (Bound 0 1); ESubmit 0 2; ESuspend 0; ETaken (Bound 0 1); EBegin (Bound 0 1); EEnd (Bound 0 1)].
Definition case_state : st := mk [] WWait [] (mk_tq [2] true false) case_log.
Example C76_case : reachable 1 case_state /\ idle case_state /\ is_suspended 0 (log case_state) /\ begun 0 (log case_state) = [1] /\ submitted 0 (log case_state) = [1; 2].
Proof.
  split; [|split; [|split; [|auto]]].
  - assert (X : reachable 1 (mk [] WCheck [] new_tq [])) by (apply (r_step 1 Env (start 1)); [apply r_start|exact (s_queue (start 1))]).
    pose (l k := firstn k case_log).
    assert (X1 : reachable 1 (mk [] WCheck [CAsync 0 1] new_tq [])) by exact (r_step 1 Env _ _ X (s_call (mk [] WCheck [] new_tq []) (CAsync 0 1) (Nat.lt_0_succ 0))). clear X.
    assert (X2 : reachable 1 (mk [] WCheck [CPost (Bound 0 1)] (mk_tq [] false true) (l 1))) by (match type of X1 with reachable _ ?s0 => exact (r_step 1 Own s0 _ X1 (s_async s0 [] [] 0 1 new_tq _ _ eq_refl eq_refl eq_refl)) end).
    assert (X3 : reachable 1 (mk [Bound 0 1] WCheck [CNotify] (mk_tq [] false true) (l 2))) by (match type of X2 with reachable _ ?s0 => exact (r_step 1 Own s0 _ X2 (s_post s0 [] [] (Bound 0 1) eq_refl)) end).
    assert (X4 : reachable 1 (mk [Bound 0 1] WCheck [] (mk_tq [] false true) (l 2))) by (match type of X3 with reachable _ ?s0 => refine (r_step 1 Own s0 _ X3 (s_notify_none s0 [] [] eq_refl _)) end; intros [Y|[]]; discriminate).
    assert (X5 : reachable 1 (mk [Bound 0 1] WCheck [CAsync 0 2] (mk_tq [] false true) (l 2))) by exact (r_step 1 Env _ _ X4 (s_call (mk [Bound 0 1] WCheck [] (mk_tq [] false true) (l 2)) (CAsync 0 2) (Nat.lt_0_succ 0))).
    assert (X6 : reachable 1 (mk [Bound 0 1] WCheck [] (mk_tq [2] false true) (l 3))) by (match type of X5 with reachable _ ?s0 => exact (r_step 1 Own s0 _ X5 (s_async s0 [] [] 0 2 _ _ _ eq_refl eq_refl eq_refl)) end).
    assert (X7 : reachable 1 (mk [Bound 0 1] WCheck [CSuspend 0] (mk_tq [2] false true) (l 3))) by exact (r_step 1 Env _ _ X6 (s_call (mk [Bound 0 1] WCheck [] (mk_tq [2] false true) (l 3)) (CSuspend 0) (Nat.lt_0_succ 0))).
    assert (X8 : reachable 1 (mk [Bound 0 1] WCheck [] (mk_tq [2] true true) (l 4))) by (match type of X7 with reachable _ ?s0 => exact (r_step 1 Own s0 _ X7 (s_suspend s0 [] [] 0 _ eq_refl eq_refl)) end).
    assert (X9 : reachable 1 (mk [] (WGot (Bound 0 1)) [] (mk_tq [2] true true) (l 5))) by (match type of X8 with reachable _ ?s0 => exact (r_step 1 Own s0 _ X8 (s_take s0 [] [] (Bound 0 1) [] eq_refl eq_refl)) end).
    assert (Y1 : reachable 1 (mk [] (WIn (Bound 0 1)) [] (mk_tq [2] true true) (l 6))) by (match type of X9 with reachable _ ?s0 => exact (r_step 1 Own s0 _ X9 (s_begin s0 [] [] (Bound 0 1) eq_refl)) end).
    assert (Y2 : reachable 1 (mk [] (WContinue 0) [] (mk_tq [2] true true) (l 7))) by (match type of Y1 with reachable _ ?s0 => exact (r_step 1 Own s0 _ Y1 (s_end_bound s0 [] [] 0 1 eq_refl)) end).
    assert (Y3 : reachable 1 (mk [] WCheck [] (mk_tq [2] true false) (l 7))) by (match type of Y2 with reachable _ ?s0 => exact (r_step 1 Own s0 _ Y2 (s_continue_stop s0 [] [] 0 _ _ eq_refl eq_refl eq_refl)) end).
    (match type of Y3 with reachable _ ?s0 => exact (r_step 1 Own s0 _ Y3 (s_wait s0 [] [] eq_refl eq_refl)) end).
  - intros s' H. inversion H as [| | | | | | | | | | | | | | | | | |]; subst; cbn in *; try (destruct a as [|? [|]]; discriminate).
  - exists [ESubmit 0 1; EPosted (Bound 0 1); ESubmit 0 2], [ETaken (Bound 0 1); EBegin (Bound 0 1); EEnd (Bound 0 1)]. split; [reflexivity|]. cbn. intuition discriminate.
Qed.
