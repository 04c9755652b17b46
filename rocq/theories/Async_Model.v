(** Model of the thread pool and of shared_task_queue: /repo/adobe/future.hpp, /repo/source/future.cpp.
    Any number of threads call the functions; the workers of the pool run the tasks.  A critical section (the
    scope of a lock_t) is one step: the mutex is trusted.  Everything between two critical sections may be
    interleaved with the steps of all other threads.  A task is a number: what the user's function does between
    its start and its end is left open, except that it may call any of the functions (such a call is one more
    call in progress).  packaged_task keeps an exception of the user's function in the future, so p_() returns. *)
From Verif Require Import Prelude.
From Coq Require Import List Arith Lia Permutation.
Import ListNotations.

(** any_packaged_task_ (future.hpp:28-56): a packaged task as adobe::async makes it (65-79), or a move_binder_
    (147-160), which runs the task and then continues its queue *)
Inductive job := Free (t : nat) | Bound (q t : nat).

(** future.cpp:170-233 shared_task_queue::task_queue_ *)
Record tq := mk_tq { items : list nat; suspended : bool; executing : bool }.
Definition new_tq : tq := mk_tq [] false false.                                         (* 228-230, 234-236 *)
(** The critical sections; the second component is what is left in [tmp]: the task to post, if any *)
Definition tq_async (t : nat) (q : tq) : tq * option nat :=                             (* 212-226 *)
  if negb (executing q) && negb (suspended q) then (mk_tq (items q) (suspended q) true, Some t)
  else (mk_tq (items q ++ [t]) (suspended q) (executing q), None).
Definition tq_suspend (q : tq) : tq := mk_tq (items q) true (executing q).              (* 174-177 *)
Definition tq_resume (q : tq) : tq * option nat :=                                      (* 179-195 *)
  if negb (suspended q) then (q, None)
  else match items q with
       | t :: r => if negb (executing q) then (mk_tq r false true, Some t) else (mk_tq (items q) false (executing q), None)
       | [] => (mk_tq [] false (executing q), None)
       end.
Definition tq_continue (q : tq) : tq * option nat :=                                    (* 197-210 *)
  if negb (suspended q) then
    match items q with
    | t :: r => (mk_tq r (suspended q) (executing q), Some t)
    | [] => (mk_tq (items q) (suspended q) false, None)
    end
  else (mk_tq (items q) (suspended q) false, None).

(** calls in progress, by the next thing they do *)
Inductive call :=
| CPost (j : job)                 (* details::async_: before the lock of thread_pool::async (future.cpp:62-69) *)
| CNotify                         (* after it: condition_.notify_one() (71) *)
| CAsync (q t : nat)              (* shared_task_queue::async, before the lock of task_queue_::async *)
| CSuspend (q : nat)
| CResume (q : nat).
(** a worker: thread_pool::_run (future.cpp:47-60) *)
Inductive worker :=
| WCheck                          (* holds or waits for the lock, before q_.empty() is tested *)
| WWait                           (* blocked in condition_.wait *)
| WGot (j : job)                  (* has spliced the job out of q_; before it is called *)
| WIn (j : job)                   (* in the user's function *)
| WContinue (q : nat)             (* move_binder_: after p_(), before the lock of _continue *)
| WPost (j : job)                 (* _continue: before the lock of thread_pool::async *)
| WNotify.                        (* before notify_one *)

(** what happened, oldest first *)
Inductive event :=
| ESubmit (q t : nat)             (* shared_task_queue::async has passed its critical section *)
| EPosted (j : job)               (* in the pool's queue *)
| ETaken (j : job)                (* out of it, by a worker *)
| EBegin (j : job) | EEnd (j : job)
| ESuspend (q : nat) | EResume (q : nat).

Record st := mk_st { pool : list job; workers : list worker; calls : list call; queues : list tq; log : list event }.
Definition start (n : nat) : st := mk_st [] (repeat WCheck n) [] [] [].                 (* 31-35 *)

Fixpoint set_nth {A} (n : nat) (x : A) (l : list A) : list A :=
  match l, n with [], _ => [] | _ :: l', O => x :: l' | y :: l', S n' => y :: set_nth n' x l' end.
(** the call that posts a task of queue [q], if there is one *)
Definition then_post (q : nat) (o : option nat) : list call := match o with Some t => [CPost (Bound q t)] | None => [] end.

(** Who takes the step: the environment (a new call), the implementation (a condition variable may wake a
    thread without a notification), or one of the threads *)
Inductive who := Env | Spurious | Own.

Inductive step : who -> st -> st -> Prop :=
(* a new queue: shared_task_queue() *)
| s_queue s : step Env s (mk_st (pool s) (workers s) (calls s) (queues s ++ [new_tq]) (log s))
(* a call begins *)
| s_call s c : match c with
               | CPost (Free _) => True
               | CAsync q _ | CSuspend q | CResume q => q < length (queues s)
               | _ => False
               end ->
    step Env s (mk_st (pool s) (workers s) (c :: calls s) (queues s) (log s))
| s_spurious s a b : workers s = a ++ WWait :: b ->
    step Spurious s (mk_st (pool s) (a ++ WCheck :: b) (calls s) (queues s) (log s))
(* thread_pool::async, from a call *)
| s_post s a b j : calls s = a ++ CPost j :: b ->
    step Own s (mk_st (pool s ++ [j]) (workers s) (a ++ CNotify :: b) (queues s) (log s ++ [EPosted j]))
| s_notify s a b wa wb : calls s = a ++ CNotify :: b -> workers s = wa ++ WWait :: wb ->
    step Own s (mk_st (pool s) (wa ++ WCheck :: wb) (a ++ b) (queues s) (log s))
| s_notify_none s a b : calls s = a ++ CNotify :: b -> ~ In WWait (workers s) ->
    step Own s (mk_st (pool s) (workers s) (a ++ b) (queues s) (log s))
(* shared_task_queue *)
| s_async s a b q t x x' o : calls s = a ++ CAsync q t :: b -> nth_error (queues s) q = Some x -> tq_async t x = (x', o) ->
    step Own s (mk_st (pool s) (workers s) (a ++ then_post q o ++ b) (set_nth q x' (queues s)) (log s ++ [ESubmit q t]))
| s_suspend s a b q x : calls s = a ++ CSuspend q :: b -> nth_error (queues s) q = Some x ->
    step Own s (mk_st (pool s) (workers s) (a ++ b) (set_nth q (tq_suspend x) (queues s)) (log s ++ [ESuspend q]))
| s_resume s a b q x x' o : calls s = a ++ CResume q :: b -> nth_error (queues s) q = Some x -> tq_resume x = (x', o) ->
    step Own s (mk_st (pool s) (workers s) (a ++ then_post q o ++ b) (set_nth q x' (queues s)) (log s ++ [EResume q]))
(* the workers *)
| s_wait s a b : workers s = a ++ WCheck :: b -> pool s = [] ->
    step Own s (mk_st [] (a ++ WWait :: b) (calls s) (queues s) (log s))
| s_take s a b j r : workers s = a ++ WCheck :: b -> pool s = j :: r ->
    step Own s (mk_st r (a ++ WGot j :: b) (calls s) (queues s) (log s ++ [ETaken j]))
| s_begin s a b j : workers s = a ++ WGot j :: b ->
    step Own s (mk_st (pool s) (a ++ WIn j :: b) (calls s) (queues s) (log s ++ [EBegin j]))
| s_end_free s a b t : workers s = a ++ WIn (Free t) :: b ->
    step Own s (mk_st (pool s) (a ++ WCheck :: b) (calls s) (queues s) (log s ++ [EEnd (Free t)]))
| s_end_bound s a b q t : workers s = a ++ WIn (Bound q t) :: b ->
    step Own s (mk_st (pool s) (a ++ WContinue q :: b) (calls s) (queues s) (log s ++ [EEnd (Bound q t)]))
| s_continue_next s a b q x x' t : workers s = a ++ WContinue q :: b -> nth_error (queues s) q = Some x -> tq_continue x = (x', Some t) ->
    step Own s (mk_st (pool s) (a ++ WPost (Bound q t) :: b) (calls s) (set_nth q x' (queues s)) (log s))
| s_continue_stop s a b q x x' : workers s = a ++ WContinue q :: b -> nth_error (queues s) q = Some x -> tq_continue x = (x', None) ->
    step Own s (mk_st (pool s) (a ++ WCheck :: b) (calls s) (set_nth q x' (queues s)) (log s))
| s_wpost s a b j : workers s = a ++ WPost j :: b ->
    step Own s (mk_st (pool s ++ [j]) (a ++ WNotify :: b) (calls s) (queues s) (log s ++ [EPosted j]))
(* notify_one, then back to the loop *)
| s_wnotify s a b wa wb : workers s = a ++ WNotify :: b -> a ++ WCheck :: b = wa ++ WWait :: wb ->
    step Own s (mk_st (pool s) (wa ++ WCheck :: wb) (calls s) (queues s) (log s))
| s_wnotify_none s a b : workers s = a ++ WNotify :: b -> ~ In WWait (a ++ b) ->
    step Own s (mk_st (pool s) (a ++ WCheck :: b) (calls s) (queues s) (log s)).

(** the states of a program that uses the library, on a machine with [n] workers *)
Inductive reachable (n : nat) : st -> Prop :=
| r_start : reachable n (start n)
| r_step w s s' : reachable n s -> step w s s' -> reachable n s'.
