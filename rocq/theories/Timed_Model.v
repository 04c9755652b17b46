(** Model of the timed queue: /repo/source/future.cpp:80-133 (timed_queue), adobe::async(when, ...).
    As in Async_Model a critical section is one step, and the threads' steps are interleaved in every way.
    The clock is an integer that never goes back (steady_clock).  std::push_heap and std::pop_heap are known by
    what the standard says of them only: the elements are kept and a least one (by time) is at the front. *)
From Verif Require Import Prelude.
From Coq Require Import List ZArith Lia Permutation.
Import ListNotations.
Local Open Scope Z_scope.

Definition element := (Z * nat)%type.                     (* 90 element_t: when, the task *)
Definition earliest_first (h : list element) : Prop := match h with [] => True | x :: _ => forall y, In y h -> fst x <= fst y end.

(** the scheduler thread, timed_queue::_run (99-118), by what it does next *)
Inductive sched :=
| SCheck                       (* the start of the loop: takes the lock, tests q_.empty() *)
| SWait                        (* in condition_.wait (106) *)
| STime                        (* back from wait_until, holding the lock: compares the front's time with the clock (107) *)
| SUntil (t : Z)               (* in condition_.wait_until (109) *)
| SPost (w : Z) (t : nat)      (* outside the lock: async_(task) (116) *)
| SBroken.                     (* q_.front() of an empty queue: undefined *)
Inductive call := TAsync (w : Z) (t : nat) | TNotify.     (* async (120-127): before the lock; before notify_one *)
Inductive event :=
| EAdded (w : Z) (t : nat)                (* put into the queue, to be run at [w] *)
| EReleased (w : Z) (t : nat) (at_ : Z)   (* taken out when the clock showed [at_] *)
| EHanded (w : Z) (t : nat).              (* given to the thread pool *)
Record st := mk_st { heap : list element; who : sched; calls : list call; now : Z; log : list event }.
Definition start (t0 : Z) : st := mk_st [] SCheck [] t0 [].                          (* 93-95 *)

(** 107-113: the time test and what follows it under the same lock *)
Inductive time_test (s : st) : sched -> list element -> list event -> Prop :=
| t_empty : heap s = [] -> time_test s SBroken [] []
| t_early x r : heap s = x :: r -> now s < fst x -> time_test s (SUntil (fst x)) (heap s) []
| t_due x r r' : heap s = x :: r -> fst x <= now s -> Permutation r r' -> earliest_first r' ->
    time_test s (SPost (fst x) (snd x)) r' [EReleased (fst x) (snd x) (now s)].

Inductive mover := Env | Clock | Spurious | Own.
Inductive step : mover -> st -> st -> Prop :=
| s_call s w t : step Env s (mk_st (heap s) (who s) (TAsync w t :: calls s) (now s) (log s))
| s_tick s d : 0 < d -> step Clock s (mk_st (heap s) (who s) (calls s) (now s + d) (log s))
| s_spurious_wait s : who s = SWait -> step Spurious s (mk_st (heap s) SCheck (calls s) (now s) (log s))
| s_spurious_until s t : who s = SUntil t -> step Spurious s (mk_st (heap s) STime (calls s) (now s) (log s))
| s_async s a b w t h' : calls s = a ++ TAsync w t :: b -> Permutation ((w, t) :: heap s) h' -> earliest_first h' ->
    step Own s (mk_st h' (who s) (a ++ TNotify :: b) (now s) (log s ++ [EAdded w t]))
| s_notify s a b : calls s = a ++ TNotify :: b ->
    step Own s (mk_st (heap s) (match who s with SWait => SCheck | SUntil _ => STime | x => x end) (a ++ b) (now s) (log s))
| s_wait s : who s = SCheck -> heap s = [] -> step Own s (mk_st (heap s) SWait (calls s) (now s) (log s))
| s_first s k h' l : who s = SCheck -> heap s <> [] -> time_test s k h' l -> step Own s (mk_st h' k (calls s) (now s) (log s ++ l))
| s_time s k h' l : who s = STime -> time_test s k h' l -> step Own s (mk_st h' k (calls s) (now s) (log s ++ l))
| s_timeout s t : who s = SUntil t -> t <= now s -> step Own s (mk_st (heap s) STime (calls s) (now s) (log s))
| s_posted s w t : who s = SPost w t -> step Own s (mk_st (heap s) SCheck (calls s) (now s) (log s ++ [EHanded w t])).
Inductive reachable (t0 : Z) : st -> Prop :=
| r_start : reachable t0 (start t0)
| r_step m s s' : reachable t0 s -> step m s s' -> reachable t0 s'.
