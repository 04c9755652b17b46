(** Specification for the task queues and the thread pool, over the log of events only. *)
From Verif Require Import Prelude Async_Model.
From Coq Require Import List Arith.
Import ListNotations.

Definition of_queue (q : nat) (j : job) : list nat := match j with Bound q' t => if q =? q' then [t] else [] | Free _ => [] end.
(** the tasks given to queue [q], those that began and those that ended, each in order *)
Definition submitted (q : nat) (l : list event) : list nat := flat_map (fun e => match e with ESubmit q' t => if q =? q' then [t] else [] | _ => [] end) l.
Definition begun (q : nat) (l : list event) : list nat := flat_map (fun e => match e with EBegin j => of_queue q j | _ => [] end) l.
Definition ended (q : nat) (l : list event) : list nat := flat_map (fun e => match e with EEnd j => of_queue q j | _ => [] end) l.
(** at every moment of the history all the tasks of [q] that began have ended, except perhaps the last *)
Definition one_at_a_time (q : nat) (l : list event) : Prop :=
  forall now later, l = now ++ later -> begun q now = ended q now \/ exists t, begun q now = ended q now ++ [t].
(** the jobs posted to the pool, taken from it, begun, ended *)
Definition posted (l : list event) : list job := flat_map (fun e => match e with EPosted j => [j] | _ => [] end) l.
Definition taken (l : list event) : list job := flat_map (fun e => match e with ETaken j => [j] | _ => [] end) l.
Definition all_begun (l : list event) : list job := flat_map (fun e => match e with EBegin j => [j] | _ => [] end) l.
Definition all_ended (l : list event) : list job := flat_map (fun e => match e with EEnd j => [j] | _ => [] end) l.
(** the last of suspend() and resume() on [q] was suspend() *)
Definition is_suspended (q : nat) (l : list event) : Prop := exists before after, l = before ++ ESuspend q :: after /\ ~ In (EResume q) after.
(** nothing can happen any more unless there is a new call (or a wait returns without reason) *)
Definition idle (s : st) : Prop := forall s', ~ step Own s s'.
(** [k] steps of the threads and [m] spurious wake-ups, without a new call *)
Inductive running : nat -> nat -> st -> st -> Prop :=
| run_none s : running 0 0 s s
| run_own k m s1 s2 s3 : running k m s1 s2 -> step Own s2 s3 -> running (S k) m s1 s3
| run_spurious k m s1 s2 s3 : running k m s1 s2 -> step Spurious s2 s3 -> running k (S m) s1 s3.
