(** What is said of the timed queue, in terms of what is put in and what comes out. *)
From Verif Require Import Prelude Timed_Model.
From Coq Require Import List ZArith Lia Permutation.
Import ListNotations.
Local Open Scope Z_scope.

Definition added (l : list event) : list element := flat_map (fun e => match e with EAdded w t => [(w, t)] | _ => [] end) l.
Definition released (l : list event) : list element := flat_map (fun e => match e with EReleased w t _ => [(w, t)] | _ => [] end) l.
Definition handed (l : list event) : list element := flat_map (fun e => match e with EHanded w t => [(w, t)] | _ => [] end) l.
(** nothing left to do until the clock moves on, a call is made, or a wait returns by itself *)
Definition idle (s : st) : Prop := forall s', ~ step Own s s'.
(** runs without new calls: [k] steps of the threads' own, [m] clock ticks and spurious wake-ups *)
Inductive running : nat -> nat -> st -> st -> Prop :=
| run_none s : running 0 0 s s
| run_own k m s s1 s2 : running k m s s1 -> step Own s1 s2 -> running (S k) m s s2
| run_clock k m s s1 s2 : running k m s s1 -> step Clock s1 s2 -> running k (S m) s s2
| run_spurious k m s s1 s2 : running k m s s1 -> step Spurious s1 s2 -> running k (S m) s s2.
