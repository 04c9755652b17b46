(** Linearizability to a sequential first-in first-out queue. *)
From Verif Require Import Prelude Cqueue_Model.
From Coq Require Import List Arith Lia Permutation Bool.
Import ListNotations.

Section Q.
Context {T : Type}.
(** the results of operations done one after another on a queue *)
Inductive sequential : list T -> list (op T * res T) -> list T -> Prop :=
| seq_nil c : sequential c [] c
| seq_push c x h c' : sequential (c ++ [x]) h c' -> sequential c ((Push x, Done) :: h) c'
| seq_pop c x h c' : sequential c h c' -> sequential (x :: c) ((Pop, Got x) :: h) c'
| seq_none h c' : sequential [] h c' -> sequential [] ((Pop, None_) :: h) c'.
(** an order of calls that explains what was seen: it is what a sequential queue does, every call that returned is in it with
    its result, only calls made are in it, each once, and a call that returned before another was made comes before it *)
Definition explains (l : list (event T)) (o : list (nat * op T * res T)) : Prop :=
  (exists c, sequential [] (map (fun x => (snd (fst x), snd x)) o) c) /\
  NoDup (map (fun x => fst (fst x)) o) /\
  (forall i r, In (EReturn i r) l -> exists p, In (i, p, r) o) /\
  (forall i p r, In (i, p, r) o -> In (EInvoke i p) l) /\
  (forall l1 i r l2 l3 j p p' r', l = l1 ++ EReturn i r :: l2 ++ EInvoke j p :: l3 -> In (j, p', r') o ->
     exists a b c pi ri, o = a ++ (i, pi, ri) :: b ++ (j, p', r') :: c).
Definition idle (s : st T) : Prop := forall s', ~ step Own s s'.
Inductive running : nat -> st T -> st T -> Prop :=
| run_none s : running 0 s s
| run_own k s s1 s2 : running k s s1 -> step Own s1 s2 -> running (S k) s s2.
End Q.
