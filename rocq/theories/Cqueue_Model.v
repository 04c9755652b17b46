(** Model of concurrent_queue<T>: /repo/adobe/future.hpp:103-140.  A critical section is one step; steps of different calls are
    interleaved in every way.  The unqualified move(x) (116, 137) is taken to be std::move. *)
From Verif Require Import Prelude.
From Coq Require Import List Arith Lia Permutation Bool.
Import ListNotations.

Section Q.
Context {T : Type}.
Inductive op := Push (x : T) | Pop.
Inductive res := Done | Got (x : T) | None_.      (* push returns; pop returns true with the value in [out]; pop returns false *)
(** a call by what it does next: take the lock, or return *)
Inductive call := Before (i : nat) (o : op) | After (i : nat) (r : res).
Inductive event := EInvoke (i : nat) (o : op) | EReturn (i : nat) (r : res).
(** [order] records, for the proofs only, the order in which the critical sections were entered *)
Record st := mk_st { q : list T; calls : list call; next : nat; log : list event; order : list (nat * op * res) }.
Definition start : st := mk_st [] [] 0 [] [].
Inductive mover := Env | Own.
Inductive step : mover -> st -> st -> Prop :=
| s_invoke s o : step Env s (mk_st (q s) (Before (next s) o :: calls s) (S (next s)) (log s ++ [EInvoke (next s) o]) (order s))
| s_push s a b i x : calls s = a ++ Before i (Push x) :: b ->                                           (* 117-120 *)
    step Own s (mk_st (q s ++ [x]) (a ++ After i Done :: b) (next s) (log s) (order s ++ [(i, Push x, Done)]))
| s_pop s a b i x r : calls s = a ++ Before i Pop :: b -> q s = x :: r ->                               (* 130-134 *)
    step Own s (mk_st r (a ++ After i (Got x) :: b) (next s) (log s) (order s ++ [(i, Pop, Got x)]))
| s_pop_none s a b i : calls s = a ++ Before i Pop :: b -> q s = [] ->
    step Own s (mk_st (q s) (a ++ After i None_ :: b) (next s) (log s) (order s ++ [(i, Pop, None_)]))
| s_return s a b i r : calls s = a ++ After i r :: b ->                                                 (* 121, 135-138 *)
    step Own s (mk_st (q s) (a ++ b) (next s) (log s ++ [EReturn i r]) (order s)).
Inductive reachable : st -> Prop :=
| r_start : reachable start
| r_step m s s' : reachable s -> step m s s' -> reachable s'.
End Q.
Arguments op T : clear implicits. Arguments res T : clear implicits. Arguments call T : clear implicits. Arguments event T : clear implicits. Arguments st T : clear implicits.
