(** Model of the cancellation library: /repo/adobe/task.hpp:74-141 (cancel_state), reached through cancellation_token_source
    and cancellation_token (151-205) on a token that has a state.
    A critical section is one step; the threads' steps are interleaved in every way.  A callback may throw: the exception
    leaves the loop at 88-89, and with it the callbacks that were taken out and not called yet; at 115 it leaves
    register_callback.  A callback is known by the number of its registration; a list node by its address, which
    the allocator may choose among those not in use.  is_canceled() reads a volatile bool without the lock, which C++ calls a data race;
    here it reads the flag as it is. *)
From Verif Require Import Prelude.
From Coq Require Import List Arith Lia Permutation Bool.
Import ListNotations.

Definition addr := nat.
Definition cb := nat.
(** what a thread inside one of the operations does next *)
Inductive call :=
| KCancel                                  (* cancel (79-90), before the lock *)
| KCalling (l : list (addr * cb))          (* 88-89: the callbacks taken out and not called yet *)
| KRegister (a : addr) (c : cb)            (* register_callback (93-117), the node made (98-99), before the lock *)
| KCallNow (a : addr) (c : cb)             (* 114-115 *)
| KDeregister (c : cb) (tok : option addr) (* deregister_callback (119-134) with the token that registration [c] returned *)
| KAsk.                                    (* is_canceled (136) *)
Inductive event :=
| ERegister (c : cb) (tok : option addr)   (* registered; the token to be returned *)
| EDeregister (c : cb)
| ECancel
| EAnswer (b : bool)
| ERun (c : cb) (threw : bool).           (* called; whether it threw *)
Record st := mk_st { canceled : bool; cbs : list (addr * cb); calls : list call; next : nat; log : list event }.
Definition start : st := mk_st false [] [] 0 [].                                       (* 77 *)

Definition held (k : call) : list (addr * cb) := match k with KCalling l => l | KRegister a c | KCallNow a c => [(a, c)] | _ => [] end.
Definition in_use (s : st) : list addr := map fst (cbs s ++ flat_map held (calls s)).

(** 102-113: the section; the node goes to the front, the token is the address of the last one *)
Definition register_section (s : st) (a : addr) (c : cb) : list (addr * cb) * option addr :=
  let l := (a, c) :: cbs s in (l, Some (last (map fst l) 0)).
(** 126-133: the first node with that address is taken out *)
Fixpoint deregister_section (tok : addr) (l : list (addr * cb)) : list (addr * cb) :=
  match l with [] => [] | (a, c) :: r => if a =? tok then r else (a, c) :: deregister_section tok r end.

Inductive mover := Env | Own.
Inductive step : mover -> st -> st -> Prop :=
| s_call_cancel s : step Env s (mk_st (canceled s) (cbs s) (KCancel :: calls s) (next s) (log s))
| s_call_ask s : step Env s (mk_st (canceled s) (cbs s) (KAsk :: calls s) (next s) (log s))
| s_call_register s a : ~ In a (in_use s) -> step Env s (mk_st (canceled s) (cbs s) (KRegister a (next s) :: calls s) (S (next s)) (log s))
| s_call_deregister s c tok : In (ERegister c tok) (log s) -> step Env s (mk_st (canceled s) (cbs s) (KDeregister c tok :: calls s) (next s) (log s))
| s_cancel s x y : calls s = x ++ KCancel :: y -> canceled s = false ->
    step Own s (mk_st true [] (x ++ KCalling (cbs s) :: y) (next s) (log s ++ [ECancel]))
| s_cancel_again s x y : calls s = x ++ KCancel :: y -> canceled s = true ->
    step Own s (mk_st true (cbs s) (x ++ y) (next s) (log s ++ [ECancel]))
| s_run s x y a c l : calls s = x ++ KCalling ((a, c) :: l) :: y ->
    step Own s (mk_st (canceled s) (cbs s) (x ++ KCalling l :: y) (next s) (log s ++ [ERun c false]))
| s_ran s x y : calls s = x ++ KCalling [] :: y -> step Own s (mk_st (canceled s) (cbs s) (x ++ y) (next s) (log s))
| s_register s x y a c : calls s = x ++ KRegister a c :: y -> canceled s = false ->
    step Own s (mk_st false (fst (register_section s a c)) (x ++ y) (next s) (log s ++ [ERegister c (snd (register_section s a c))]))
| s_register_late s x y a c : calls s = x ++ KRegister a c :: y -> canceled s = true ->
    step Own s (mk_st true (cbs s) (x ++ KCallNow a c :: y) (next s) (log s ++ [ERegister c None]))
| s_run_now s x y a c b : calls s = x ++ KCallNow a c :: y ->
    step Own s (mk_st (canceled s) (cbs s) (x ++ y) (next s) (log s ++ [ERun c b]))
| s_deregister s x y c tok : calls s = x ++ KDeregister c tok :: y ->
    step Own s (mk_st (canceled s) (match tok with Some t => deregister_section t (cbs s) | None => cbs s end) (x ++ y) (next s) (log s ++ [EDeregister c]))
| s_ask s x y : calls s = x ++ KAsk :: y ->
    step Own s (mk_st (canceled s) (cbs s) (x ++ y) (next s) (log s ++ [EAnswer (canceled s)]))
| s_throw s x y a c l : calls s = x ++ KCalling ((a, c) :: l) :: y ->
    step Own s (mk_st (canceled s) (cbs s) (x ++ y) (next s) (log s ++ [ERun c true])).
Inductive reachable : st -> Prop :=
| r_start : reachable start
| r_step m s s' : reachable s -> step m s s' -> reachable s'.
