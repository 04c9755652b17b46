(** C81: concurrent_queue, for every element type, any number of threads and every interleaving. *)
From Verif Require Import Prelude Cqueue_Model Cqueue_Spec Cqueue_Proofs.
From Coq Require Import List Arith Lia Permutation Bool.
Import ListNotations.
Ltac Zify.zify_post_hook ::= idtac.

(** ** C81: whatever the threads do, what the calls return is what some sequential first-in first-out queue returns, in an
    order that agrees with time *)
Theorem C81_linearizable : forall (T : Type) (s : st T), reachable s -> exists order, explains (log s) order.
Proof.
  intros T s R. assert (I := inv_reachable s R). exists (order s). split; [exists (q s); apply I|]. split; [eapply NoDup_app_l, (i_ids _ I)|]. split; [apply I|]. split; [apply I|]. apply I.
Qed.
(** and every call returns *)
Theorem C81_calls_return :
  forall (T : Type) (s : st T), reachable s ->
    (exists bound, forall steps s', running steps s s' -> steps <= bound) /\
    (idle s -> forall i o, In (EInvoke i o) (log s) -> exists r, In (EReturn i r) (log s)).
Proof.
  intros T s R. split; [exists (work s); intros k s' H; apply running_work in H; lia|]. intros H i o L. destruct (made_or_pending s R i o L) as [X|X]; [exact X|]. rewrite (idle_calls s H) in X. destruct X.
Qed.

(** *** a case: a pop begun before a push and ended after it finds the value; a second pop finds nothing *)
Definition case_log : list (event nat) := [EInvoke 0 Pop; EInvoke 1 (Push 5); EReturn 1 Done; EReturn 0 (Got 5); EInvoke 2 Pop; EReturn 2 None_].
Example C81_case : reachable (mk_st [] [] 3 case_log [(1, Push 5, Done); (0, Pop, Got 5); (2, Pop, None_)]).
Proof.
  pose (l k := firstn k case_log).
  assert (A1 : reachable (mk_st [] [Before 0 Pop] 1 (l 1) [])) by exact (r_step Env _ _ r_start (s_invoke start Pop)).
  assert (A2 : reachable (mk_st [] [Before 1 (Push 5); Before 0 Pop] 2 (l 2) [])) by (match type of A1 with reachable ?s0 => exact (r_step Env s0 _ A1 (s_invoke s0 (Push 5))) end).
  assert (A3 : reachable (mk_st [5] [After 1 Done; Before 0 Pop] 2 (l 2) [(1, Push 5, Done)])) by (match type of A2 with reachable ?s0 => exact (r_step Own s0 _ A2 (s_push s0 [] [Before 0 Pop] 1 5 eq_refl)) end).
  assert (A4 : reachable (mk_st [5] [Before 0 Pop] 2 (l 3) [(1, Push 5, Done)])) by (match type of A3 with reachable ?s0 => exact (r_step Own s0 _ A3 (s_return s0 [] [Before 0 Pop] 1 Done eq_refl)) end).
  assert (A5 : reachable (mk_st [] [After 0 (Got 5)] 2 (l 3) [(1, Push 5, Done); (0, Pop, Got 5)])) by (match type of A4 with reachable ?s0 => exact (r_step Own s0 _ A4 (s_pop s0 [] [] 0 5 [] eq_refl eq_refl)) end).
  assert (A6 : reachable (mk_st [] [] 2 (l 4) [(1, Push 5, Done); (0, Pop, Got 5)])) by (match type of A5 with reachable ?s0 => exact (r_step Own s0 _ A5 (s_return s0 [] [] 0 (Got 5) eq_refl)) end).
  assert (A7 : reachable (mk_st [] [Before 2 Pop] 3 (l 5) [(1, Push 5, Done); (0, Pop, Got 5)])) by (match type of A6 with reachable ?s0 => exact (r_step Env s0 _ A6 (s_invoke s0 Pop)) end).
  assert (A8 : reachable (mk_st [] [After 2 None_] 3 (l 5) [(1, Push 5, Done); (0, Pop, Got 5); (2, Pop, None_)])) by (match type of A7 with reachable ?s0 => exact (r_step Own s0 _ A7 (s_pop_none s0 [] [] 2 eq_refl eq_refl)) end).
  match type of A8 with reachable ?s0 => exact (r_step Own s0 _ A8 (s_return s0 [] [] 2 None_ eq_refl)) end.
Qed.
