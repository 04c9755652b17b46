(** C80: cancellation callbacks, for every history of calls from any number of threads and every interleaving. *)
From Verif Require Import Prelude Cancel_Model Cancel_Spec Cancel_Proofs.
From Coq Require Import List Arith Lia Permutation Bool.
Import ListNotations.
Ltac Zify.zify_post_hook ::= idtac.

(** ** C80: a callback is called at most once, only after it was registered and a cancel took effect *)
Theorem C80_called_at_most_once_and_only_when_canceled :
  forall s, reachable s -> NoDup (runs (log s)) /\
    forall before c threw after, log s = before ++ ERun c threw :: after -> In ECancel before /\ exists tok, In (ERegister c tok) before.
Proof.
  intros s R. assert (I := inv_reachable s R). split; [|apply run_after_cancel, R]. destruct (i_all _ I) as (dr & P). eapply NoDup_app_l, Permutation_NoDup; [exact P|]. eapply NoDup_app_l, (i_new _ I).
Qed.
(** is_canceled() tells whether a cancel took effect *)
Theorem C80_is_canceled :
  forall s before b after, reachable s -> log s = before ++ EAnswer b :: after -> (b = true <-> In ECancel before).
Proof. intros s l1 b l2 R E. exact (answer_ok s R l1 b l2 E). Qed.
(** a callback registered after a cancel is called by the registration itself, and there is no token to give back *)
Theorem C80_registered_too_late :
  forall s before c tok after, reachable s -> idle s -> log s = before ++ ERegister c tok :: after -> In ECancel before -> tok = None /\ In c (runs after).
Proof. intros s l1 c tok l2 R H E C. destruct (late_register s R l1 c tok l2 E C) as [T [X|X]]; [auto|]. rewrite (idle_calls s H) in X. destruct X. Qed.
(** the callbacks called are exactly those owed (registered at the cancel, or after it), when every callback deregistered
    was registered at a time when no other was; in particular when nothing is ever deregistered *)
Theorem C80_callbacks_owed_are_called_partial :
  forall s, reachable s -> deregistered_alone (log s) -> nothing_thrown (log s) ->
    (exists pending, Permutation (owed (log s)) (runs (log s) ++ pending)) /\ (idle s -> Permutation (owed (log s)) (runs (log s))).
Proof.
  intros s R F NT. assert (J := j_owed _ (inv2_reachable s R F NT)). split; [eauto|]. intros H. rewrite (idle_calls s H) in J. cbn in J. now rewrite app_nil_r in J.
Qed.
Theorem C80_without_deregistration :
  forall s, reachable s -> idle s -> deregistered (log s) = [] -> nothing_thrown (log s) -> Permutation (owed (log s)) (runs (log s)) /\ (In ECancel (log s) -> Permutation (registered (log s)) (runs (log s))).
Proof.
  intros s R H N NT. assert (F : deregistered_alone (log s)) by (split; rewrite N; [constructor|intros c []]). assert (O := proj2 (C80_callbacks_owed_are_called_partial s R F NT) H). split; [exact O|].
  intros C. rewrite <- O. clear - N C. assert (G : forall l, deregistered l = [] -> Permutation (registered l) (live l ++ owed l) /\ (v_canceled (view_of l) = true -> live l = [])).
  { induction l as [|e l IH] using rev_ind; intros D; [split; [constructor|reflexivity]|]. rewrite deregistered_app in D. apply app_eq_nil in D as [D1 D2]. destruct (IH D1) as [P Z]. rewrite registered_app. unfold live, owed in *. rewrite view_snoc.
    destruct e as [c tok|c| | |c]; cbn [v_step]; try discriminate D2; cbn [registered flat_map app]; rewrite ?app_nil_r; auto.
    - destruct (v_canceled (view_of l)) eqn:V; cbn.
      + split; [rewrite P, app_assoc; reflexivity|auto].
      + split; [rewrite P; symmetry; apply Permutation_cons_append|discriminate].
    - destruct (v_canceled (view_of l)) eqn:V; [auto|]. cbn. split; [rewrite P; apply Permutation_app_comm|reflexivity]. }
  destruct (G (log s) N) as [P Z]. rewrite P. rewrite Z; [reflexivity|]. now apply flag_iff.
Qed.
Theorem C80_work_comes_to_an_end : forall s, exists bound, forall steps s', running steps s s' -> steps <= bound.
Proof. intros s. exists (work s). intros k s' H. apply running_work in H. lia. Qed.

(** *** a case that meets the hypotheses: 0 registered alone, then 1; 0 deregistered; cancel calls 1 only *)
Definition ok_log : list event := [ERegister 0 (Some 7); ERegister 1 (Some 7); EDeregister 0; ECancel; ERun 1 false].
Definition ok_state : st := mk_st true [] [] 2 ok_log.
Example C80_case : reachable ok_state /\ idle ok_state /\ deregistered_alone (log ok_state) /\ nothing_thrown (log ok_state) /\ owed (log ok_state) = [1].
Proof.
  split; [|split; [|split; [|split; [|reflexivity]]]].
  - pose (l k := firstn k ok_log).
    assert (A1 : reachable (mk_st false [] [KRegister 7 0] 1 [])) by exact (r_step Env _ _ r_start (s_call_register start 7 (fun x => x))).
    assert (A2 : reachable (mk_st false [(7, 0)] [] 1 (l 1))) by (match type of A1 with reachable ?s0 => exact (r_step Own s0 _ A1 (s_register s0 [] [] 7 0 eq_refl eq_refl)) end).
    assert (A3 : reachable (mk_st false [(7, 0)] [KRegister 8 1] 2 (l 1))) by (match type of A2 with reachable ?s0 => refine (r_step Env s0 _ A2 (s_call_register s0 8 _)) end; cbn; intuition discriminate).
    assert (A4 : reachable (mk_st false [(8, 1); (7, 0)] [] 2 (l 2))) by (match type of A3 with reachable ?s0 => exact (r_step Own s0 _ A3 (s_register s0 [] [] 8 1 eq_refl eq_refl)) end).
    assert (A5 : reachable (mk_st false [(8, 1); (7, 0)] [KDeregister 0 (Some 7)] 2 (l 2))) by (match type of A4 with reachable ?s0 => refine (r_step Env s0 _ A4 (s_call_deregister s0 0 (Some 7) _)) end; now left).
    assert (A6 : reachable (mk_st false [(8, 1)] [] 2 (l 3))) by (match type of A5 with reachable ?s0 => exact (r_step Own s0 _ A5 (s_deregister s0 [] [] 0 (Some 7) eq_refl)) end).
    assert (A7 : reachable (mk_st false [(8, 1)] [KCancel] 2 (l 3))) by (match type of A6 with reachable ?s0 => exact (r_step Env s0 _ A6 (s_call_cancel s0)) end).
    assert (A8 : reachable (mk_st true [] [KCalling [(8, 1)]] 2 (l 4))) by (match type of A7 with reachable ?s0 => exact (r_step Own s0 _ A7 (s_cancel s0 [] [] eq_refl eq_refl)) end).
    assert (A9 : reachable (mk_st true [] [KCalling []] 2 (l 5))) by (match type of A8 with reachable ?s0 => exact (r_step Own s0 _ A8 (s_run s0 [] [] 8 1 [] eq_refl)) end).
    match type of A9 with reachable ?s0 => exact (r_step Own s0 _ A9 (s_ran s0 [] [] eq_refl)) end.
  - intros s' H. inversion H; subst; cbn in *; try (destruct x; discriminate).
  - split; [repeat constructor; intros []|]. cbn. intros c [<- |[]]. exists [], (Some 7), [ERegister 1 (Some 7); EDeregister 0; ECancel; ERun 1 false]. auto.
  - intros c H. cbn in H. intuition discriminate.
Qed.

(** the promise fails in general: with 0 and then 1 registered, giving back the token of 1 takes out 0: the cancel then
    calls 1, which was deregistered, and not 0, which was not *)
Definition bad_log : list event := [ERegister 0 (Some 7); ERegister 1 (Some 7); EDeregister 1; ECancel; ERun 1 false].
Theorem C80_deregister_takes_out_the_wrong_callback_refuted :
  exists s, reachable s /\ idle s /\ deregistered (log s) = [1] /\ registered (log s) = [0; 1] /\ runs (log s) = [1] /\ owed (log s) = [0].
Proof.
  exists (mk_st true [] [] 2 bad_log). split; [|split; [|auto]].
  - pose (l k := firstn k bad_log).
    assert (A1 : reachable (mk_st false [] [KRegister 7 0] 1 [])) by exact (r_step Env _ _ r_start (s_call_register start 7 (fun x => x))).
    assert (A2 : reachable (mk_st false [(7, 0)] [] 1 (l 1))) by (match type of A1 with reachable ?s0 => exact (r_step Own s0 _ A1 (s_register s0 [] [] 7 0 eq_refl eq_refl)) end).
    assert (A3 : reachable (mk_st false [(7, 0)] [KRegister 8 1] 2 (l 1))) by (match type of A2 with reachable ?s0 => refine (r_step Env s0 _ A2 (s_call_register s0 8 _)) end; cbn; intuition discriminate).
    assert (A4 : reachable (mk_st false [(8, 1); (7, 0)] [] 2 (l 2))) by (match type of A3 with reachable ?s0 => exact (r_step Own s0 _ A3 (s_register s0 [] [] 8 1 eq_refl eq_refl)) end).
    assert (A5 : reachable (mk_st false [(8, 1); (7, 0)] [KDeregister 1 (Some 7)] 2 (l 2))) by (match type of A4 with reachable ?s0 => refine (r_step Env s0 _ A4 (s_call_deregister s0 1 (Some 7) _)) end; right; now left).
    assert (A6 : reachable (mk_st false [(8, 1)] [] 2 (l 3))) by (match type of A5 with reachable ?s0 => exact (r_step Own s0 _ A5 (s_deregister s0 [] [] 1 (Some 7) eq_refl)) end).
    assert (A7 : reachable (mk_st false [(8, 1)] [KCancel] 2 (l 3))) by (match type of A6 with reachable ?s0 => exact (r_step Env s0 _ A6 (s_call_cancel s0)) end).
    assert (A8 : reachable (mk_st true [] [KCalling [(8, 1)]] 2 (l 4))) by (match type of A7 with reachable ?s0 => exact (r_step Own s0 _ A7 (s_cancel s0 [] [] eq_refl eq_refl)) end).
    assert (A9 : reachable (mk_st true [] [KCalling []] 2 (l 5))) by (match type of A8 with reachable ?s0 => exact (r_step Own s0 _ A8 (s_run s0 [] [] 8 1 [] eq_refl)) end).
    match type of A9 with reachable ?s0 => exact (r_step Own s0 _ A9 (s_ran s0 [] [] eq_refl)) end.
  - intros s' H. inversion H; subst; cbn in *; try (destruct x; discriminate).
Qed.

(** nor is every callback that is owed called when one of them throws: with 0 and then 1 registered, the cancel calls 1,
    which throws, and 0 is never called, by this cancel or by any other *)
Definition throw_log : list event := [ERegister 0 (Some 7); ERegister 1 (Some 7); ECancel; ERun 1 true].
Theorem C80_throwing_callback_refuted :
  exists s, reachable s /\ idle s /\ deregistered (log s) = [] /\ owed (log s) = [1; 0] /\ runs (log s) = [1] /\ cbs s = [].
Proof.
  exists (mk_st true [] [] 2 throw_log). split; [|split; [|auto 6]].
  - pose (l k := firstn k throw_log).
    assert (A1 : reachable (mk_st false [] [KRegister 7 0] 1 [])) by exact (r_step Env _ _ r_start (s_call_register start 7 (fun x => x))).
    assert (A2 : reachable (mk_st false [(7, 0)] [] 1 (l 1))) by (match type of A1 with reachable ?s0 => exact (r_step Own s0 _ A1 (s_register s0 [] [] 7 0 eq_refl eq_refl)) end).
    assert (A3 : reachable (mk_st false [(7, 0)] [KRegister 8 1] 2 (l 1))) by (match type of A2 with reachable ?s0 => refine (r_step Env s0 _ A2 (s_call_register s0 8 _)) end; cbn; intuition discriminate).
    assert (A4 : reachable (mk_st false [(8, 1); (7, 0)] [] 2 (l 2))) by (match type of A3 with reachable ?s0 => exact (r_step Own s0 _ A3 (s_register s0 [] [] 8 1 eq_refl eq_refl)) end).
    assert (A5 : reachable (mk_st false [(8, 1); (7, 0)] [KCancel] 2 (l 2))) by (match type of A4 with reachable ?s0 => exact (r_step Env s0 _ A4 (s_call_cancel s0)) end).
    assert (A6 : reachable (mk_st true [] [KCalling [(8, 1); (7, 0)]] 2 (l 3))) by (match type of A5 with reachable ?s0 => exact (r_step Own s0 _ A5 (s_cancel s0 [] [] eq_refl eq_refl)) end).
    match type of A6 with reachable ?s0 => exact (r_step Own s0 _ A6 (s_throw s0 [] [] 8 1 [(7, 0)] eq_refl)) end.
  - intros s' H. inversion H; subst; cbn in *; try (destruct x; discriminate).
Qed.
