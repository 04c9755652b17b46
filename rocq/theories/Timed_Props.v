(** C79: the timed queue behind async(when, task), for every history of calls, every behaviour of the clock and every
    interleaving. *)
From Verif Require Import Prelude Timed_Model Timed_Spec Timed_Proofs.
From Coq Require Import List ZArith Lia Permutation.
Import ListNotations.
Local Open Scope Z_scope.
Ltac Zify.zify_post_hook ::= idtac.

(** ** C79: a task is never run before its time, those due earlier are let go first, none is lost or run twice, and none
    that is due stays behind *)
Theorem C79_not_before_its_time_and_earliest_first :
  forall t0 s before w t a after, reachable t0 s -> log s = before ++ EReleased w t a :: after ->
    w <= a /\ exists rest, Permutation (added before) (released before ++ (w, t) :: rest) /\ forall y, In y rest -> w <= fst y.
Proof. intros t0 s b w t a l R E. exact (i_ok _ (inv_reachable t0 s R) b w t a l E). Qed.
Theorem C79_each_task_once :
  forall t0 s, reachable t0 s ->
    (exists waiting, Permutation (added (log s)) (released (log s) ++ waiting)) /\
    (exists last, released (log s) = handed (log s) ++ last /\ (length last <= 1)%nat).
Proof.
  intros t0 s R. assert (I := inv_reachable t0 s R). split; [exists (heap s); apply I|]. exists (post_of (who s)). split; [apply I|]. destruct (who s); cbn; lia.
Qed.
Theorem C79_never_undefined : forall t0 s, reachable t0 s -> who s <> SBroken.
Proof. intros t0 s R E. assert (I := i_who _ (inv_reachable t0 s R)). now rewrite E in I. Qed.
Theorem C79_what_is_due_has_been_handed_on :
  forall t0 s, reachable t0 s -> idle s ->
    calls s = [] /\ exists later, Permutation (added (log s)) (handed (log s) ++ later) /\ forall x, In x later -> now s < fst x.
Proof.
  intros t0 s R H. assert (I := inv_reachable t0 s R). destruct (idle_state s I H) as (C & P & L). split; [exact C|]. exists (heap s). split; [|exact L].
  rewrite (i_in _ I), (i_out _ I), P, app_nil_r. reflexivity.
Qed.
Theorem C79_work_comes_to_an_end :
  forall s, exists bound, forall steps others s', running steps others s s' -> (steps <= bound + 3 * others)%nat.
Proof. intros s. exists (work s). intros k m s' H. apply running_work in H. lia. Qed.

(** *** a case: a task for time 5 and then one for time 3 are added at 0; at 3 the second is handed on, the first waits *)
Definition case_log : list event := [EAdded 5 1; EAdded 3 2; EReleased 3 2 3; EHanded 3 2].
Example C79_case : reachable 0 (mk_st [(5, 1%nat)] (SUntil 5) [] 3 case_log) /\ idle (mk_st [(5, 1%nat)] (SUntil 5) [] 3 case_log).
Proof.
  split.
  - pose (l k := firstn k case_log).
    assert (A1 : reachable 0 (mk_st [] SCheck [TAsync 5 1] 0 [])) by exact (r_step 0 Env _ _ (r_start 0) (s_call (start 0) 5 1)).
    assert (A2 : reachable 0 (mk_st [(5, 1%nat)] SCheck [TNotify] 0 (l 1%nat))).
    { match type of A1 with reachable _ ?s0 => refine (r_step 0 Own s0 _ A1 (s_async s0 [] [] 5 1 [(5, 1%nat)] eq_refl (Permutation_refl _) _)) end. intros y [<- |[]]. cbn. lia. }
    assert (A3 : reachable 0 (mk_st [(5, 1%nat)] SCheck [] 0 (l 1%nat))) by (match type of A2 with reachable _ ?s0 => exact (r_step 0 Own s0 _ A2 (s_notify s0 [] [] eq_refl)) end).
    assert (A4 : reachable 0 (mk_st [(5, 1%nat)] (SUntil 5) [] 0 (l 1%nat))).
    { match type of A3 with reachable _ ?s0 => refine (r_step 0 Own s0 _ A3 (s_first s0 (SUntil 5) [(5, 1%nat)] [] eq_refl _ (t_early s0 (5, 1%nat) [] eq_refl _))) end; [discriminate|cbn; lia]. }
    assert (A5 : reachable 0 (mk_st [(5, 1%nat)] (SUntil 5) [TAsync 3 2] 0 (l 1%nat))) by (match type of A4 with reachable _ ?s0 => exact (r_step 0 Env s0 _ A4 (s_call s0 3 2)) end).
    assert (A6 : reachable 0 (mk_st [(3, 2%nat); (5, 1%nat)] (SUntil 5) [TNotify] 0 (l 2%nat))).
    { match type of A5 with reachable _ ?s0 => refine (r_step 0 Own s0 _ A5 (s_async s0 [] [] 3 2 [(3, 2%nat); (5, 1%nat)] eq_refl (Permutation_refl _) _)) end. intros y [<- |[<- |[]]]; cbn; lia. }
    assert (A7 : reachable 0 (mk_st [(3, 2%nat); (5, 1%nat)] STime [] 0 (l 2%nat))) by (match type of A6 with reachable _ ?s0 => exact (r_step 0 Own s0 _ A6 (s_notify s0 [] [] eq_refl)) end).
    assert (A8 : reachable 0 (mk_st [(3, 2%nat); (5, 1%nat)] (SUntil 3) [] 0 (l 2%nat))).
    { match type of A7 with reachable _ ?s0 => refine (r_step 0 Own s0 _ A7 (s_time s0 (SUntil 3) [(3, 2%nat); (5, 1%nat)] [] eq_refl (t_early s0 (3, 2%nat) [(5, 1%nat)] eq_refl _))) end. cbn. lia. }
    assert (A9 : reachable 0 (mk_st [(3, 2%nat); (5, 1%nat)] (SUntil 3) [] 3 (l 2%nat))) by (match type of A8 with reachable _ ?s0 => exact (r_step 0 Clock s0 _ A8 (s_tick s0 3 eq_refl)) end).
    assert (B1 : reachable 0 (mk_st [(3, 2%nat); (5, 1%nat)] STime [] 3 (l 2%nat))) by (match type of A9 with reachable _ ?s0 => exact (r_step 0 Own s0 _ A9 (s_timeout s0 3 eq_refl (Z.le_refl 3))) end).
    assert (B2 : reachable 0 (mk_st [(5, 1%nat)] (SPost 3 2) [] 3 (l 3%nat))).
    { match type of B1 with reachable _ ?s0 => refine (r_step 0 Own s0 _ B1 (s_time s0 (SPost 3 2) [(5, 1%nat)] [EReleased 3 2 3] eq_refl (t_due s0 (3, 2%nat) [(5, 1%nat)] [(5, 1%nat)] eq_refl (Z.le_refl 3) (Permutation_refl _) _))) end. intros y [<- |[]]; cbn; lia. }
    assert (B3 : reachable 0 (mk_st [(5, 1%nat)] SCheck [] 3 (l 4%nat))) by (match type of B2 with reachable _ ?s0 => exact (r_step 0 Own s0 _ B2 (s_posted s0 3 2 eq_refl)) end).
    match type of B3 with reachable _ ?s0 => refine (r_step 0 Own s0 _ B3 (s_first s0 (SUntil 5) [(5, 1%nat)] [] eq_refl _ (t_early s0 (5, 1%nat) [] eq_refl _))) end; [discriminate|cbn; lia].
  - intros s' H. inversion H as [| | | |s0 a b w t h' C P F|s0 a b C|s0 W E|s0 k h' l W N T|s0 k h' l W T|s0 t W D|s0 w t W]; subst; cbn in *; try discriminate; try (destruct a; discriminate).
    injection W as <-. lia.
Qed.
