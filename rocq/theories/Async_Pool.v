(** The thread pool: order, wake-ups, progress. *)
From Verif Require Import Prelude Async_Model Async_Spec Async_Proofs.
From Coq Require Import List Arith Lia Permutation Bool.
Import ListNotations.
Ltac Zify.zify_post_hook ::= idtac.

Definition got (w : worker) : list job := match w with WGot j => [j] | _ => [] end.
Definition ins (w : worker) : list job := match w with WIn j => [j] | _ => [] end.
Definition waits (w : worker) : list unit := match w with WWait => [tt] | _ => [] end.
Definition checks (w : worker) : list unit := match w with WCheck => [tt] | _ => [] end.
Definition wnotes (w : worker) : list unit := match w with WNotify => [tt] | _ => [] end.
Definition cnotes (c : call) : list unit := match c with CNotify => [tt] | _ => [] end.
Definition n_of {A} (f : A -> list unit) (l : list A) : nat := length (flat_map f l).
Lemma n_app {A} (f : A -> list unit) a b : n_of f (a ++ b) = n_of f a + n_of f b.
Proof. unfold n_of. now rewrite flat_map_app, app_length. Qed.
Lemma n_cons {A} (f : A -> list unit) x b : n_of f (x :: b) = length (f x) + n_of f b.
Proof. unfold n_of. cbn. now rewrite app_length. Qed.

Definition job_ok (n : nat) (j : job) : Prop := match j with Bound q _ => q < n | Free _ => True end.
Definition call_ok (n : nat) (c : call) : Prop := match c with CPost j => job_ok n j | CNotify => True | CAsync q _ | CSuspend q | CResume q => q < n end.
Definition worker_ok (n : nat) (w : worker) : Prop := match w with WGot j | WIn j | WPost j => job_ok n j | WContinue q => q < n | _ => True end.

Record pinv (n : nat) (s : st) : Prop := {
  p_posted : posted (log s) = taken (log s) ++ pool s;
  p_taken : Permutation (taken (log s)) (all_begun (log s) ++ flat_map got (workers s));
  p_begun : Permutation (all_begun (log s)) (all_ended (log s) ++ flat_map ins (workers s));
  p_wake : n_of waits (workers s) = 0 \/ length (pool s) <= n_of checks (workers s) + n_of wnotes (workers s) + n_of cnotes (calls s);
  p_workers : length (workers s) = n;
  p_calls : Forall (call_ok (length (queues s))) (calls s);
  p_ws : Forall (worker_ok (length (queues s))) (workers s);
  p_pool : Forall (job_ok (length (queues s))) (pool s)
}.
Lemma job_ok_le n m j : n <= m -> job_ok n j -> job_ok m j.
Proof. destruct j; cbn; lia. Qed.
Lemma sus_more q l e : e <> EResume q -> is_suspended q l -> is_suspended q (l ++ [e]).
Proof. intros N (a & b & -> & H). exists a, (b ++ [e]). split; [now rewrite <- app_assoc|]. rewrite in_app_iff. intros [X|[X|[]]]; [auto|congruence]. Qed.
Lemma sus_new q l : is_suspended q (l ++ [ESuspend q]).
Proof. exists l, []. split; [reflexivity|intros []]. Qed.

Lemma pinv_start n : pinv n (start n).
Proof.
  assert (F : forall B (f : worker -> list B), f WCheck = [] -> flat_map f (repeat WCheck n) = []).
  { intros B f Hf. induction n as [|k IH]; cbn; [reflexivity|]. now rewrite Hf. }
  split; cbn [start pool workers calls queues log posted taken all_begun all_ended flat_map]; rewrite ?F by reflexivity; auto.
  - left. unfold n_of. now rewrite F.
  - apply repeat_length.
  - clear F. induction n; cbn; constructor; cbn; auto.
Qed.
Lemma posted_app l l' : posted (l ++ l') = posted l ++ posted l'. Proof. apply flat_map_app. Qed.
Lemma taken_app l l' : taken (l ++ l') = taken l ++ taken l'. Proof. apply flat_map_app. Qed.
Lemma begun_app l l' : all_begun (l ++ l') = all_begun l ++ all_begun l'. Proof. apply flat_map_app. Qed.
Lemma ended_app l l' : all_ended (l ++ l') = all_ended l ++ all_ended l'. Proof. apply flat_map_app. Qed.
Ltac logs := rewrite ?posted_app, ?taken_app, ?begun_app, ?ended_app in *; cbn [posted taken all_begun all_ended flat_map app] in *; rewrite ?app_nil_r in *; auto.
Ltac ws := rewrite ?flat_map_app, ?n_app, ?n_cons in *; cbn [flat_map got ins waits checks wnotes cnotes length app] in *; auto; try lia.
Ltac foralls := repeat match goal with H : Forall _ (_ ++ _) |- _ => apply Forall_app in H as [] | H : Forall _ (_ :: _) |- _ => apply Forall_cons_iff in H as [] end;
  repeat ((apply Forall_app; split) || apply Forall_cons || assumption || exact I || apply Forall_nil); auto.
Lemma no_waits l : ~ In WWait l -> n_of waits l = 0.
Proof. induction l as [|w l IH]; intros H; [reflexivity|]. rewrite n_cons, IH; [|intros X; apply H; now right]. destruct w; cbn; auto. exfalso. apply H. now left. Qed.
Theorem pinv_step n w s s' : pinv n s -> step w s s' -> pinv n s'.
Proof.
  intros [P1 P2 P3 P4 P5 P6 P7 P8] H. destruct s as [p ws cl qs lg].
  inversion H; subst; clear H; cbn [pool workers calls queues log] in *; subst.
  - split; cbn [pool workers calls queues log]; auto; rewrite app_length; cbn [length].
    + eapply Forall_impl; [|exact P6]. intros []; cbn; try lia. intros X. apply (job_ok_le (length qs)); [lia|exact X].
    + eapply Forall_impl; [|exact P7]. intros []; cbn; try lia; intros X; apply (job_ok_le (length qs)); try lia; exact X.
    + eapply Forall_impl; [|exact P8]. intros j. apply job_ok_le. lia.
  - split; cbn [pool workers calls queues log]; auto; ws. constructor; [|exact P6]. destruct c as [[]| | | |]; cbn; auto; contradiction.
  - split; cbn [pool workers calls queues log]; auto; ws. { rewrite !app_length in *. cbn [length] in *. lia. } foralls.
  - split; cbn [pool workers calls queues log]; logs; ws.
    + rewrite P1. now rewrite app_assoc.
    + rewrite !app_length in *. cbn [length] in *. lia.
    + foralls.
    + foralls.
  - split; cbn [pool workers calls queues log]; logs; ws; [rewrite !app_length in *; cbn [length] in *; lia|foralls..].
  - split; cbn [pool workers calls queues log]; logs; ws; [left; now apply no_waits|foralls..].
  - assert (O : call_ok (length qs) (CAsync q t)) by (rewrite Forall_forall in P6; apply P6, in_or_app; right; now left).
    split; cbn [pool workers calls queues log]; rewrite ?set_length; logs; ws.
    destruct o; cbn [then_post]; foralls.
  - split; cbn [pool workers calls queues log]; rewrite ?set_length; logs; ws. foralls.
  - assert (O : call_ok (length qs) (CResume q)) by (rewrite Forall_forall in P6; apply P6, in_or_app; right; now left).
    split; cbn [pool workers calls queues log]; rewrite ?set_length; logs; ws.
    destruct o; cbn [then_post]; foralls.
  - split; cbn [pool workers calls queues log]; logs; ws; [rewrite !app_length in *; cbn [length] in *; lia|foralls..].
  - split; cbn [pool workers calls queues log]; logs; ws.
    + rewrite P1. lists.
    + rewrite P2. lists. apply Permutation_app_head. rewrite (Permutation_app_comm (flat_map got b) [j]). apply Permutation_app_head. reflexivity.
    + rewrite !app_length in *; cbn [length] in *; lia.
    + foralls.
    + foralls.
  - split; cbn [pool workers calls queues log]; logs; ws.
    + rewrite P2. lists. apply Permutation_app_head. apply Permutation_sym, Permutation_middle.
    + rewrite P3. lists. apply Permutation_app_head. rewrite app_assoc. rewrite (Permutation_app_comm _ [j]). cbn [app]. apply Permutation_middle.
    + rewrite !app_length in *; cbn [length] in *; lia.
    + foralls.
  - split; cbn [pool workers calls queues log]; logs; ws.
    + rewrite P3. lists. apply Permutation_app_head. apply Permutation_sym, Permutation_middle.
    + rewrite !app_length in *; cbn [length] in *; lia.
    + foralls.
  - split; cbn [pool workers calls queues log]; logs; ws.
    + rewrite P3. lists. apply Permutation_app_head. apply Permutation_sym, Permutation_middle.
    + rewrite !app_length in *; cbn [length] in *; lia.
    + foralls.
  - split; cbn [pool workers calls queues log]; rewrite ?set_length; logs; ws; [rewrite !app_length in *; cbn [length] in *; lia|foralls].
  - split; cbn [pool workers calls queues log]; rewrite ?set_length; logs; ws; [rewrite !app_length in *; cbn [length] in *; lia|foralls].
  - split; cbn [pool workers calls queues log]; logs; ws.
    + rewrite P1. lists.
    + rewrite !app_length in *; cbn [length] in *; lia.
    + rewrite !app_length in *; cbn [length] in *; lia.
    + foralls.
    + foralls.
  - assert (G : forall B (f : worker -> list B), f WCheck = [] -> f WWait = [] -> f WNotify = [] -> flat_map f (wa ++ WCheck :: wb) = flat_map f (a ++ WNotify :: b)).
    { intros B f F1 F2 F3. assert (X := f_equal (flat_map f) H1). rewrite !flat_map_app in *. cbn [flat_map] in *. rewrite ?F1, ?F2, ?F3 in *. cbn [app] in *. now rewrite X. }
    split; cbn [pool workers calls queues log]; auto; rewrite ?(G _ _ eq_refl eq_refl eq_refl); auto.
    + assert (X1 := f_equal (n_of waits) H1). assert (X2 := f_equal (n_of checks) H1). assert (X3 := f_equal (n_of wnotes) H1). ws.
    + apply (f_equal (@length worker)) in H1. rewrite !app_length in *. cbn [length] in *. lia.
    + assert (Q : Forall (worker_ok (length qs)) (a ++ WCheck :: b)) by foralls. rewrite H1 in Q. foralls.
  - split; cbn [pool workers calls queues log]; logs; ws.
    + rewrite !app_length in *; cbn [length] in *; lia.
    + foralls.
Qed.
Theorem pinv_reachable n s : reachable n s -> pinv n s.
Proof. induction 1; [apply pinv_start|eapply pinv_step; eauto]. Qed.

(** suspended in the state: suspended by the log *)
Theorem sus_step w s s' : (forall q, suspended (at_q q s) = true -> is_suspended q (log s)) -> step w s s' ->
  forall q, suspended (at_q q s') = true -> is_suspended q (log s').
Proof.
  intros I H q. destruct s as [p ws cl qs lg]. assert (Iq := I q). unfold at_q in *. cbn [queues log] in *.
  inversion H; subst; clear H; cbn [pool workers calls queues log] in *; subst; auto; try (intros Hs; apply sus_more; [discriminate|auto]; fail).
  - intros Hs. apply Iq. destruct (Nat.lt_ge_cases q (length qs)) as [L|L]; [now rewrite app_nth1 in Hs|]. rewrite app_nth2 in Hs by lia. destruct (q - length qs) as [|[|]]; discriminate.
  - apply (Async_Proofs.nth_error_nth' _ _ _ new_tq) in H1 as [Hx Hl]. rewrite nth_set by lia. destruct (Nat.eqb_spec q q0) as [->|N]; intros Hs; (apply sus_more; [discriminate|]); [|auto].
    apply Iq. rewrite Hx. unfold tq_async in H2. destruct (negb (executing x) && negb (suspended x)); injection H2 as <- <-; exact Hs.
  - apply (Async_Proofs.nth_error_nth' _ _ _ new_tq) in H1 as [Hx Hl]. rewrite nth_set by lia. destruct (Nat.eqb_spec q q0) as [->|N]; intros Hs; [apply sus_new|]. apply sus_more; [discriminate|auto].
  - apply (Async_Proofs.nth_error_nth' _ _ _ new_tq) in H1 as [Hx Hl]. rewrite nth_set by lia. destruct (Nat.eqb_spec q q0) as [->|N]; intros Hs; [exfalso|apply sus_more; [congruence|auto]].
    unfold tq_resume in H2. destruct (suspended x) eqn:Sx; cbn [negb] in H2; [|injection H2 as <- <-; congruence].
    destruct (items x); [|destruct (negb (executing x))]; injection H2 as <- <-; discriminate Hs.
  - apply (Async_Proofs.nth_error_nth' _ _ _ new_tq) in H1 as [Hx Hl]. rewrite nth_set by lia. destruct (Nat.eqb_spec q q0) as [->|N]; intros Hs; [|auto].
    apply Iq. rewrite Hx. unfold tq_continue in H2. destruct (suspended x) eqn:Sx; [reflexivity|]. cbn [negb] in H2. destruct (items x); [discriminate|]. injection H2 as <- <-. exact Hs.
  - apply (Async_Proofs.nth_error_nth' _ _ _ new_tq) in H1 as [Hx Hl]. rewrite nth_set by lia. destruct (Nat.eqb_spec q q0) as [->|N]; intros Hs; [|auto].
    apply Iq. rewrite Hx. unfold tq_continue in H2. destruct (suspended x) eqn:Sx; [reflexivity|]. cbn [negb] in H2. destruct (items x); [|discriminate]. injection H2 as <-. exact Hs.
Qed.
Theorem sus_reachable n s : reachable n s -> forall q, suspended (at_q q s) = true -> is_suspended q (log s).
Proof.
  induction 1 as [|w s s' H IH Hs]; [|eapply sus_step; eauto]. intros q H. unfold at_q in H. cbn in H. destruct q; discriminate.
Qed.

(** when nothing can happen *)
Lemma nth_some {A} (l : list A) n : n < length l -> exists x, nth_error l n = Some x.
Proof. intros H. destruct (nth_error l n) eqn:E; [eauto|]. apply nth_error_None in E. lia. Qed.
Lemma wait_dec (l : list worker) : In WWait l \/ ~ In WWait l.
Proof. induction l as [|w l [IH|IH]]; [right; intros []|left; now right|]. destruct w; try (right; intros [X|X]; [discriminate|auto]; fail). left. now left. Qed.
Lemma idle_calls n s : pinv n s -> idle s -> calls s = [].
Proof.
  intros P I. destruct (calls s) as [|c cl] eqn:E; [reflexivity|exfalso]. assert (O := p_calls _ _ P). rewrite E in O. inversion O as [|? ? O1 _]; subst. clear O.
  destruct c as [j| |q t|q|q].
  - exact (I _ (s_post s [] cl j E)).
  - destruct (wait_dec (workers s)) as [X|X]; [|exact (I _ (s_notify_none s [] cl E X))]. apply in_split in X as (a & b & X). exact (I _ (s_notify s [] cl a b E X)).
  - destruct (nth_some _ _ O1) as (x & Hx). destruct (tq_async t x) as [x' o] eqn:A. exact (I _ (s_async s [] cl q t x x' o E Hx A)).
  - destruct (nth_some _ _ O1) as (x & Hx). exact (I _ (s_suspend s [] cl q x E Hx)).
  - destruct (nth_some _ _ O1) as (x & Hx). destruct (tq_resume x) as [x' o] eqn:A. exact (I _ (s_resume s [] cl q x x' o E Hx A)).
Qed.
Lemma idle_workers n s : pinv n s -> idle s -> forall w, In w (workers s) -> w = WWait.
Proof.
  intros P I w H. assert (O := p_ws _ _ P). rewrite Forall_forall in O. specialize (O w H). apply in_split in H as (a & b & E).
  destruct w as [| |j|[t|q t]|q|j|]; [exfalso|reflexivity|exfalso..].
  - destruct (pool s) as [|j r] eqn:Q; [exact (I _ (s_wait s a b E Q))|exact (I _ (s_take s a b j r E Q))].
  - exact (I _ (s_begin s a b j E)).
  - exact (I _ (s_end_free s a b t E)).
  - exact (I _ (s_end_bound s a b q t E)).
  - destruct (nth_some _ _ O) as (x & Hx). destruct (tq_continue x) as [x' [t|]] eqn:A; [exact (I _ (s_continue_next s a b q x x' t E Hx A))|exact (I _ (s_continue_stop s a b q x x' E Hx A))].
  - exact (I _ (s_wpost s a b j E)).
  - destruct (wait_dec (a ++ WCheck :: b)) as [X|X].
    + apply in_split in X as (wa & wb & X). exact (I _ (s_wnotify s a b wa wb E X)).
    + apply (I _ (s_wnotify_none s a b E ltac:(intros Y; apply X, in_or_app; apply in_app_or in Y as [Y|Y]; [now left|right; now right]))).
Qed.
Lemma only_waits {B} (f : worker -> list B) l : (forall w, In w l -> w = WWait) -> f WWait = [] -> flat_map f l = [].
Proof. intros H F. induction l as [|w l IH]; [reflexivity|]. cbn. rewrite (H w) by now left. rewrite F. apply IH. intros x Hx. apply H. now right. Qed.
Theorem idle_all_done n s : 0 < n -> reachable n s -> idle s ->
  pool s = [] /\ Permutation (posted (log s)) (all_ended (log s)) /\ forall q, is_suspended q (log s) \/ submitted q (log s) = ended q (log s).
Proof.
  intros N H I. assert (P := pinv_reachable n s H). assert (C := idle_calls n s P I). assert (W := idle_workers n s P I).
  assert (Po : pool s = []).
  { destruct (p_wake _ _ P) as [X|X].
    - pose proof (p_workers _ _ P) as L. destruct (workers s) as [|w l]; [cbn in L; lia|]. rewrite (W w) in X by now left. rewrite n_cons in X. cbn in X. lia.
    - unfold n_of in X. rewrite !(only_waits _ _ W), C in X by reflexivity. cbn in X. destruct (pool s); [reflexivity|cbn in X; lia]. }
  split; [exact Po|]. split.
  - rewrite (p_posted _ _ P), Po, app_nil_r, (p_taken _ _ P), (only_waits _ _ W), app_nil_r by reflexivity.
    rewrite (p_begun _ _ P), (only_waits _ _ W), app_nil_r by reflexivity. reflexivity.
  - intros q. pose proof (inv_reachable n s H q) as Q. destruct (suspended (at_q q s)) eqn:S; [left; now apply (sus_reachable n)|right].
    assert (U0 : U q s = []) by (unfold U, Uc, Up, Uw; rewrite C, Po, (only_waits _ _ W) by reflexivity; reflexivity).
    assert (R0 : R q s = []) by (unfold R; now rewrite (only_waits _ _ W)).
    assert (K0 : K q s = []) by (unfold K; now rewrite (only_waits _ _ W)).
    pose proof (i_tok _ _ Q) as T. rewrite U0, R0, K0 in T. cbn in T. destruct (executing (at_q q s)) eqn:E; [discriminate|].
    assert (It : items (at_q q s) = []).
    { pose proof (i_run _ _ Q S) as X. destruct (items (at_q q s)); [reflexivity|]. rewrite X in E; [discriminate|discriminate]. }
    rewrite (i_sub _ _ Q), (i_beg _ _ Q), U0, R0, It. now rewrite !app_nil_r.
Qed.

(** progress: every step of a thread takes the work down *)
Definition cw (c : call) : nat := match c with CPost _ => 7 | CNotify => 2 | CAsync _ _ => 8 | CSuspend _ => 1 | CResume _ => 1 end.
Definition ww (w : worker) : nat := match w with WCheck => 1 | WWait => 0 | WGot _ => 4 | WIn _ => 3 | WContinue _ => 2 | WPost _ => 8 | WNotify => 3 end.
Definition sum {A} (f : A -> nat) (l : list A) : nat := list_sum (map f l).
Lemma sum_app {A} (f : A -> nat) a b : sum f (a ++ b) = sum f a + sum f b.
Proof. unfold sum. now rewrite map_app, list_sum_app. Qed.
Lemma sum_cons {A} (f : A -> nat) x b : sum f (x :: b) = f x + sum f b.
Proof. reflexivity. Qed.
Lemma sum_set {A} (f : A -> nat) x y : forall l q, nth_error l q = Some x -> sum f (set_nth q y l) + f x = sum f l + f y.
Proof. induction l as [|z l IH]; intros [|q] H; cbn [nth_error set_nth] in *; try discriminate; rewrite !sum_cons; [injection H as ->; lia|]. specialize (IH q H). lia. Qed.
Definition qw (x : tq) : nat := 7 * length (items x).
Definition work (s : st) : nat := sum cw (calls s) + 4 * length (pool s) + sum ww (workers s) + sum qw (queues s).
Lemma own_works s s' : step Own s s' -> work s' < work s.
Proof.
  intros H. destruct s as [p ws cl qs lg]. unfold work. inversion H; subst; clear H; cbn [pool workers calls queues log] in *; subst; rewrite ?sum_app, ?sum_cons, ?app_length; cbn [cw ww length]; try lia.
  - pose proof (sum_set qw x x' qs q H1) as Q. unfold tq_async in H2. destruct (negb (executing x) && negb (suspended x)); injection H2 as <- <-; unfold qw in Q at 2 4; cbn [items then_post] in *; rewrite ?app_length in Q; cbn [length] in Q; unfold sum at 2; cbn; lia.
  - pose proof (sum_set qw x (tq_suspend x) qs q H1) as Q. unfold qw in Q at 2 4. cbn [items tq_suspend] in Q. lia.
  - pose proof (sum_set qw x x' qs q H1) as Q. unfold tq_resume in H2. destruct (suspended x); cbn [negb] in H2; [|injection H2 as <- <-; unfold sum at 2; cbn; lia].
    destruct (items x) as [|t r] eqn:It; [|destruct (negb (executing x))]; injection H2 as <- <-; unfold qw in Q at 2 4; cbn [items then_post] in *; rewrite ?It in Q; cbn [length] in Q; unfold sum at 2; cbn; lia.
  - pose proof (sum_set qw x x' qs q H1) as Q. unfold tq_continue in H2. destruct (negb (suspended x)); [|discriminate]. destruct (items x) as [|t' r] eqn:It; [discriminate|]. injection H2 as <- <-.
    unfold qw in Q at 2 4. cbn [items] in Q. rewrite It in Q. cbn [length] in Q. lia.
  - pose proof (sum_set qw x x' qs q H1) as Q. assert (Ei : items x' = items x).
    { unfold tq_continue in H2. destruct (negb (suspended x)); [destruct (items x) eqn:It; [|discriminate]|]; injection H2 as <-; cbn [items]; auto. }
    unfold qw in Q at 2 4. rewrite Ei in Q. lia.
  - assert (X := f_equal (sum ww) H1). rewrite !sum_app, !sum_cons in X. cbn [ww] in X. lia.
Qed.
Lemma spurious_works s s' : step Spurious s s' -> work s' = S (work s).
Proof. intros H. destruct s as [p ws cl qs lg]. unfold work. inversion H; subst; clear H; cbn [pool workers calls queues log] in *; subst; rewrite ?sum_app, ?sum_cons; cbn [ww]; lia. Qed.
Lemma running_work k m s s' : running k m s s' -> k + work s' <= work s + m.
Proof. induction 1 as [|k m s1 s2 s3 H IH St|k m s1 s2 s3 H IH St]; [lia|apply own_works in St; lia|apply spurious_works in St; lia]. Qed.
