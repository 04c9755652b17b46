(** Invariants of the pool and the queues. *)
From Verif Require Import Prelude Async_Model Async_Spec.
From Coq Require Import List Arith Lia Permutation Bool.
Import ListNotations.
Ltac Zify.zify_post_hook ::= idtac.

Definition ub_call (q : nat) (c : call) : list nat := match c with CPost j => of_queue q j | _ => [] end.
Definition ub_worker (q : nat) (w : worker) : list nat := match w with WGot j | WPost j => of_queue q j | _ => [] end.
Definition in_worker (q : nat) (w : worker) : list nat := match w with WIn j => of_queue q j | _ => [] end.
Definition co_worker (q : nat) (w : worker) : list nat := match w with WContinue q' => if q =? q' then [0] else [] | _ => [] end.
(** tasks of [q] on their way to a worker; in a worker; workers about to continue [q] *)
Definition Uc q s := flat_map (ub_call q) (calls s).
Definition Up q s := flat_map (of_queue q) (pool s).
Definition Uw q s := flat_map (ub_worker q) (workers s).
Definition U q s := Uc q s ++ Up q s ++ Uw q s.
Definition R q s := flat_map (in_worker q) (workers s).
Definition K q s := flat_map (co_worker q) (workers s).
Definition at_q (q : nat) (s : st) : tq := nth q (queues s) new_tq.

Record inv (q : nat) (s : st) : Prop := {
  i_tok : length (U q s) + length (R q s) + length (K q s) = if executing (at_q q s) then 1 else 0;
  i_sub : submitted q (log s) = begun q (log s) ++ U q s ++ items (at_q q s);
  i_beg : begun q (log s) = ended q (log s) ++ R q s;
  i_one : one_at_a_time q (log s);
  i_run : suspended (at_q q s) = false -> items (at_q q s) <> [] -> executing (at_q q s) = true;
  i_sus : forall l1 l2, log s = l1 ++ ESuspend q :: l2 -> ~ In (EResume q) l2 -> suspended (at_q q s) = true /\ length (begun q l2) + length (U q s) + length (begun q l1) <= 1 + length (ended q l1)
}.

Lemma nth_set {A} (d x : A) : forall l n m, n < length l -> nth m (set_nth n x l) d = if m =? n then x else nth m l d.
Proof.
  induction l as [|y l IH]; intros n m H; [cbn in H; lia|]. destruct n as [|n], m as [|m]; cbn; auto. apply IH. cbn in H. lia.
Qed.
Lemma set_length {A} (x : A) : forall l n, length (set_nth n x l) = length l.
Proof. induction l as [|y l IH]; intros [|n]; cbn; auto. Qed.
Lemma nth_error_nth' {A} (l : list A) n x d : nth_error l n = Some x -> nth n l d = x /\ n < length l.
Proof. intros H. split; [now apply nth_error_nth|]. apply nth_error_Some. congruence. Qed.

Lemma app_last {A} (l : list A) x a b : l ++ [x] = a ++ b -> b = [] /\ a = l ++ [x] \/ exists b', b = b' ++ [x] /\ l = a ++ b'.
Proof.
  intros H. destruct b as [|c b]; [left; rewrite app_nil_r in H; auto|right].
  destruct (@exists_last A (c :: b) ltac:(discriminate)) as (b' & y & E). rewrite E in *. rewrite app_assoc in H. apply app_inj_tail in H as [-> ->]. eauto.
Qed.
Lemma one_snoc q l e : one_at_a_time q l ->
  (begun q (l ++ [e]) = ended q (l ++ [e]) \/ exists t, begun q (l ++ [e]) = ended q (l ++ [e]) ++ [t]) -> one_at_a_time q (l ++ [e]).
Proof.
  intros H1 H2 now later E. apply app_last in E as [[-> ->]|(b' & -> & ->)]; [exact H2|]. now apply (H1 now b').
Qed.
(** [i_one] from the rest *)
Lemma one_of q l r : begun q l = ended q l ++ r -> length r <= 1 -> begun q l = ended q l \/ exists t, begun q l = ended q l ++ [t].
Proof. intros H L. destruct r as [|t [|]]; [left; now rewrite app_nil_r in H|right; eauto|cbn in L; lia]. Qed.
Lemma sus_snoc q l e l1 l2 : l ++ [e] = l1 ++ ESuspend q :: l2 -> (e = ESuspend q /\ l2 = []) \/ exists l2', l2 = l2' ++ [e] /\ l = l1 ++ ESuspend q :: l2'.
Proof.
  intros H. apply app_last in H as [[H _]|(b' & Hb & ->)]; [discriminate|]. destruct b' as [|c b'].
  - injection Hb as <- ->. auto.
  - injection Hb as <- ->. right. eauto.
Qed.

Lemma inv_start n q : inv q (start n).
Proof.
  assert (F : forall (f : worker -> list nat), f WCheck = [] -> flat_map f (repeat WCheck n) = []).
  { intros f Hf. induction n as [|n IH]; cbn; [reflexivity|]. now rewrite Hf. }
  assert (Q : at_q q (start n) = new_tq) by (unfold at_q; cbn; now destruct q).
  split; unfold U, Uc, Up, Uw, R, K; cbn [start pool workers calls log]; rewrite ?Q, ?F by reflexivity; cbn; auto; try discriminate.
  - intros now later E. symmetry in E. apply app_eq_nil in E as [-> _]. left. reflexivity.
  - intros l1 l2 E. destruct l1; discriminate.
Qed.

Lemma inv_gen q s s' es : inv q s -> log s' = log s ++ es -> length es <= 1 ->
  length (U q s') + length (R q s') + length (K q s') = (if executing (at_q q s') then 1 else 0) ->
  submitted q (log s) ++ submitted q es = begun q (log s) ++ begun q es ++ U q s' ++ items (at_q q s') ->
  begun q (log s) ++ begun q es = ended q (log s) ++ ended q es ++ R q s' ->
  (suspended (at_q q s') = false -> items (at_q q s') <> [] -> executing (at_q q s') = true) ->
  (es = [ESuspend q] -> suspended (at_q q s') = true) ->
  (suspended (at_q q s) = true -> ~ In (EResume q) es -> suspended (at_q q s') = true /\ length (begun q es) + length (U q s') <= length (U q s)) ->
  inv q s'.
Proof.
  intros I El Ls Ht Hs Hb Hr Hs1 Hs2.
  assert (A1 : submitted q (log s') = submitted q (log s) ++ submitted q es) by (rewrite El; apply flat_map_app).
  assert (A2 : begun q (log s') = begun q (log s) ++ begun q es) by (rewrite El; apply flat_map_app).
  assert (A3 : ended q (log s') = ended q (log s) ++ ended q es) by (rewrite El; apply flat_map_app).
  assert (L1 : length (U q s') + length (R q s') <= 1) by (destruct (executing (at_q q s')); lia).
  assert (B : begun q (log s') = ended q (log s') ++ R q s') by (rewrite A2, A3, <- app_assoc; exact Hb).
  split; auto.
  - rewrite A1, A2, <- app_assoc. exact Hs.
  - destruct es as [|e [|]]; [rewrite El, app_nil_r; apply I| |cbn in Ls; lia]. rewrite El. apply one_snoc; [apply I|]. rewrite <- El. apply (one_of _ _ _ B). lia.
  - intros l1 l2 E Hn. destruct es as [|e [|]]; [| |cbn in Ls; lia].
    + rewrite app_nil_r in El. rewrite El in E. destruct (i_sus _ _ I l1 l2 E Hn) as [S1 S2]. destruct (Hs2 S1) as [S3 S4]; [intros []|]. split; [exact S3|]. cbn in S4. lia.
    + rewrite El in E. assert (E' := E). apply sus_snoc in E as [[-> ->]|(l2' & -> & E)]; [apply app_inj_tail in E' as [Hl1 _]; symmetry in Hl1|clear E'].
      * split; [now apply Hs1|]. rewrite Hl1. apply (f_equal (@length nat)) in B. rewrite A2, A3, !app_length in B. cbn in B |- *. lia.
      * destruct (i_sus _ _ I l1 l2' E) as [S1 S2]; [intros X; apply Hn, in_or_app; now left|].
        destruct (Hs2 S1) as [S3 S4]; [intros X; apply Hn, in_or_app; now right|]. split; [exact S3|].
        assert (Q : begun q (l2' ++ [e]) = begun q l2' ++ begun q [e]) by apply flat_map_app. rewrite Q, app_length. lia.
Qed.

(** lists of which at most one has an element *)
Ltac gen := repeat match goal with
  | |- context [flat_map ?f ?l] => let z := fresh "z" in set (z := flat_map f l) in *; clearbody z
  | H : context [flat_map ?f ?l] |- _ => let z := fresh "z" in set (z := flat_map f l) in *; clearbody z
  | |- context [of_queue ?f ?l] => let z := fresh "z" in set (z := of_queue f l) in *; clearbody z
  end.
Ltac expand := unfold U, Uc, Up, Uw, R, K, at_q in *; cbn [pool workers calls queues log] in *; rewrite ?flat_map_app in *;
  cbn [flat_map ub_call ub_worker in_worker co_worker of_queue app] in *.
(** empty the lists that are not the one *)
Ltac pieces := repeat (rewrite ?app_nil_r in *; match goal with
  | H : context [length (?a ++ ?b)] |- _ => rewrite !app_length in H
  | H : context [length ?l] |- _ => is_var l; destruct l; cbn [length app] in *; try lia
  end).
Ltac lists := repeat (rewrite <- app_assoc || rewrite app_nil_r); cbn [app]; auto.

Definition ev_s q (e : event) := match e with ESubmit q' t => if q =? q' then [t] else [] | _ => [] end.
Definition ev_b q (e : event) := match e with EBegin j => of_queue q j | _ => [] end.
Definition ev_e q (e : event) := match e with EEnd j => of_queue q j | _ => [] end.
Lemma sub_1 q e : submitted q [e] = ev_s q e. Proof. apply app_nil_r. Qed.
Lemma beg_1 q e : begun q [e] = ev_b q e. Proof. apply app_nil_r. Qed.
Lemma end_1 q e : ended q [e] = ev_e q e. Proof. apply app_nil_r. Qed.
Lemma sub_0 q : submitted q [] = []. Proof. reflexivity. Qed.
Lemma beg_0 q : begun q [] = []. Proof. reflexivity. Qed.
Lemma end_0 q : ended q [] = []. Proof. reflexivity. Qed.
Ltac ev := rewrite ?sub_1, ?beg_1, ?end_1, ?sub_0, ?beg_0, ?end_0; cbn [items suspended executing tq_suspend ev_s ev_b ev_e flat_map app then_post ub_call of_queue].
Theorem inv_step q w s s' : (forall q, inv q s) -> step w s s' -> inv q s'.
Proof.
  intros I0 H. assert (I := I0 q). pose proof (i_tok _ _ I) as T. pose proof (i_sub _ _ I) as S1. pose proof (i_beg _ _ I) as B1. pose proof (i_run _ _ I) as R1.
  destruct s as [p ws cl qs lg].
  assert (KEEP : forall s' es, inv q (mk_st p ws cl qs lg) -> log s' = lg ++ es -> length es <= 1 -> submitted q es = [] -> begun q es = [] -> ended q es = [] ->
    es <> [ESuspend q] -> ~ In (EResume q) es ->
    at_q q s' = at_q q (mk_st p ws cl qs lg) -> length (U q s') + length (R q s') + length (K q s') = length (U q (mk_st p ws cl qs lg)) + length (R q (mk_st p ws cl qs lg)) + length (K q (mk_st p ws cl qs lg)) ->
    U q s' = U q (mk_st p ws cl qs lg) -> R q s' = R q (mk_st p ws cl qs lg) -> inv q s').
  { intros s1 es Hi El Ls E1 E2 E3 N1 N2 Ea Et Eu Er. apply (inv_gen q _ s1 es Hi); [exact El|exact Ls|..]; rewrite ?Ea, ?Et, ?Eu, ?Er, ?E1, ?E2, ?E3, ?app_nil_r; auto.
    all: cbn; auto. }
  inversion H; subst; clear H; cbn [pool workers calls queues log] in *; subst.
  - (* queue *) apply (KEEP _ []); auto; try (symmetry; apply app_nil_r); try discriminate.
    unfold at_q. cbn [queues]. destruct (Nat.lt_ge_cases q (length qs)) as [L|L]; [now apply app_nth1|]. rewrite app_nth2, (nth_overflow qs) by lia. destruct (q - length qs) as [|[|]]; reflexivity.
  - (* call *) apply (KEEP _ []); auto; try (symmetry; apply app_nil_r); try discriminate.
    + unfold U, R, K, Uc, Up, Uw. cbn [pool workers calls flat_map]. destruct c as [[]| | | |]; cbn; auto; contradiction.
    + unfold U, R, K, Uc, Up, Uw. cbn [pool workers calls flat_map]. destruct c as [[]| | | |]; cbn; auto; contradiction.
  - (* spurious *) apply (KEEP _ []); auto; try (symmetry; apply app_nil_r); try discriminate; expand; reflexivity.
  - (* post *)
    assert (EU : U q (mk_st (p ++ [j]) ws (a ++ CNotify :: b) qs (lg ++ [EPosted j])) = U q (mk_st p ws (a ++ CPost j :: b) qs lg)).
    { clear KEEP R1 S1 B1 I I0. expand. rewrite !app_nil_r. destruct (executing (nth q qs new_tq)); rewrite !app_length in T; gen. 1: pieces; lists. pieces. lists. }
    apply (KEEP _ [EPosted j]); auto; try discriminate; [intros [X|[]]; discriminate|]. rewrite EU. reflexivity.
  - (* notify *) apply (KEEP _ []); auto; try (symmetry; apply app_nil_r); try discriminate; expand; reflexivity.
  - apply (KEEP _ []); auto; try (symmetry; apply app_nil_r); try discriminate; expand; reflexivity.
  - (* async *)
    apply (nth_error_nth' _ _ _ new_tq) in H1 as [Hx Hl]. destruct (Nat.eqb_spec q q0) as [->|N].
    + unfold tq_async in H2. destruct (executing x) eqn:Ex; cbn [negb andb] in H2.
      * injection H2 as <- <-. apply (inv_gen q0 _ _ [ESubmit q0 t] I); auto; expand; rewrite ?nth_set, ?Nat.eqb_refl in * by lia; rewrite ?Hx in *; try rewrite Ex in *; try rewrite Sx in *; try rewrite It in *; ev; rewrite ?Nat.eqb_refl, ?app_nil_r; auto.
        -- cbn [app]. rewrite S1. lists.
        -- discriminate.
      * destruct (suspended x) eqn:Sx; cbn [negb] in H2; injection H2 as <- <-.
        -- apply (inv_gen q0 _ _ [ESubmit q0 t] I); auto; expand; rewrite ?nth_set, ?Nat.eqb_refl in * by lia; rewrite ?Hx in *; try rewrite Ex in *; try rewrite Sx in *; try rewrite It in *; ev; rewrite ?Nat.eqb_refl, ?app_nil_r; auto.
           ++ cbn [app]. rewrite S1. lists.
        -- assert (It : items x = []) by (unfold at_q in R1; cbn [queues] in R1; rewrite Hx in R1; destruct (items x); [reflexivity|]; rewrite Ex in R1; discriminate R1; auto; discriminate).
           apply (inv_gen q0 _ _ [ESubmit q0 t] I); auto; expand; rewrite ?nth_set, ?Nat.eqb_refl in * by lia; rewrite ?Hx in *; try rewrite Ex in *; try rewrite Sx in *; try rewrite It in *; ev; rewrite ?Nat.eqb_refl, ?app_nil_r; auto.
           all: rewrite ?Ex, ?It, ?Sx in *; try discriminate.
           ++ clear - T. rewrite !app_length in *. cbn [length app]. rewrite ?app_length in *. cbn [length]. lia.
           ++ clear - T S1. gen. pieces. cbn [app] in *. rewrite ?app_nil_r in *. now rewrite S1.
    + assert (Hn : (q =? q0) = false) by (now apply Nat.eqb_neq). apply (KEEP _ [ESubmit q0 t]); auto; try (symmetry; apply app_nil_r); try discriminate; try (intros [X|[]]; congruence); try congruence; expand; ev; rewrite ?nth_set, ?Hn by lia; auto;
        try (destruct o; ev; rewrite ?Hn; auto).
  - (* suspend *)
    apply (nth_error_nth' _ _ _ new_tq) in H1 as [Hx Hl]. destruct (Nat.eqb_spec q q0) as [->|N].
    + apply (inv_gen q0 _ _ [ESuspend q0] I); auto; expand; rewrite ?nth_set, ?Nat.eqb_refl in * by lia; rewrite ?Hx in *; try rewrite Ex in *; try rewrite Sx in *; try rewrite It in *; ev; rewrite ?app_nil_r; auto; try discriminate.
    + assert (Hn : (q =? q0) = false) by (now apply Nat.eqb_neq). apply (KEEP _ [ESuspend q0]); auto; try (symmetry; apply app_nil_r); try discriminate; try (intros [X|[]]; congruence); try congruence; expand; ev; rewrite ?nth_set, ?Hn by lia; auto;
        try (destruct o; ev; rewrite ?Hn; auto).
  - (* resume *)
    apply (nth_error_nth' _ _ _ new_tq) in H1 as [Hx Hl]. destruct (Nat.eqb_spec q q0) as [->|N].
    + unfold tq_resume in H2. destruct (suspended x) eqn:Sx; cbn [negb] in H2.
      * destruct (items x) as [|t r] eqn:It; [|destruct (executing x) eqn:Ex; cbn [negb] in H2]; injection H2 as <- <-;
        (apply (inv_gen q0 _ _ [EResume q0] I); auto; expand; rewrite ?nth_set, ?Nat.eqb_refl in * by lia; rewrite ?Hx in *; try rewrite Ex in *; try rewrite Sx in *; try rewrite It in *; ev; rewrite ?Nat.eqb_refl, ?app_nil_r; auto); 
        rewrite ?It, ?Ex, ?Sx in *; try discriminate; auto; try congruence.
        all: try (intros _ X; exfalso; apply X; now left).
        all: try (rewrite S1; lists; fail).
        all: try (clear - T; rewrite !app_length in *; cbn [length app]; rewrite ?app_length in *; cbn [length]; lia).
        all: try (rewrite S1; clear - T; gen; pieces; lists; fail).
      * injection H2 as <- <-. apply (inv_gen q0 _ _ [EResume q0] I); auto; expand; rewrite ?nth_set, ?Nat.eqb_refl in * by lia; rewrite ?Hx in *; try rewrite Ex in *; try rewrite Sx in *; try rewrite It in *; ev; rewrite ?Nat.eqb_refl, ?app_nil_r; auto; try discriminate.
    + assert (Hn : (q =? q0) = false) by (now apply Nat.eqb_neq). apply (KEEP _ [EResume q0]); auto; try (symmetry; apply app_nil_r); try discriminate; try (intros [X|[]]; congruence); try congruence; expand; ev; rewrite ?nth_set, ?Hn by lia; auto;
        try (destruct o; ev; rewrite ?Hn; auto).
  - (* wait *) apply (KEEP _ []); auto; try (symmetry; apply app_nil_r); try discriminate; expand; reflexivity.
  - (* take *)
    assert (EU : U q (mk_st r (a ++ WGot j :: b) cl qs (lg ++ [ETaken j])) = U q (mk_st (j :: r) (a ++ WCheck :: b) cl qs lg)).
    { clear KEEP R1 S1 B1 I I0. expand. destruct (executing (nth q qs new_tq)); rewrite !app_length in T; gen; pieces; lists. }
    apply (KEEP _ [ETaken j]); auto; try discriminate; try (intros [X|[]]; discriminate); rewrite ?EU; expand; reflexivity.
  - (* begin *)
    apply (inv_gen q _ _ [EBegin j] I); auto; expand; ev; rewrite ?app_nil_r; auto; try discriminate.
    + rewrite !app_length in *. lia.
    + clear - S1 T. destruct (executing (nth q qs new_tq)); gen; pieces; rewrite ?app_nil_r in *; rewrite ?S1; lists.
    + rewrite B1. clear - T. destruct (executing (nth q qs new_tq)); gen; pieces; lists.
    + intros Hs _. split; [exact Hs|]. rewrite !app_length. lia.
  - (* end free *)
    apply (KEEP _ [EEnd (Free t)]); auto; try discriminate; try (intros [X|[]]; discriminate); expand; reflexivity.
  - (* end bound *)
    destruct (Nat.eqb_spec q q0) as [->|N].
    + apply (inv_gen q0 _ _ [EEnd (Bound q0 t)] I); auto; expand; ev; rewrite ?Nat.eqb_refl, ?app_nil_r in *; auto; try discriminate.
      * rewrite !app_length in *. cbn [length] in *. rewrite ?app_length in *. cbn [length] in *. lia.
      * cbn [app]. rewrite B1. clear - T. destruct (executing (nth q0 qs new_tq)); gen; pieces; lists.
    + assert (Hn : (q =? q0) = false) by (now apply Nat.eqb_neq). apply (KEEP _ [EEnd (Bound q0 t)]); auto; try (symmetry; apply app_nil_r); try discriminate; try (intros [X|[]]; congruence); try congruence; expand; ev; rewrite ?nth_set, ?Hn by lia; auto;
        try (destruct o; ev; rewrite ?Hn; auto).
  - (* continue, next *)
    apply (nth_error_nth' _ _ _ new_tq) in H1 as [Hx Hl]. destruct (Nat.eqb_spec q q0) as [->|N].
    + unfold tq_continue in H2. destruct (suspended x) eqn:Sx; cbn [negb] in H2; [discriminate|]. destruct (items x) as [|t' r] eqn:It; [discriminate|]. injection H2 as <- ->.
      assert (Ex : executing x = true) by (unfold at_q in R1; cbn [queues] in R1; rewrite Hx, It in R1; apply R1; [exact Sx|discriminate]).
      apply (inv_gen q0 _ _ [] I); auto; expand; rewrite ?nth_set, ?Nat.eqb_refl in * by lia; rewrite ?Hx in *; try rewrite Ex in *; try rewrite Sx in *; try rewrite It in *; ev; rewrite ?app_nil_r; auto; rewrite ?It, ?Ex, ?Sx in *; try discriminate.
      * clear - T. rewrite !app_length in *. cbn [length app] in *. rewrite ?app_length in *. cbn [length] in *. lia.
      * clear - T S1. gen. pieces. cbn [app] in *. rewrite ?app_nil_r in *. now rewrite S1.
    + assert (Hn : (q =? q0) = false) by (now apply Nat.eqb_neq). apply (KEEP _ []); auto; try (symmetry; apply app_nil_r); try discriminate; try (intros [X|[]]; congruence); try congruence; expand; ev; rewrite ?nth_set, ?Hn by lia; auto;
        try (destruct o; ev; rewrite ?Hn; auto).
  - (* continue, stop *)
    apply (nth_error_nth' _ _ _ new_tq) in H1 as [Hx Hl]. destruct (Nat.eqb_spec q q0) as [->|N].
    + assert (Hx' : x' = mk_tq (items x) (suspended x) false /\ (suspended x = false -> items x = [])).
      { unfold tq_continue in H2. destruct (suspended x) eqn:Sx; cbn [negb] in H2; [injection H2 as <-; split; [reflexivity|discriminate]|].
        destruct (items x) as [|t' r] eqn:It; [|discriminate]. injection H2 as <-. auto. }
      destruct Hx' as [-> Hi].
      assert (Ex : executing x = true).
      { expand. rewrite Hx in T. rewrite !Nat.eqb_refl in T. cbn [app length] in T. rewrite !app_length in T. cbn [length] in T. destruct (executing x); [reflexivity|lia]. }
      apply (inv_gen q0 _ _ [] I); auto; expand; rewrite ?nth_set, ?Nat.eqb_refl in * by lia; rewrite ?Hx in *; try rewrite Ex in *; try rewrite Sx in *; try rewrite It in *; ev; rewrite ?app_nil_r; auto; rewrite ?Ex in *; try discriminate.
      * clear - T. rewrite !app_length in *. cbn [length app] in *. rewrite ?app_length in *. cbn [length] in *. lia.
    + assert (Hn : (q =? q0) = false) by (now apply Nat.eqb_neq). apply (KEEP _ []); auto; try (symmetry; apply app_nil_r); try discriminate; try (intros [X|[]]; congruence); try congruence; expand; ev; rewrite ?nth_set, ?Hn by lia; auto;
        try (destruct o; ev; rewrite ?Hn; auto).
  - (* worker posts *)
    assert (EU : U q (mk_st (p ++ [j]) (a ++ WNotify :: b) cl qs (lg ++ [EPosted j])) = U q (mk_st p (a ++ WPost j :: b) cl qs lg)).
    { clear KEEP R1 S1 B1 I I0. expand. rewrite !app_nil_r. destruct (executing (nth q qs new_tq)); rewrite !app_length in T; gen; pieces; lists. }
    apply (KEEP _ [EPosted j]); auto; try discriminate; try (intros [X|[]]; discriminate); rewrite ?EU; expand; reflexivity.
  - (* worker notifies *)
    assert (G : forall f : worker -> list nat, f WCheck = [] -> f WWait = [] -> f WNotify = [] -> flat_map f (wa ++ WCheck :: wb) = flat_map f (a ++ WNotify :: b)).
    { intros f F1 F2 F3. assert (X := f_equal (flat_map f) H1). rewrite !flat_map_app in *. cbn [flat_map] in *. rewrite ?F1, ?F2, ?F3 in *. cbn [app] in *. now rewrite X. }
    apply (KEEP _ []); auto; try (symmetry; apply app_nil_r); try discriminate; unfold U, Uw, R, K, Uc, Up; cbn [workers pool calls]; rewrite ?(G _ eq_refl eq_refl eq_refl); reflexivity.
  - apply (KEEP _ []); auto; try (symmetry; apply app_nil_r); try discriminate; expand; reflexivity.
Qed.
Theorem inv_reachable n s : reachable n s -> forall q, inv q s.
Proof. induction 1; intros q; [apply inv_start|eapply inv_step; eauto]. Qed.
