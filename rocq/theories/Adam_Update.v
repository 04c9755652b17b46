(** What update() computes. *)
From Coq Require Import String Permutation Sorted.
From Verif Require Import Prelude Vm_Value Adam_Model Adam_Spec Adam_Flow Adam_Build Adam_Frame Adam_Eval Adam_Quiet.
From Coq Require Import List.
Import ListNotations.
Local Open Scope nat_scope.
Ltac Zify.zify_post_hook ::= idtac.

(** what every client of a sheet can rely on: no name is pending, and interface cells contribute to themselves *)
Definition calm (Sh : sheet) (s : dyn) : Prop := d_stack s = [] /\ bits_ok Sh s.

Section Update.
Variable Sh : sheet.
Hypothesis W : wf Sh.
Variable T : nat -> option (nat * nat * nat).
Variable inp : nat -> value.
Variable rank : name -> nat.
Hypothesis AC : acyclic_by Sh T rank.
Hypothesis ONCE : self_once Sh T.

(** above every rank *)
Definition top_rank : nat := Datatypes.S (list_max (map (fun p => rank (fst p)) (name_index Sh))).
Lemma top_rank_ok n c : lookup n (name_index Sh) = Some c -> rank n < top_rank.
Proof using.
  clear W AC ONCE T inp.
  intros H. apply lookup_In in H. unfold top_rank.
  pose proof (proj1 (list_max_le (map (fun p => rank (fst p)) (name_index Sh)) _) (le_n _)) as Q.
  rewrite Forall_forall in Q. specialize (Q (rank n)). 
  assert (In (rank n) (map (fun p => rank (fst p)) (name_index Sh))) by (apply in_map_iff; exists (n, c); auto).
  specialize (Q H0). lia.
Qed.
(** an expression evaluated when no cell is being evaluated *)
Lemma calc_expr_ok Ready B e s : (forall m c, may_look e m -> lookup m (name_index Sh) = Some c -> rank m < B) -> consistent Sh T inp Ready s -> d_stack s = [] ->
  match calc_expr Sh e s with
  | RUB => True
  | RThrow _ _ => True
  | ROk v s' => consistent Sh T inp Ready s' /\ ext Sh rank B s s' /\ d_stack s' = [] /\ run (value_of Sh s') e = Some v /\
      forced Sh T inp (d_acc s') (fun _ val' => run val' e) v
  end.
Proof using W AC ONCE.
  intros HB C St.
  pose proof (ev_gen Sh T inp rank Ready (get_top Sh) (fun s1 => d_stack s1 = []) B (fun m => forall c, lookup m (name_index Sh) = Some c -> rank m < B)
    (fun s1 => value_of Sh s1) (fun _ val' => val')) as G.
  specialize (G ltac:(intros s1 s2 x w X; exact (value_of_mono Sh rank B s1 s2 x w X))).
  assert (Step : forall n s1, (forall c, lookup n (name_index Sh) = Some c -> rank n < B) -> consistent Sh T inp Ready s1 -> d_stack s1 = [] ->
     match get_top Sh n s1 with
     | RUB => True
     | RThrow _ _ => True
     | ROk v s' => consistent Sh T inp Ready s' /\ d_stack s' = [] /\ ext Sh rank B s1 s' /\ d_stack s' = d_stack s1 /\
        value_of Sh s' n = Some v /\ forced Sh T inp (d_acc s') (fun inp' val' => val' n) v
     end).
  { intros n s1 Hn C1 S1.
    assert (Tk : top_ok Sh rank Ready s1 n) by (unfold top_ok; rewrite S1; exact Logic.I).
    pose proof (get_correct Sh W T inp rank AC ONCE Ready (depth Sh) n s1 C1 Tk) as Q.
    unfold get_top. unfold get_ok, bound, answer in Q. rewrite S1 in Q.
    destruct (lookup n (name_index Sh)) as [c|] eqn:Lk.
    - destruct (get Sh (depth Sh) n s1) as [v s2|x s2|]; [|exact Logic.I|exact Logic.I].
      destruct Q as (Q1 & Q2 & Q3 & Q4 & Q5). specialize (Hn c eq_refl).
      apply (ext_weaken Sh rank _ B) in Q2; [|lia]. rewrite S1. auto 10.
    - destruct (depth Sh) as [|f]; cbn [get]; [exact Logic.I|]. unfold get_body. rewrite Lk. exact Logic.I. }
  specialize (G Step e s (fun m Hm c => HB m c Hm) C St). unfold calc_expr.
  destruct (ev (get_top Sh) e s) as [v s'|x s'|]; auto. destruct G as (G1 & G2 & G3 & G4 & G5 & G6). auto 10.
Qed.

(** *** the conditionals *)
Lemma conditionals_rres : forall rs r s u s1, conditionals Sh rs r s = ROk u s1 ->
  forall q, d_rres s1 q = false -> d_rres s q = false.
Proof.
  induction rs as [|x rs IH]; intros r s u s1; cbn [conditionals]; [intros [= _ <-]; auto|].
  destruct (r_cond x) as [e|]; [|apply IH].
  pose proof (calc_expr_frame Sh e s) as F. destruct (calc_expr Sh e s) as [v s2|y s2|]; try discriminate. cbn [keeps] in F.
  destruct F as (_ & _ & _ & _ & _ & _ & F & _).
  destruct v as [|[|]| | | | | | |]; try discriminate.
  - intros H q Hq. rewrite <- F. exact (IH _ _ _ _ H q Hq).
  - cbv zeta. intros H q Hq. specialize (IH _ _ _ _ H q Hq). cbn [d_rres w_rres] in IH.
    pose proof (fold_dec_other (r_edges x) s2) as Fo. cbv zeta in Fo. rewrite Fo in IH. cbn [d_rres w_count] in IH. rewrite F in IH.
    rewrite fset_eq in IH. destruct (q =? r); [discriminate|exact IH].
Qed.
(** the conditions have these values *)
Definition decided (rs : list relation) (r : nat) (s1 : dyn) : Prop :=
  forall j x, nth_error rs j = Some x ->
    match r_cond x with
    | None => d_rres s1 (r + j) = false
    | Some e => exists b, run (value_of Sh s1) e = Some (VBool b) /\ d_rres s1 (r + j) = negb b /\
        forced Sh T inp (d_acc s1) (fun _ val' => run val' e) (VBool b)
    end.
Definition waits (s1 : dyn) : Prop := forall c t, T c = Some t -> exists q, In q (rindex Sh c) /\ d_rres s1 q = false.
Definition idle (c : nat) : Prop := T c = None.
(** get() only evaluates more: the facts that do not mention ranks *)
Definition grows (s s' : dyn) : Prop :=
  (forall c, d_evaluated s c = true -> d_evaluated s' c = true) /\
  (forall c, d_state s' c = d_state s c \/ (d_evaluated s c = false /\ d_evaluated s' c = true)) /\
  (forall c, (d_dirty s' c = d_dirty s c /\ d_evaluated s' c = d_evaluated s c) \/
     (d_evaluated s c = false /\ d_evaluated s' c = true /\ d_dirty s' c = negb (veqb (d_state s' c) (d_state s c)))) /\
  sub (d_acc s) (d_acc s').
Lemma grows_refl s : grows s s.
Proof. repeat split; auto. apply sub_refl. Qed.
Lemma grows_trans s s' s'' : grows s s' -> grows s' s'' -> grows s s''.
Proof.
  intros (a1 & a2 & a7 & a8) (b1 & b2 & b7 & b8). split; [auto|]. split; [|split].
  - intros c. destruct (a2 c) as [A|[A A']]; destruct (b2 c) as [Bb|[Bb B']].
    + left. congruence.
    + right. split; auto. destruct (d_evaluated s c) eqn:E; auto. rewrite (a1 c E) in Bb. discriminate.
    + right. auto.
    + congruence.
  - intros c. destruct (b7 c) as [[Hb Hb']|(Hb1 & Hb2 & Hb3)].
    + rewrite Hb, Hb'. destruct (a7 c) as [Ha|(Ha1 & Ha2 & Ha3)]; [left; exact Ha|right].
      split; auto. split; auto. rewrite Ha3. destruct (b2 c) as [->|[Hx _]]; [reflexivity|congruence].
    + right. destruct (d_evaluated s c) eqn:E; [rewrite (a1 c E) in Hb1; discriminate|].
      split; auto. split; auto. rewrite Hb3. destruct (a2 c) as [->|[_ Hx]]; [reflexivity|congruence].
  - eapply sub_trans; eauto.
Qed.
Lemma ext_grows B s s' : ext Sh rank B s s' -> grows s s'.
Proof. intros [a1 a2 a3 a4 a5 a6 a7 a8 a9]. split; [exact a1|]. split; [exact a2|]. split; [exact a7|exact a6]. Qed.
Lemma grows_value s s' n v : grows s s' -> value_of Sh s n = Some v -> value_of Sh s' n = Some v.
Proof.
  intros (a1 & a2 & _). unfold value_of. destruct (lookup n (name_index Sh)) as [c|]; auto.
  destruct (d_evaluated s c) eqn:E; [|discriminate]. rewrite (a1 c E). destruct (a2 c) as [->|[H _]]; [auto|congruence].
Qed.
Lemma pending_idle r s s1 : pending Sh r s -> waits s1 -> (forall q, d_rres s1 q = false -> d_rres s q = false) ->
  forall c, d_count s c = 0%N -> idle c.
Proof.
  intros [P _] Wt Mono c Hc. unfold idle. destruct (T c) as [t|] eqn:E; auto. exfalso.
  destruct (Wt c t E) as (q & Hq & Hr). rewrite P in Hc.
  assert (F : In q (filter (fun q => negb (d_rres s q)) (rindex Sh c))) by (apply filter_In; split; auto; now rewrite (Mono q Hr)).
  destruct (filter _ (rindex Sh c)); [destruct F|discriminate].
Qed.
Lemma cons_fields (Ready Ready' : nat -> Prop) s s' : consistent Sh T inp Ready s -> d_state s' = d_state s -> d_evaluated s' = d_evaluated s -> d_contrib s' = d_contrib s ->
  (forall c, d_count s' c = 0%N -> Ready' c) -> (forall c, Ready' c -> d_term s' c = T c) -> consistent Sh T inp Ready' s'.
Proof.
  intros [c0 c1 c2 c3 c4 c5 c6] E2 E3 E4 H1 H2. constructor; rewrite ?E2, ?E3, ?E4; auto.
  intros n c Hn He. apply (def_value_mono Sh T inp (value_of Sh s)); [|now apply (c2 n)].
  intros x w. now rewrite (value_of_same Sh s s' E3 E2).
Qed.
(** only cells ranking below [B] have been evaluated *)
Definition only_below (B : nat) (s s' : dyn) : Prop := forall c, d_evaluated s' c = true ->
  d_evaluated s c = true \/ exists n, lookup n (name_index Sh) = Some c /\ rank n < B.
Lemma only_below_trans B s s' s'' : only_below B s s' -> only_below B s' s'' -> only_below B s s''.
Proof. intros H H' c Hc. destruct (H' c Hc) as [E|E]; auto. Qed.
Definition conditions_below (B : nat) : Prop := forall x e m c, In x (rels Sh) -> r_cond x = Some e -> may_look e m ->
  lookup m (name_index Sh) = Some c -> rank m < B.
Lemma conditions_top : conditions_below top_rank.
Proof using. intros x e m c _ _ _ H. exact (top_rank_ok m c H). Qed.
Lemma conditionals_ok B : conditions_below B -> forall rs r s u s1, (forall i, nth_error rs i = nth_error (rels Sh) (r + i)) -> pending Sh r s ->
  consistent Sh T inp idle s -> d_stack s = [] -> conditionals Sh rs r s = ROk u s1 -> waits s1 ->
  consistent Sh T inp idle s1 /\ d_stack s1 = [] /\ grows s s1 /\ decided rs r s1 /\
  (forall q, q < r -> d_rres s1 q = d_rres s q) /\ only_below B s s1.
Proof using W AC ONCE.
  intros HB. induction rs as [|x rs IH]; intros r s u s1 Hrs P C St; cbn [conditionals].
  - intros [= _ <-] Wt. split; [exact C|]. split; [exact St|]. split; [apply grows_refl|].
    split; [intros [|j] x H; discriminate|]. split; [auto|]. intros c Hc. now left.
  - assert (Hrs' : forall i, nth_error rs i = nth_error (rels Sh) (Datatypes.S r + i)).
    { intros i. specialize (Hrs (Datatypes.S i)). cbn [nth_error] in Hrs. rewrite Hrs. f_equal. lia. }
    assert (Hx : nth_error (rels Sh) r = Some x) by (specialize (Hrs 0); rewrite Nat.add_0_r in Hrs; now rewrite <- Hrs).
    assert (Weak : forall s', pending Sh r s' -> pending Sh (Datatypes.S r) s') by (intros s' [A A']; split; auto; intros; apply A'; lia).
    destruct (r_cond x) as [e|] eqn:Hc.
    + pose proof (calc_expr_ok idle B e s (fun m c => HB x e m c (nth_error_In _ _ Hx) Hc) C St) as Q. pose proof (calc_expr_frame Sh e s) as F.
      destruct (calc_expr Sh e s) as [v s2|y s2|] eqn:Ee; try discriminate. cbn [keeps] in F. destruct Q as (Q1 & Q2 & Q3 & Q4 & Q5).
      assert (P2 : pending Sh r s2).
      { destruct P as [P1 P2]. destruct F as (_ & _ & F1 & _ & _ & _ & F2 & _). split; rewrite ?F1, ?F2; auto. }
      assert (Ob : only_below B s s2).
      { intros c Hc'. destruct (E_new _ _ _ _ _ Q2 c Hc') as [?|(m & M1 & M2 & _)]; [now left|right; eauto]. }
      assert (Fin : forall b s3, grows s2 s3 -> only_below B s2 s3 -> consistent Sh T inp idle s3 -> d_stack s3 = [] -> pending Sh (Datatypes.S r) s3 ->
         v = VBool b -> d_rres s3 r = negb b -> (forall q, q < r -> d_rres s3 q = d_rres s q) ->
         conditionals Sh rs (Datatypes.S r) s3 = ROk u s1 -> waits s1 ->
         consistent Sh T inp idle s1 /\ d_stack s1 = [] /\ grows s s1 /\ decided (x :: rs) r s1 /\ (forall q, q < r -> d_rres s1 q = d_rres s q) /\ only_below B s s1).
      { intros b s3 G3 O3 C3 St3 P3 -> Rb Rq E Wt. destruct (IH (Datatypes.S r) s3 u s1 Hrs' P3 C3 St3 E Wt) as (I1 & I2 & I3 & I4 & I5 & I6).
        split; [exact I1|]. split; [exact I2|]. pose proof (grows_trans _ _ _ G3 I3) as G31.
        split; [eapply grows_trans; [exact (ext_grows _ _ _ Q2)|exact G31]|]. split.
        - intros [|j] y; cbn [nth_error].
          + intros [= <-]. rewrite Hc. exists b. rewrite Nat.add_0_r. split; [|split].
            * revert Q4. apply run_mono. intros m w. now apply grows_value.
            * rewrite I5 by lia. exact Rb.
            * revert Q5. apply forced_sub. apply G31.
          + intros Hj. specialize (I4 j y Hj). replace (r + Datatypes.S j) with (Datatypes.S r + j) by lia. exact I4.
        - split; [intros q Hq; rewrite I5 by lia; now apply Rq|]. exact (only_below_trans _ _ _ _ Ob (only_below_trans _ _ _ _ O3 I6)). }
      destruct F as (_ & _ & F1 & _ & _ & _ & F2 & _).
      destruct v as [|[|]| | | | | | |]; try discriminate.
      * apply (Fin true); auto using grows_refl.
        -- intros c Hc'. now left.
        -- rewrite F2. apply P. lia.
        -- intros q _. now rewrite F2.
      * cbv zeta. set (s3 := fold_left (fun s c => dec_count c s) (r_edges x) s2).
        pose proof (fold_dec_other (r_edges x) s2) as Fo. cbv zeta in Fo. fold s3 in Fo.
        pose proof (fold_dec_count (r_edges x) (edges_NoDup Sh W r x Hx) s2) as Fc. fold s3 in Fc.
        clearbody s3. intros E Wt.
        assert (Er : d_rres s3 = d_rres s2) by (rewrite Fo; reflexivity).
        assert (Gr : grows s2 (w_rres (fset (d_rres s3) r true) s3)).
        { rewrite Fo. split; [auto|]. split; [intros; left; reflexivity|]. split; [intros; left; split; reflexivity|apply sub_refl]. }
        assert (P3 : pending Sh (Datatypes.S r) (w_rres (fset (d_rres s3) r true) s3)).
        { destruct P2 as [P1 P2]. split.
          * intros c. cbn [w_rres d_count d_rres]. rewrite Fc, Er, P1.
            destruct (mem c (r_edges x)) eqn:Em.
            -- assert (In r (rindex Sh c)).
               { apply rindex_In. split; [apply nth_error_Some; congruence|]. rewrite (edges_rel Sh r x Hx). now apply mem_In. }
               assert (Fm : length (filter (fun q => negb (d_rres s2 q)) (rindex Sh c)) =
                 length (filter (fun q => negb (fset (d_rres s2) r true q)) (rindex Sh c)) + 1).
               { apply (filter_minus_one _ _ (rindex Sh c) r (rindex_NoDup Sh c) H).
                 - rewrite P2 by lia. reflexivity.
                 - rewrite fset_same. reflexivity.
                 - intros q _ Hq. rewrite fset_other; auto. }
               rewrite Fm, dec_pos; lia.
            -- do 2 f_equal. apply filter_eq. intros q Hq. rewrite fset_other; auto. intros ->.
               apply rindex_In in Hq as [_ Hq]. rewrite (edges_rel Sh r x Hx) in Hq. apply mem_In in Hq. congruence.
          * intros q Hq. cbn [w_rres d_rres]. rewrite Er, fset_other by lia. apply P2. lia. }
        apply (Fin false _ Gr); auto.
        -- intros c Hc'. left. rewrite Fo in Hc'. exact Hc'.
        -- apply (cons_fields idle idle s2); [exact Q1|rewrite Fo; reflexivity|rewrite Fo; reflexivity|rewrite Fo; reflexivity| |].
           ++ apply (pending_idle _ _ s1 P3 Wt). intros q Hq. exact (conditionals_rres _ _ _ _ _ E q Hq).
           ++ rewrite Fo. exact (C_term _ _ _ _ _ Q1).
        -- rewrite Fo. exact Q3.
        -- cbn [d_rres w_rres]. apply fset_same.
        -- intros q Hq. cbn [d_rres w_rres]. rewrite fset_other by lia. rewrite Er. now rewrite F2.
    + intros E Wt. destruct (IH (Datatypes.S r) s u s1 Hrs' (Weak s P) C St E Wt) as (I1 & I2 & I3 & I4 & I5 & I6).
      split; [exact I1|]. split; [exact I2|]. split; [exact I3|]. split; [|split; [intros q Hq; apply I5; lia|exact I6]].
      intros [|j] y; cbn [nth_error].
      * intros [= <-]. rewrite Hc, Nat.add_0_r, I5 by lia. apply P. lia.
      * intros Hj. specialize (I4 j y Hj). replace (r + Datatypes.S j) with (Datatypes.S r + j) by lia. exact I4.
Qed.
(** the state update() starts from *)
Lemma leaf_def c val : is_leaf Sh c = true -> def_value Sh T inp val c = Some (inp c).
Proof.
  unfold is_leaf, spec_is, cell_at, def_value. destruct (nth_error (cells Sh) c) as [k|]; [|discriminate].
  destruct (c_spec k); try discriminate; reflexivity.
Qed.
Lemma clear_cons s s1 : inp = d_state s -> bits_ok Sh s -> waits s1 -> consistent Sh T inp idle (clear Sh s).
Proof.
  intros Ei B Wt. assert (Es : d_state (clear Sh s) = inp) by (rewrite Ei; reflexivity). constructor.
  - intros c Hc. apply (pending_idle 0 (clear Sh s) s1 (clear_pending Sh s) Wt); [intros; reflexivity|exact Hc].
  - intros c Hc. symmetry. exact Hc.
  - intros n c Hn He. rewrite Es. apply leaf_def. exact He.
  - intros c i _ _. now rewrite Es.
  - intros c H. exact H.
  - intros n c Hn He inp' val' [A _] Sv v' E. destruct (Sv n v' E) as (c' & Hc' & D). assert (c' = c) by congruence. subst c'.
    unfold def_value, is_leaf, spec_is, cell_at in *. cbn [clear d_evaluated w_acc w_rres w_resolved w_evaluated] in He.
    unfold is_leaf, spec_is, cell_at in He. specialize (A c).
    unfold is_leaf, spec_is, cell_at in A. destruct (nth_error (cells Sh) c) as [k|]; [|discriminate].
    destruct (c_spec k); try discriminate; injection D as <-; rewrite Es; exact (A He).
  - exact B.
Qed.

(** *** evaluation *)
Definition any (_ : nat) : Prop := True.
(** the input halves that have been overwritten *)
Definition applied (s : dyn) (c : nat) : Prop := d_evaluated s c = true /\
  forall i, input_of Sh c = Some i -> linked Sh i = true -> d_state s i = d_state s c.
Lemma evaluate_cell_ok c n s : In (n, c) (output_index Sh) -> consistent Sh T inp any s -> d_stack s = [] ->
  match evaluate_cell Sh c s with
  | RUB => True
  | RThrow _ _ => True
  | ROk _ s' => consistent Sh T inp any s' /\ d_stack s' = [] /\ applied s' c /\ 
      (forall d, d_evaluated s d = true -> d_evaluated s' d = true) /\
      (forall d, (forall e, input_of Sh e <> Some d) -> d_state s' d = d_state s d \/ (d_evaluated s d = false /\ d_evaluated s' d = true)) /\
      (forall e d, input_of Sh e = Some d -> (e <> c \/ linked Sh d = false) -> d_state s' d = d_state s d) /\
      (forall d, (forall e, input_of Sh e <> Some d) -> (d_dirty s' d = d_dirty s d /\ d_evaluated s' d = d_evaluated s d) \/
         (d_evaluated s d = false /\ d_evaluated s' d = true /\ d_dirty s' d = negb (veqb (d_state s' d) (d_state s d)))) /\
      (forall d, d_evaluated s d = false -> d_evaluated s' d = true -> sub (d_cond s) (d_contrib s' d)) /\
      (forall d, d_evaluated s d = true -> sub (d_contrib s d) (d_contrib s' d)) /\ frame s s'
  end.
Proof using W AC ONCE.
  intros Hn C St. destruct (W_output Sh W n c Hn) as (Hname & k & Hk & Hkn & Hout).
  assert (Lk : lookup n (name_index Sh) = Some c) by (apply In_lookup; auto; apply W).
  assert (Nin : forall e, input_of Sh e <> Some c) by (intros e He; exact (lk_not_input Sh W n c e c Lk He eq_refl)).
  unfold evaluate_cell, cell_at. rewrite Hk. cbv zeta.
  set (r := if d_evaluated s c then _ else _).
  assert (Q : match r with
    | RUB => True
    | RThrow _ _ => True
    | ROk _ s' => consistent Sh T inp any s' /\ d_stack s' = [] /\ d_evaluated s' c = true /\ grows (w_acc 0%N s) s' /\ 
       (forall e i, input_of Sh e = Some i -> d_state s' i = d_state s i) /\
       (forall d, d_evaluated s d = false -> d_evaluated s' d = true -> sub (d_cond s) (d_contrib s' d)) /\
       (forall d, d_evaluated s d = true -> sub (d_contrib s d) (d_contrib s' d)) /\ frame s s'
    end).
  { unfold r. destruct (d_evaluated s c) eqn:Ev.
    { split; [exact C|]. split; [exact St|]. split; [exact Ev|]. split; [|split; [auto|split; [intros d H H'; congruence|split; [intros; apply sub_refl|apply frame_refl]]]].
      split; [auto|]. split; [intros; now left|]. split; [intros; left; split; reflexivity|]. intros i Hi. discriminate. }
    clear r. set (s2 := if is_ifout Sh c then _ else _).
    assert (S2 : d_evaluated s2 = d_evaluated s /\ d_state s2 = d_state s /\ d_contrib s2 = d_contrib s /\ d_acc s2 = 0%N /\ d_term s2 = d_term s /\
      d_dirty s2 = d_dirty s /\ frame s s2 /\ d_stack s2 = if is_ifout Sh c then [(n, false)] else []).
    { unfold s2. rewrite <- St, Hkn. destruct (is_ifout Sh c); repeat split. }
    clearbody s2. destruct S2 as (Se & Ss & Sc & Sa & Sm & Sd & Sf & Sk).
    unfold calculate, cell_at. rewrite Hk, Se, Ev. destruct (d_count s2 c =? 0)%N; cbn [negb]; [|exact Logic.I].
    assert (C2 : consistent Sh T inp any s2) by (revert C; apply consistent_eq; auto; exact (proj1 (proj2 (proj2 Sf)))).
    pose proof (run_calc_ok Sh W T inp rank AC ONCE any (get_top Sh) (get_correct Sh W T inp rank AC ONCE any (depth Sh)) n c k [] s2 Lk Hk) as Q.
    rewrite Se in Q. specialize (Q Ev Logic.I C2 Sk ltac:(intros; discriminate)).
    destruct (run_calc (get_top Sh) (c_calc k) s2) as [v s3|x s3|]; [|exact Logic.I|exact Logic.I].
    destruct Q as (Q1 & Q2 & Q3 & Q4 & Q5 & Q6).
    set (s4 := w_evaluated _ _). set (s5 := pop Sh c s4).
    assert (S5 : d_evaluated s5 = fset (d_evaluated s3) c true /\ d_state s5 = fset (d_state s3) c v /\ d_term s5 = d_term s3 /\
        d_dirty s5 = fset (d_dirty s3) c (negb (veqb v (d_state s3 c))) /\ d_acc s5 = d_acc s3 /\ frame s3 s5 /\
        d_stack s5 = [] /\ d_contrib s5 = d_contrib s3).
    { unfold s5, pop, s4. unfold pushed in Q4. destruct (is_ifout Sh c).
      - destruct Q4 as (b & Q4). cbn [d_evaluated d_state d_term d_dirty d_acc d_stack d_contrib w_stack w_evaluated w_state w_dirty].
        rewrite Q4. repeat split.
      - cbn [d_evaluated d_state d_term d_dirty d_acc d_stack d_contrib w_stack w_evaluated w_state w_dirty]. repeat (split; [reflexivity || exact Q4|]).
        split; [repeat split|]. auto. }
    clearbody s5. clear s4. destruct S5 as (S5e & S5s & S5t & S5d & S5a & S5f & S5k & S5c).
    set (s6 := w_contrib _ s5).
    assert (S6c : forall d, d <> c -> d_contrib s6 d = d_contrib s3 d).
    { intros d Hd. unfold s6. cbn [d_contrib w_contrib]. rewrite fset_other by exact Hd. now rewrite S5c. }
    assert (S6b : sub (d_acc s3) (d_contrib s6 c)).
    { unfold s6. cbn [d_contrib w_contrib]. rewrite fset_same, S5a. apply sub_lor_l. }
    assert (S6d : sub (d_cond s) (d_contrib s6 c)).
    { unfold s6. cbn [d_contrib w_contrib]. rewrite fset_same.
      assert (d_cond s5 = d_cond s) as ->; [|apply sub_lor_r].
      pose proof (frame_trans _ _ _ (frame_trans _ _ _ Sf (E_frame _ _ _ _ _ Q2)) S5f) as (_ & _ & _ & _ & _ & _ & _ & F & _). exact F. }
    assert (S6 : d_evaluated s6 = d_evaluated s5 /\ d_state s6 = d_state s5 /\ d_term s6 = d_term s5 /\ d_dirty s6 = d_dirty s5 /\ frame s3 s6 /\ d_stack s6 = []).
    { split; [reflexivity|]. split; [reflexivity|]. split; [reflexivity|]. split; [reflexivity|]. split; [exact S5f|exact S5k]. }
    clearbody s6. destruct S6 as (S6e & S6s & S6t & S6dd & S6f & S6k). rewrite S5e in S6e. rewrite S5s in S6s. rewrite S5t in S6t. rewrite S5d in S6dd.
    clear s5 S5e S5s S5t S5d S5a S5f S5k S5c.
    assert (Val : forall m w, value_of Sh s3 m = Some w -> value_of Sh s6 m = Some w).
    { intros m w. unfold value_of. destruct (lookup m (name_index Sh)) as [d|]; [|auto]. rewrite S6e, S6s, !fset_eq.
      destruct (Nat.eqb_spec d c) as [->|]; [rewrite Q3; discriminate|auto]. }
    assert (Dv : def_value Sh T inp (value_of Sh s6) c = Some v) by (revert Q5; now apply def_value_mono).
    assert (Ff : forced Sh T inp (d_acc s3) (fun _ val' => val' n) v).
    { intros inp' val' A Sv v' E. destruct (Sv n v' E) as (c' & L' & D'). assert (c' = c) by congruence. subst c'.
      exact (Q6 inp' val' A Sv v' D'). }
    split.
    { destruct Q1 as [c0 c1 c2 c3 c4 c5 c6]. constructor.
      - intros d _. exact Logic.I.
      - intros d. rewrite S6t. apply c1.
      - intros m d Hm. rewrite S6e, S6s, !fset_eq. destruct (Nat.eqb_spec d c) as [->|Hd]; [intros _; exact Dv|].
        intros He. apply (def_value_mono Sh T inp (value_of Sh s3)); [exact Val|exact (c2 m d Hm He)].
      - intros d i Hi. rewrite S6e, S6s, !fset_eq. destruct (Nat.eqb_spec d c) as [->|Hd]; [discriminate|]. intros He.
        rewrite (proj2 (Nat.eqb_neq i c)); [exact (c3 d i Hi He)|exact (lk_not_input Sh W n c d i Lk Hi)].
      - intros d Hd. rewrite S6e, fset_eq. destruct (d =? c); auto.
      - intros m d Hm. rewrite S6e, S6s, !fset_eq. destruct (Nat.eqb_spec d c) as [->|Hd].
        + intros _. assert (m = n) by (eapply (lk_inj Sh W); eauto). subst m. apply (forced_sub Sh T inp (d_acc s3)); auto.
        + intros He. rewrite S6c by exact Hd. exact (c5 m d Hm He).
      - intros d i Hi. rewrite S6c by exact (lk_not_input Sh W n c d i Lk Hi). exact (c6 d i Hi). }
    split; [exact S6k|]. split; [rewrite S6e; apply fset_same|]. destruct Q2 as [q1 q2 q3 q4 q5 q6 q7 q8 q9].
    rewrite Se in q1, q2, q3, q4, q7. rewrite Ss in q2, q7. rewrite Sd in q7. split.
    { split; [|split; [|split]].
      - intros d Hd. cbn [d_evaluated w_acc] in Hd. rewrite S6e, fset_eq. destruct (d =? c); auto.
      - intros d. cbn [d_evaluated d_state w_acc]. rewrite S6e, S6s, !fset_eq. destruct (Nat.eqb_spec d c) as [->|Hd]; [right; auto|]. apply q2.
      - intros d. cbn [d_evaluated d_state d_dirty w_acc]. rewrite S6e, S6s, S6dd, !fset_eq. destruct (Nat.eqb_spec d c) as [->|Hd]; [|apply q7].
        right. split; [exact Ev|]. split; [reflexivity|]. destruct (q2 c) as [->|[_ E]]; [reflexivity|congruence].
      - intros i Hi. discriminate. }
    assert (Fr : frame s s6) by (exact (frame_trans _ _ _ (frame_trans _ _ _ Sf q8) S6f)).
    split; [|split; [|split; [|exact Fr]]].
    2:{ intros d He. rewrite S6e, fset_eq. destruct (Nat.eqb_spec d c) as [->|Hd]; [intros _; exact S6d|]. rewrite S6c by exact Hd. intros He'.
        assert (d_cond s2 = d_cond s) as <- by (destruct Sf as (_ & _ & _ & _ & _ & _ & _ & Fc & _); exact Fc).
        apply q9; [rewrite Se; exact He|exact He']. }
    2:{ intros d Hd. rewrite S6c by congruence. rewrite <- Sc. apply q4. exact Hd. }
    intros e i Hi. rewrite S6s, fset_other by exact (lk_not_input Sh W n c e i Lk Hi).
    destruct (q2 i) as [E|[E1 E2]]; [exact E|exfalso].
    destruct (q3 i E2) as [E3|(m & E3 & _)]; [congruence|]. exact (lk_not_input Sh W m i e i E3 Hi eq_refl). }
  clearbody r. destruct r as [u s1|x s1|]; [|exact Logic.I|exact Logic.I].
  destruct Q as (Q1 & Q2 & Q3 & (Q4 & Q5 & Q6 & _) & Q7 & Q8 & Q9 & Q10). cbn [d_evaluated d_state d_dirty w_acc] in Q4, Q5, Q6.
  assert (Keep : forall s', s' = s1 -> (forall i, input_of Sh c = Some i -> linked Sh i = false) ->
    consistent Sh T inp any s' /\ d_stack s' = [] /\ applied s' c /\ 
      (forall d, d_evaluated s d = true -> d_evaluated s' d = true) /\
      (forall d, (forall e, input_of Sh e <> Some d) -> d_state s' d = d_state s d \/ (d_evaluated s d = false /\ d_evaluated s' d = true)) /\
      (forall e d, input_of Sh e = Some d -> (e <> c \/ linked Sh d = false) -> d_state s' d = d_state s d) /\
      (forall d, (forall e, input_of Sh e <> Some d) -> (d_dirty s' d = d_dirty s d /\ d_evaluated s' d = d_evaluated s d) \/
         (d_evaluated s d = false /\ d_evaluated s' d = true /\ d_dirty s' d = negb (veqb (d_state s' d) (d_state s d)))) /\
      (forall d, d_evaluated s d = false -> d_evaluated s' d = true -> sub (d_cond s) (d_contrib s' d)) /\
      (forall d, d_evaluated s d = true -> sub (d_contrib s d) (d_contrib s' d)) /\ frame s s').
  { intros s' -> Hl. split; [exact Q1|]. split; [exact Q2|]. split; [split; [exact Q3|intros i Hi Hi'; rewrite (Hl i Hi) in Hi'; discriminate]|].
    split; [exact Q4|]. split; [intros d _; apply Q5|]. split; [intros e d Hd _; exact (Q7 e d Hd)|]. split; [intros d _; apply Q6|]. split; [exact Q8|]. split; [exact Q9|exact Q10]. }
  assert (Hci : forall i, c_in k = Some i <-> input_of Sh c = Some i) by (intros i; unfold input_of, cell_at; rewrite Hk; tauto).
  destruct (c_in k) as [i|]; [|apply Keep; [reflexivity|intros i Hi; apply Hci in Hi; discriminate]].
  assert (Hi : input_of Sh c = Some i) by now apply Hci.
  destruct (linked Sh i) eqn:Hl; [|apply Keep; [reflexivity|intros j Hj; assert (j = i) by congruence; now subst j]].
  clear Keep. set (s2 := w_state _ s1).
  assert (Sx : forall d, d <> i -> d_state s2 d = d_state s1 d) by (intros d Hd; unfold s2; cbn [d_state w_state]; now apply fset_other).
  assert (Si : d_state s2 i = d_state s1 c) by (unfold s2; cbn [d_state w_state]; apply fset_same).
  assert (S2 : d_evaluated s2 = d_evaluated s1 /\ d_contrib s2 = d_contrib s1 /\ d_term s2 = d_term s1 /\ d_dirty s2 = d_dirty s1 /\ d_stack s2 = d_stack s1 /\ d_count s2 = d_count s1 /\ frame s1 s2) by (repeat split).
  clearbody s2. destruct S2 as (Se & Sc & Sm & Sd & Sk & Sn & Sf).
  assert (Nm : forall m d, lookup m (name_index Sh) = Some d -> d <> i) by (intros m d Hm ->; exact (lk_not_input Sh W m i c i Hm Hi eq_refl)).
  assert (Val : forall m, value_of Sh s2 m = value_of Sh s1 m).
  { intros m. unfold value_of. destruct (lookup m (name_index Sh)) as [d|] eqn:Lm; [|auto]. rewrite Se, Sx; [auto|]. eapply Nm; eauto. }
  split.
  { destruct Q1 as [c0 c1 c2 c3 c4 c5 c6]. constructor; rewrite ?Se, ?Sc, ?Sm; auto.
    - intros d _; exact Logic.I.
    - intros m d Hm He. rewrite (Sx d) by (eapply Nm; eauto). apply (def_value_mono Sh T inp (value_of Sh s1)); [intros y w; now rewrite Val|exact (c2 m d Hm He)].
    - intros d j Hj He. rewrite Sx; [exact (c3 d j Hj He)|]. intros ->.
      assert (d = c). { destruct (input_of_spec Sh W d i Hj) as (_ & _ & _ & _ & _ & X1 & _). destruct (input_of_spec Sh W c i Hi) as (_ & _ & _ & _ & _ & X2 & _). congruence. }
      subst d. congruence.
    - intros m d Hm He. rewrite (Sx d) by (eapply Nm; eauto). exact (c5 m d Hm He). }
  split; [congruence|]. split.
  { split; [congruence|]. intros j Hj _. assert (j = i) by congruence. subst j. rewrite Si, Sx; [auto|]. eapply Nm; eauto. }
  split; [rewrite Se; exact Q4|]. split.
  { intros d Hd. rewrite Se, Sx; [apply Q5|]. intros ->. exact (Hd c Hi). }
  split.
  { intros e d Hd H. assert (d <> i).
    { intros ->. destruct H as [H|H]; [|congruence]. apply H.
      destruct (input_of_spec Sh W e i Hd) as (_ & _ & _ & _ & _ & X1 & _). destruct (input_of_spec Sh W c i Hi) as (_ & _ & _ & _ & _ & X2 & _). congruence. }
    rewrite Sx by exact H0. exact (Q7 e d Hd). }
  split; [|split; [rewrite Sc, Se; exact Q8|split; [rewrite Sc; exact Q9|exact (frame_trans _ _ _ Q10 Sf)]]].
  intros d Hd. rewrite Se, Sd, Sx; [apply Q6|]. intros ->. exact (Hd c Hi).
Qed.
End Update.
