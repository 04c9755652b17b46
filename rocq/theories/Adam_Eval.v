(** What get() computes. *)
From Coq Require Import String.
From Verif Require Import Prelude Vm_Value Adam_Model Adam_Spec Adam_Flow Adam_Build Adam_Frame.
From Coq Require Import List.
Local Open Scope nat_scope.
Ltac Zify.zify_post_hook ::= idtac.

(** *** expressions *)
Lemma run_mono L L' e v : (forall x w, L x = Some w -> L' x = Some w) -> run L e = Some v -> run L' e = Some v.
Proof.
  intros H. revert v. induction e as [w| |n k IH]; intros v; cbn [run]; auto.
  destruct (L n) as [w|] eqn:E; [|discriminate]. rewrite (H n w E). apply IH.
Qed.
Lemma run_ext L L' e : (forall x, may_look e x -> L x = L' x) -> run L e = run L' e.
Proof.
  induction e as [w| |n k IH]; intros H; cbn [run]; auto.
  rewrite <- (H n) by constructor. destruct (L n) as [w|]; auto. apply IH. intros x Hx. apply H. econstructor. exact Hx.
Qed.
Lemma term_value_mono Sh L L' t v : (forall x w, L x = Some w -> L' x = Some w) ->
  term_value Sh L t = Some v -> term_value Sh L' t = Some v.
Proof.
  intros H. destruct t as [[r j] i]. unfold term_value.
  destruct (nth_error (rels Sh) r) as [x|]; auto. destruct (nth_error (r_terms x) j) as [[ns e]|]; auto.
  destruct ns as [|n1 [|n2 ns]].
  - destruct (run L e) as [w|] eqn:E; [|discriminate]. now rewrite (run_mono L L' e w H E).
  - apply run_mono; auto.
  - destruct (run L e) as [w|] eqn:E; [|discriminate]. now rewrite (run_mono L L' e w H E).
Qed.
Lemma own_value_mono Sh T inp val val' n c i v : (forall x w, val x = Some w -> val' x = Some w) ->
  own_value Sh T inp val n c i = Some v -> own_value Sh T inp val' n c i = Some v.
Proof.
  intros H. unfold own_value. destruct (T c); auto. apply term_value_mono.
  intros x w. destruct (String.eqb x n); auto.
Qed.
Lemma def_value_mono Sh T inp val val' c v : (forall x w, val x = Some w -> val' x = Some w) ->
  def_value Sh T inp val c = Some v -> def_value Sh T inp val' c = Some v.
Proof.
  intros H. unfold def_value. destruct (nth_error (cells Sh) c) as [k|]; auto.
  destruct (c_spec k); auto; destruct (c_calc k); auto; try (destruct (c_in k); auto); try (apply run_mono; auto; fail).
  - apply run_mono. intros x w. destruct (String.eqb x (c_name k)); auto. apply own_value_mono; auto.
  - apply own_value_mono; auto.
Qed.

(** *** bit sets *)
Definition sub (a b : N) : Prop := forall i, testb a i = true -> testb b i = true.
Lemma sub_refl a : sub a a. Proof. intros i; auto. Qed.
Lemma sub_trans a b c : sub a b -> sub b c -> sub a c. Proof. intros H H' i; auto. Qed.
Lemma testb_lor a b i : testb (N.lor a b) i = testb a i || testb b i.
Proof. unfold testb. apply N.lor_spec. Qed.
Lemma sub_lor_l a b : sub a (N.lor a b). Proof. intros i H. rewrite testb_lor, H. reflexivity. Qed.
Lemma sub_lor_r a b : sub b (N.lor a b). Proof. intros i H. rewrite testb_lor, H. apply Bool.orb_true_r. Qed.
Lemma sub_lor a b c : sub a c -> sub b c -> sub (N.lor a b) c.
Proof. intros H H' i. rewrite testb_lor. intros E. apply Bool.orb_prop in E as [E|E]; auto. Qed.
Lemma testb_setb b i j : testb (setb b i) j = (i =? j) || testb b j.
Proof.
  unfold testb, setb, bit. rewrite N.setbit_eqb. f_equal.
  destruct (Nat.eqb_spec i j) as [->|H]; [apply N.eqb_refl|]. apply N.eqb_neq. lia.
Qed.

Section Eval.
Variable Sh : sheet.
Hypothesis W : wf Sh.
Variable T : nat -> option (nat * nat * nat).
Variable inp : nat -> value.
Variable rank : name -> nat.
Hypothesis AC : acyclic_by Sh T rank.
Hypothesis ONCE : self_once Sh T.
(** the cells that may be evaluated: those that wait for no relation *)
Variable Ready : nat -> Prop.

Lemma lk_cell n c : lookup n (name_index Sh) = Some c ->
  exists k, nth_error (cells Sh) c = Some k /\ c_name k = n /\ c_spec k <> SIfIn.
Proof. intros H. apply lookup_In in H. exact (W_name Sh W n c H). Qed.
Lemma lk_inj n m c : lookup n (name_index Sh) = Some c -> lookup m (name_index Sh) = Some c -> n = m.
Proof.
  intros H H'. destruct (lk_cell n c H) as (k & A & B & _). destruct (lk_cell m c H') as (k' & A' & B' & _). congruence.
Qed.
Lemma input_of_spec c i : input_of Sh c = Some i ->
  exists k k', nth_error (cells Sh) c = Some k /\ c_spec k = SIfOut /\ c_in k = Some i /\ c = Datatypes.S i /\
    nth_error (cells Sh) i = Some k' /\ c_spec k' = SIfIn /\ c_name k' = c_name k /\
    lookup (c_name k) (name_index Sh) = Some c /\
    (c_calc k = CGet (c_name k) \/ exists e, c_calc k = CExpr e).
Proof.
  unfold input_of, cell_at. destruct (nth_error (cells Sh) c) as [k|] eqn:E; [|discriminate]. intros Hi.
  assert (K : exists k' i', c_spec k = SIfOut /\ c_in k = Some i' /\ c = Datatypes.S i' /\ nth_error (cells Sh) i' = Some k' /\
     c_spec k' = SIfIn /\ c_name k' = c_name k /\ In (c_name k, c) (name_index Sh) /\ (c_calc k = CGet (c_name k) \/ exists e, c_calc k = CExpr e)).
  { pose proof (W_cell Sh W c k E) as Q. destruct (c_spec k) eqn:Es; try (destruct Q as (? & ? & ?); congruence); try (destruct Q; congruence).
    - destruct (W_output Sh W _ c Q) as (Q1 & k1 & A & B & C). rewrite E in A. injection A as <-.
      unfold out_kind in C. rewrite Es in C. destruct C as (i' & k' & C1 & C2 & C3 & C4 & C5 & C6). exists k', i'. auto 10.
    - destruct (W_output Sh W _ c Q) as (_ & k1 & A & B & C). rewrite E in A. injection A as <-.
      unfold out_kind in C. rewrite Es in C. destruct C; congruence.
    - destruct (W_output Sh W _ c Q) as (_ & k1 & A & B & C). rewrite E in A. injection A as <-.
      unfold out_kind in C. rewrite Es in C. destruct C; congruence. }
  destruct K as (k' & i' & A & B & C & D & F & G & H & I). rewrite Hi in B. injection B as <-.
  exists k, k'. repeat (split; auto). apply In_lookup; auto. apply W.
Qed.
Lemma ifout_input c : is_ifout Sh c = true -> exists i, input_of Sh c = Some i.
Proof.
  unfold is_ifout, spec_is, cell_at, input_of, cell_at. destruct (nth_error (cells Sh) c) as [k|] eqn:E; [|discriminate].
  destruct (c_spec k) eqn:Es; try discriminate. intros _.
  pose proof (W_cell Sh W c k E) as Q. rewrite Es in Q. destruct (W_output Sh W _ c Q) as (_ & k1 & A & B & C).
  rewrite E in A. injection A as <-. unfold out_kind in C. rewrite Es in C. destruct C as (i & _ & C & _). eauto.
Qed.
Lemma input_ifout c i : input_of Sh c = Some i -> is_ifout Sh c = true.
Proof.
  intros H. destruct (input_of_spec c i H) as (k & _ & A & B & _). unfold is_ifout, spec_is, cell_at. now rewrite A, B.
Qed.

(** alternative inputs that agree with [inp] where a bit set says they matter *)
Definition agree (inp' : nat -> value) (b : N) : Prop :=
  (forall c, is_leaf Sh c = true -> inp' c = inp c) /\ (forall i, testb b i = true -> inp' i = inp i).
Lemma agree_sub inp' a b : sub a b -> agree inp' b -> agree inp' a.
Proof. intros H [A B]. split; auto. Qed.
(** [v] is what any solution with inputs that agree on [b] says *)
Definition forced (b : N) (what : (nat -> value) -> (name -> option value) -> option value) (v : value) : Prop :=
  forall inp' val', agree inp' b -> solves Sh T inp' val' -> forall v', what inp' val' = Some v' -> v' = v.
Lemma forced_sub a b what v : sub a b -> forced a what v -> forced b what v.
Proof. intros H F inp' val' A. apply F. exact (agree_sub inp' a b H A). Qed.

Record consistent (s : dyn) : Prop := {
  C_ready : forall c, d_count s c = 0%N -> Ready c;
  C_term : forall c, Ready c -> d_term s c = T c;
  C_def : forall n c, lookup n (name_index Sh) = Some c -> d_evaluated s c = true ->
     def_value Sh T inp (value_of Sh s) c = Some (d_state s c);
  C_inp : forall c i, input_of Sh c = Some i -> d_evaluated s c = false -> d_state s i = inp i;
  C_leaf : forall c, is_leaf Sh c = true -> d_evaluated s c = true;
  C_forced : forall n c, lookup n (name_index Sh) = Some c -> d_evaluated s c = true ->
     forced (d_contrib s c) (fun _ val' => val' n) (d_state s c);
  C_bit : forall c i, input_of Sh c = Some i -> testb (d_contrib s i) i = true }.
(** get() only evaluates more cells, all of rank below [B] *)
Record ext (B : nat) (s s' : dyn) : Prop := {
  E_eval : forall c, d_evaluated s c = true -> d_evaluated s' c = true;
  E_state : forall c, d_state s' c = d_state s c \/ (d_evaluated s c = false /\ d_evaluated s' c = true);
  E_new : forall c, d_evaluated s' c = true -> d_evaluated s c = true \/
     exists n, lookup n (name_index Sh) = Some c /\ rank n < B /\ d_count s c = 0%N;
  E_contrib : forall c, d_evaluated s c = true -> sub (d_contrib s c) (d_contrib s' c);
  E_inputs : forall c i, input_of Sh c = Some i -> d_contrib s' i = d_contrib s i;
  E_acc : sub (d_acc s) (d_acc s');
  E_dirty : forall c, (d_dirty s' c = d_dirty s c /\ d_evaluated s' c = d_evaluated s c) \/
     (d_evaluated s c = false /\ d_evaluated s' c = true /\ d_dirty s' c = negb (veqb (d_state s' c) (d_state s c)));
  E_frame : frame s s';
  E_cond : forall c, d_evaluated s c = false -> d_evaluated s' c = true -> sub (d_cond s) (d_contrib s' c) }.

Lemma ext_refl B s : ext B s s.
Proof. constructor; auto using sub_refl, frame_refl. intros c H H'. congruence. Qed.
Lemma ext_trans B s s' s'' : ext B s s' -> ext B s' s'' -> ext B s s''.
Proof.
  intros [a1 a2 a3 a4 a5 a6 a7 a8 a9] [b1 b2 b3 b4 b5 b6 b7 b8 b9]. constructor.
  - auto.
  - intros c. destruct (a2 c) as [A|[A A']]; destruct (b2 c) as [Bb|[Bb B']].
    + left. congruence.
    + right. split; auto. destruct (d_evaluated s c) eqn:E; auto. rewrite (a1 c E) in Bb. discriminate.
    + right. auto.
    + congruence.
  - intros c H. destruct (b3 c H) as [H'|(n & H1 & H2 & H3)].
    + destruct (a3 c H') as [?|?]; auto.
    + right. exists n. split; auto. split; auto. destruct a8 as (_ & _ & a8 & _). now rewrite <- a8.
  - intros c H. apply (sub_trans _ (d_contrib s' c)); auto.
  - intros c i H. rewrite (b5 c i H). eauto.
  - eapply sub_trans; eauto.
  - intros c. destruct (b7 c) as [[Hb Hb']|(Hb1 & Hb2 & Hb3)].
    + rewrite Hb, Hb'. destruct (a7 c) as [Ha|(Ha1 & Ha2 & Ha3)]; [left; exact Ha|right].
      split; auto. split; auto. rewrite Ha3. destruct (b2 c) as [->|[Hx _]]; [reflexivity|congruence].
    + right. destruct (d_evaluated s c) eqn:E; [rewrite (a1 c E) in Hb1; discriminate|].
      split; auto. split; auto. rewrite Hb3. destruct (a2 c) as [->|[_ Hx]]; [reflexivity|congruence].
  - eapply frame_trans; eauto.
  - intros c H H'. destruct (d_evaluated s' c) eqn:E; [exact (sub_trans _ _ _ (a9 c H E) (b4 c E))|].
    destruct a8 as (_ & _ & _ & _ & _ & _ & _ & a8 & _). rewrite <- a8. exact (b9 c E H').
Qed.
Lemma ext_weaken B B' s s' : B <= B' -> ext B s s' -> ext B' s s'.
Proof using.
  intros H [a1 a2 a3 a4 a5 a6 a7 a8 a9]. constructor; auto. intros c Hc. destruct (a3 c Hc) as [?|(n & H1 & H2 & H3)]; auto.
  right. exists n. split; [exact H1|]. split; [clear -H H2; lia|exact H3].
Qed.
Lemma value_of_mono B s s' n v : ext B s s' -> value_of Sh s n = Some v -> value_of Sh s' n = Some v.
Proof.
  intros X. unfold value_of. destruct (lookup n (name_index Sh)) as [c|]; auto.
  destruct (d_evaluated s c) eqn:E; [|discriminate]. rewrite (E_eval _ _ _ X c E).
  destruct (E_state _ _ _ X c) as [->|[H _]]; auto. congruence.
Qed.
Lemma value_of_same s s' : d_evaluated s' = d_evaluated s -> d_state s' = d_state s ->
  forall n, value_of Sh s' n = value_of Sh s n.
Proof. intros A B n. unfold value_of. now rewrite A, B. Qed.

(** *** the stack discipline *)
(** [n] may be looked up: it is the interface cell being evaluated, or ranks below it *)
Definition top_ok (s : dyn) (n : name) : Prop :=
  match d_stack s with
  | [] => True
  | (t, _) :: _ => rank n < rank t \/
      (n = t /\ exists c i, lookup t (name_index Sh) = Some c /\ input_of Sh c = Some i /\ d_evaluated s c = false /\ Ready c)
  end.
Definition bound (s : dyn) (n : name) : nat :=
  match d_stack s with
  | (t, _) :: _ => if String.eqb t n then rank n else Datatypes.S (rank n)
  | [] => Datatypes.S (rank n)
  end.
(** what a look-up returns, and how the stack changes *)
Definition answer (s : dyn) (n : name) (v : value) (s' : dyn) : Prop :=
  match d_stack s with
  | (t, b) :: st =>
    if String.eqb t n then
      forall c i, lookup t (name_index Sh) = Some c -> input_of Sh c = Some i ->
        match b, T c with
        | false, Some _ =>
          d_stack s' = (t, true) :: st /\ own_value Sh T inp (value_of Sh s') t c i = Some v /\
          forced (d_acc s') (fun inp' val' => own_value Sh T inp' val' t c i) v
        | _, _ => d_stack s' = (t, b) :: st /\ v = inp i /\ testb (d_acc s') i = true
        end
    else d_stack s' = d_stack s /\ value_of Sh s' n = Some v /\ forced (d_acc s') (fun _ val' => val' n) v
  | [] => d_stack s' = [] /\ value_of Sh s' n = Some v /\ forced (d_acc s') (fun _ val' => val' n) v
  end.
Definition get_ok (n : name) (s : dyn) (r : res value) : Prop :=
  match r with
  | RUB => True
  | RThrow _ _ => True
  | ROk v s' => consistent s' /\ ext (bound s n) s s' /\ answer s n v s'
  end.

(** *** expressions, given that nested look-ups are right *)
Section Expr.
Variable g : name -> dyn -> res value.
Lemma ev_gen (P : dyn -> Prop) (B : nat) (reads : name -> Prop)
    (L : dyn -> name -> option value) (L' : (nat -> value) -> (name -> option value) -> name -> option value) :
  (forall s s' x w, ext B s s' -> L s x = Some w -> L s' x = Some w) ->
  (forall n s, reads n -> consistent s -> P s ->
     match g n s with
     | RUB => True
     | RThrow _ _ => True
     | ROk v s' => consistent s' /\ P s' /\ ext B s s' /\ d_stack s' = d_stack s /\ L s' n = Some v /\
         forced (d_acc s') (fun inp' val' => L' inp' val' n) v
     end) ->
  forall e s, (forall m, may_look e m -> reads m) -> consistent s -> P s ->
     match ev g e s with
     | RUB => True
     | RThrow _ _ => True
     | ROk v s' => consistent s' /\ P s' /\ ext B s s' /\ d_stack s' = d_stack s /\ run (L s') e = Some v /\
         forced (d_acc s') (fun inp' val' => run (L' inp' val') e) v
     end.
Proof.
  intros ML H. induction e as [v| |n k IH]; intros s R C HP; cbn [ev].
  - split; [exact C|]. split; [exact HP|]. split; [apply ext_refl|]. split; [reflexivity|]. split; [reflexivity|].
    intros inp' val' _ _ v' E. cbn [run] in E. congruence.
  - exact Logic.I.
  - specialize (H n s (R n (ML_here n k)) C HP). destruct (g n s) as [v s1|x s1|]; [|exact H|exact Logic.I].
    destruct H as (C1 & P1 & X1 & S1 & L1 & F1).
    specialize (IH v s1 (fun m Hm => R m (ML_there n k v m Hm)) C1 P1).
    destruct (ev g (k v) s1) as [v2 s2|x s2|]; [| |exact Logic.I].
    + destruct IH as (C2 & P2 & X2 & S2 & L2 & F2). split; [exact C2|]. split; [exact P2|].
      split; [eapply ext_trans; eauto|]. split; [congruence|]. split.
      * cbn [run]. rewrite (ML s1 s2 n v X2 L1). exact L2.
      * intros inp' val' A Sv v' E. cbn [run] in E. destruct (L' inp' val' n) as [w|] eqn:Ew; [|discriminate].
        assert (w = v) by (apply (F1 inp' val' (agree_sub inp' _ _ (E_acc _ _ _ X2) A) Sv w Ew)). subst w.
        exact (F2 inp' val' A Sv v' E).
    + exact Logic.I.
Qed.
Hypothesis IHg : forall n s, consistent s -> top_ok s n -> get_ok n s (g n s).

(** a cell that is not an interface cell: every variable ranks below [R] *)
Lemma ev_plain R st e s : d_stack s = st -> consistent s -> (forall m, may_look e m -> rank m < R) ->
  (forall t b st', st = (t, b) :: st' -> R <= rank t) ->
  match ev g e s with
  | RUB => True
  | RThrow _ _ => True
  | ROk v s' => consistent s' /\ ext R s s' /\ d_stack s' = st /\ run (value_of Sh s') e = Some v /\
      forced (d_acc s') (fun _ val' => run val' e) v
  end.
Proof.
  intros Hst C Hm Ht.
  assert (Hb : forall s n, d_stack s = st -> rank n < R -> bound s n <= R /\ top_ok s n).
  { intros s1 n Es Hn. unfold bound, top_ok. rewrite Es. destruct st as [|[t b] st']; [split; [lia|exact Logic.I]|].
    specialize (Ht t b st' eq_refl). split; [destruct (String.eqb t n); lia|left; lia]. }
  pose proof (ev_gen (fun s1 => d_stack s1 = st) R (fun m => rank m < R) (fun s1 => value_of Sh s1) (fun _ val' => val')) as G.
  specialize (G ltac:(intros s1 s2 x w X; apply (value_of_mono R s1 s2 x w X))).
  assert (Step : forall n s1, rank n < R -> consistent s1 -> d_stack s1 = st ->
     match g n s1 with
     | RUB => True
     | RThrow _ _ => True
     | ROk v s' => consistent s' /\ d_stack s' = st /\ ext R s1 s' /\ d_stack s' = d_stack s1 /\ value_of Sh s' n = Some v /\
         forced (d_acc s') (fun inp' val' => val' n) v
     end).
  { intros n s1 Hn C1 S1. destruct (Hb s1 n S1 Hn) as [B1 B2]. pose proof (IHg n s1 C1 B2) as Q.
    destruct (g n s1) as [v s2|x s2|]; [|exact Logic.I|exact Logic.I].
    destruct Q as (Q1 & Q2 & Q3). split; [exact Q1|]. apply (ext_weaken _ _ _ _ B1) in Q2. unfold answer in Q3. rewrite S1 in *.
    destruct st as [|[t b] st'].
    - destruct Q3 as (E1 & E2 & E3). auto 10.
    - destruct (String.eqb_spec t n) as [->|]; [specialize (Ht n b st' eq_refl); lia|].
      destruct Q3 as (E1 & E2 & E3). auto 10. }
  specialize (G Step).
  specialize (G e s Hm C Hst). destruct (ev g e s) as [v s'|x s'|]; auto.
  destruct G as (G1 & G2 & G3 & G4 & G5 & G6). auto 10.
Qed.
(** the interface cell [c] named [t] is being evaluated, and its name now stands for its input *)
Lemma ev_input t b st c i e s : d_stack s = (t, b) :: st -> consistent s -> d_evaluated s c = false ->
  Ready c -> lookup t (name_index Sh) = Some c -> input_of Sh c = Some i -> (b = true \/ T c = None) ->
  (forall m, may_look e m -> m = t \/ rank m < rank t) ->
  match ev g e s with
  | RUB => True
  | RThrow _ _ => True
  | ROk v s' => consistent s' /\ d_evaluated s' c = false /\ ext (rank t) s s' /\ d_stack s' = (t, b) :: st /\
      run (fun x => if String.eqb x t then Some (inp i) else value_of Sh s' x) e = Some v /\
      forced (d_acc s') (fun inp' val' => run (fun x => if String.eqb x t then Some (inp' i) else val' x) e) v
  end.
Proof.
  intros Hst C Ev Rd Lk Hi Hb Hm.
  pose proof (ev_gen (fun s1 => d_stack s1 = (t, b) :: st /\ d_evaluated s1 c = false) (rank t) (fun m => m = t \/ rank m < rank t)
     (fun s1 x => if String.eqb x t then Some (inp i) else value_of Sh s1 x)
     (fun inp' val' x => if String.eqb x t then Some (inp' i) else val' x)) as G.
  assert (Mono : forall s1 s2 x w, ext (rank t) s1 s2 ->
     (if String.eqb x t then Some (inp i) else value_of Sh s1 x) = Some w -> (if String.eqb x t then Some (inp i) else value_of Sh s2 x) = Some w).
  { intros s1 s2 x w X. destruct (String.eqb x t); [auto|]. apply (value_of_mono (rank t) s1 s2 x w X). }
  specialize (G Mono).
  assert (Step : forall n s1, n = t \/ rank n < rank t -> consistent s1 -> d_stack s1 = (t, b) :: st /\ d_evaluated s1 c = false ->
     match g n s1 with
     | RUB => True
     | RThrow _ _ => True
     | ROk v s' => consistent s' /\ (d_stack s' = (t, b) :: st /\ d_evaluated s' c = false) /\ ext (rank t) s1 s' /\ d_stack s' = d_stack s1 /\
        (if String.eqb n t then Some (inp i) else value_of Sh s' n) = Some v /\
        forced (d_acc s') (fun inp' val' => if String.eqb n t then Some (inp' i) else val' n) v
     end).
  { intros n s1 Hn C1 [S1 V1].
    assert (Tk : top_ok s1 n) by (unfold top_ok; rewrite S1; destruct Hn as [->|Hn]; [right; split; eauto 8|now left]).
    assert (Bd : bound s1 n <= rank t).
    { unfold bound. rewrite S1. destruct (String.eqb_spec t n) as [->|Hne]; [lia|]. destruct Hn as [->|Hn]; [congruence|lia]. }
    pose proof (IHg n s1 C1 Tk) as Q. destruct (g n s1) as [v s2|x s2|]; [| |exact Logic.I].
    - destruct Q as (Q1 & Q2 & Q3). pose proof (ext_weaken _ _ _ _ Bd Q2) as Q2'. unfold answer in Q3. rewrite S1 in Q3.
      assert (V2 : d_evaluated s2 c = false).
      { destruct (d_evaluated s2 c) eqn:E; auto. destruct (E_new _ _ _ Q2' c E) as [H|(m & Hm1 & Hm2 & _)]; [congruence|].
        assert (m = t) by (eapply lk_inj; eauto). subst m. lia. }
      split; [exact Q1|]. rewrite S1. destruct (String.eqb_spec t n) as [<-|Hne].
      + specialize (Q3 c i Lk Hi). rewrite String.eqb_refl.
        assert (Q3' : d_stack s2 = (t, b) :: st /\ v = inp i /\ testb (d_acc s2) i = true).
        { destruct b, (T c); auto. destruct Hb; congruence. }
        destruct Q3' as (E1 & -> & E3). split; [auto|]. split; [exact Q2'|]. split; [exact E1|]. split; [reflexivity|].
        intros inp' val' [_ A] _ v' E. injection E as <-. auto.
      + destruct Q3 as (E1 & E2 & E3).
        assert (String.eqb n t = false) as -> by (apply String.eqb_neq; congruence).
        split; [auto|]. split; [exact Q2'|]. auto.
    - exact Logic.I. }
  specialize (G Step e s Hm C (conj Hst Ev)). destruct (ev g e s) as [v s'|x s'|]; auto.
  destruct G as (G1 & (G2 & G2') & G3 & G4 & G5 & G6). auto 10.
Qed.
(** a term of a relation *)
Lemma term_case r j i0 x ns e look : nth_error (rels Sh) r = Some x -> nth_error (r_terms x) j = Some (ns, e) ->
  term_value Sh look (r, j, i0) =
  if length ns =? 1 then run look e
  else match run look e with Some (VArr l) => nth_error l i0 | _ => None end.
Proof. intros A B. unfold term_value. rewrite A, B. destruct ns as [|n1 [|n2 ns]]; reflexivity. Qed.
Lemma run_term_ok t st c i tm s : d_stack s = (t, true) :: st -> consistent s -> d_evaluated s c = false ->
  Ready c -> lookup t (name_index Sh) = Some c -> input_of Sh c = Some i -> T c = Some tm ->
  match run_term Sh g tm s with
  | RUB => True
  | RThrow _ _ => True
  | ROk v s' => consistent s' /\ d_evaluated s' c = false /\ ext (rank t) s s' /\ d_stack s' = (t, true) :: st /\
      own_value Sh T inp (value_of Sh s') t c i = Some v /\
      forced (d_acc s') (fun inp' val' => own_value Sh T inp' val' t c i) v
  end.
Proof.
  intros Hst C Ev Rd Lk Hi Ht. destruct tm as [[r j] i0]. unfold run_term, terms_of.
  destruct (nth_error (rels Sh) r) as [x|] eqn:Er; [|destruct j; exact Logic.I].
  destruct (nth_error (r_terms x) j) as [[ns e]|] eqn:Ej; [|exact Logic.I].
  pose proof (ev_input t true st c i e s Hst C Ev Rd Lk Hi (or_introl eq_refl)) as G.
  assert (Hr : forall m, may_look e m -> m = t \/ rank m < rank t).
  { intros m Hm. destruct (AC t c m Lk) as [[_ ->]|H]; auto. right. exists r, j, i0, x, ns, e. auto. }
  specialize (G Hr).
  assert (Ov : forall inp' val', own_value Sh T inp' val' t c i =
     if length ns =? 1 then run (fun x => if String.eqb x t then Some (inp' i) else val' x) e
     else match run (fun x => if String.eqb x t then Some (inp' i) else val' x) e with Some (VArr l) => nth_error l i0 | _ => None end).
  { intros inp' val'. unfold own_value. rewrite Ht. now apply (term_case r j i0 x ns e). }
  destruct (length ns =? 1) eqn:El.
  - destruct (ev g e s) as [v s'|y s'|]; auto. destruct G as (G1 & G2 & G3 & G4 & G5 & G6).
    split; [exact G1|]. split; [exact G2|]. split; [exact G3|]. split; [exact G4|]. split.
    + rewrite Ov. exact G5.
    + intros inp' val' A Sv v' E. rewrite Ov in E. exact (G6 inp' val' A Sv v' E).
  - destruct (ev g e s) as [v s'|y s'|]; [|exact G|exact Logic.I]. destruct G as (G1 & G2 & G3 & G4 & G5 & G6).
    destruct v as [| | | | |l| | |]; try exact Logic.I.
    destruct (nth_error l i0) as [v|] eqn:En; [|exact Logic.I].
    split; [exact G1|]. split; [exact G2|]. split; [exact G3|]. split; [exact G4|]. split.
    + rewrite Ov, G5. exact En.
    + intros inp' val' A Sv v' E. rewrite Ov in E.
      destruct (run (fun x0 => if String.eqb x0 t then Some (inp' i) else val' x0) e) as [w|] eqn:Ew; [|discriminate].
      assert (w = VArr l) by exact (G6 inp' val' A Sv w Ew). subst w. congruence.
Qed.
(** the expression of a derived interface cell: its name first stands for what the relation gives *)
Lemma ev_own t st c i : forall e s, d_stack s = (t, false) :: st -> consistent s -> d_evaluated s c = false ->
  Ready c -> lookup t (name_index Sh) = Some c -> input_of Sh c = Some i -> T c <> None -> looks_once t e ->
  (forall m, may_look e m -> m = t \/ rank m < rank t) ->
  match ev g e s with
  | RUB => True
  | RThrow _ _ => True
  | ROk v s' => consistent s' /\ d_evaluated s' c = false /\ ext (rank t) s s' /\ (exists b, d_stack s' = (t, b) :: st) /\
      run (fun x => if String.eqb x t then own_value Sh T inp (value_of Sh s') t c i else value_of Sh s' x) e = Some v /\
      forced (d_acc s') (fun inp' val' => run (fun x => if String.eqb x t then own_value Sh T inp' val' t c i else val' x) e) v
  end.
Proof.
  induction e as [v| |n k IH]; intros s Hst C Ev Rd Lk Hi Ht Ho Hm; cbn [ev].
  - split; [exact C|]. split; [exact Ev|]. split; [apply ext_refl|]. split; [eauto|]. split; [reflexivity|].
    intros inp' val' _ _ v' E. cbn [run] in E. congruence.
  - exact Logic.I.
  - destruct Ho as [Ho1 Ho2]. destruct (Hm n (ML_here n k)) as [->|Hn].
    + (* its own name *)
      assert (Tk : top_ok s t) by (unfold top_ok; rewrite Hst; right; split; eauto 8).
      assert (Bd : bound s t = rank t) by (unfold bound; rewrite Hst, String.eqb_refl; reflexivity).
      pose proof (IHg t s C Tk) as Q. rewrite Bd in Q || idtac. unfold get_ok in Q. rewrite Bd in Q.
      destruct (g t s) as [v s1|x s1|]; [|exact Q|exact Logic.I].
      destruct Q as (Q1 & Q2 & Q3). unfold answer in Q3. rewrite Hst, String.eqb_refl in Q3. specialize (Q3 c i Lk Hi).
      destruct (T c) as [tm|] eqn:Et; [|congruence]. destruct Q3 as (S1 & O1 & F1).
      assert (V1 : d_evaluated s1 c = false).
      { destruct (d_evaluated s1 c) eqn:E; auto. destruct (E_new _ _ _ Q2 c E) as [H|(m & Hm1 & Hm2 & _)]; [congruence|].
        assert (m = t) by (eapply lk_inj; eauto). subst m. lia. }
      assert (Hk : forall m, may_look (k v) m -> m = t \/ rank m < rank t) by (intros m H; apply Hm; econstructor; exact H).
      pose proof (ev_input t true st c i (k v) s1 S1 Q1 V1 Rd Lk Hi (or_introl eq_refl) Hk) as G.
      specialize (Ho1 eq_refl v).
      destruct (ev g (k v) s1) as [v2 s2|x s2|]; [| |exact Logic.I].
      * destruct G as (G1 & G2 & G3 & G4 & G5 & G6). split; [exact G1|]. split; [exact G2|].
        split; [eapply ext_trans; eauto|]. split; [eauto|]. split.
        -- cbn [run]. rewrite String.eqb_refl.
           rewrite (own_value_mono Sh T inp _ (value_of Sh s2) t c i v (fun y w => value_of_mono _ s1 s2 y w G3) O1).
           rewrite <- G5. apply run_ext. intros y Hy. destruct (String.eqb_spec y t) as [->|]; auto. contradiction.
        -- intros inp' val' A Sv v' E. cbn [run] in E. rewrite String.eqb_refl in E.
           destruct (own_value Sh T inp' val' t c i) as [w|] eqn:Ew; [|discriminate].
           assert (w = v) by (apply (F1 inp' val' (agree_sub inp' _ _ (E_acc _ _ _ G3) A) Sv w Ew)). subst w.
           apply (G6 inp' val' A Sv v'). rewrite <- E. apply run_ext. intros y Hy.
           destruct (String.eqb_spec y t) as [->|]; auto. contradiction.
      * exact Logic.I.
    + (* another variable *)
      assert (Hne : n <> t) by (intros ->; lia).
      assert (Tk : top_ok s n) by (unfold top_ok; rewrite Hst; now left).
      assert (Bd : bound s n <= rank t) by (unfold bound; rewrite Hst; destruct (String.eqb t n); lia).
      pose proof (IHg n s C Tk) as Q. unfold get_ok in Q.
      destruct (g n s) as [v s1|x s1|]; [| |exact Logic.I].
      * destruct Q as (Q1 & Q2 & Q3). apply (ext_weaken _ _ _ _ Bd) in Q2. unfold answer in Q3. rewrite Hst in Q3.
        rewrite (proj2 (String.eqb_neq t n)) in Q3 by congruence. destruct Q3 as (S1 & O1 & F1).
        assert (V1 : d_evaluated s1 c = false).
        { destruct (d_evaluated s1 c) eqn:E; auto. destruct (E_new _ _ _ Q2 c E) as [H|(m & Hm1 & Hm2 & _)]; [congruence|].
          assert (m = t) by (eapply lk_inj; eauto). subst m. lia. }
        assert (Hk : forall m, may_look (k v) m -> m = t \/ rank m < rank t) by (intros m H; apply Hm; econstructor; exact H).
        specialize (IH v s1 S1 Q1 V1 Rd Lk Hi Ht (Ho2 Hne v) Hk).
        destruct (ev g (k v) s1) as [v2 s2|x s2|]; [| |exact Logic.I].
        -- destruct IH as (G1 & G2 & G3 & G4 & G5 & G6). split; [exact G1|]. split; [exact G2|].
           split; [eapply ext_trans; eauto|]. split; [exact G4|]. split.
           ++ cbn [run]. rewrite (proj2 (String.eqb_neq n t) Hne), (value_of_mono _ s1 s2 n v G3 O1). exact G5.
           ++ intros inp' val' A Sv v' E. cbn [run] in E. rewrite (proj2 (String.eqb_neq n t) Hne) in E.
              destruct (val' n) as [w|] eqn:Ew; [|discriminate].
              assert (w = v) by (apply (F1 inp' val' (agree_sub inp' _ _ (E_acc _ _ _ G3) A) Sv w Ew)). subst w.
              exact (G6 inp' val' A Sv v' E).
        -- exact Logic.I.
      * exact Logic.I.
Qed.

(** running the calculator of the cell [c] named [n]; an interface cell has been pushed *)
Definition pushed (n : name) (c : nat) (st st' : list (name * bool)) : Prop :=
  if is_ifout Sh c then exists b, st' = (n, b) :: st else st' = st.
Lemma run_calc_ok n c k st s :
  lookup n (name_index Sh) = Some c -> nth_error (cells Sh) c = Some k -> d_evaluated s c = false -> Ready c -> consistent s ->
  d_stack s = (if is_ifout Sh c then (n, false) :: st else st) ->
  (forall t b st', st = (t, b) :: st' -> rank n < rank t) ->
  match run_calc g (c_calc k) s with
  | RUB => True
  | RThrow _ _ => True
  | ROk v s' => consistent s' /\ ext (rank n) s s' /\ d_evaluated s' c = false /\ pushed n c st (d_stack s') /\
      def_value Sh T inp (value_of Sh s') c = Some v /\
      forced (d_acc s') (fun inp' val' => def_value Sh T inp' val' c) v
  end.
Proof.
  intros Lk Hk Ev Rd C Hst Hrk. destruct (lk_cell n c Lk) as (k0 & Hk0 & Hn & Hs). rewrite Hk in Hk0. injection Hk0 as <-.
  assert (Nleaf : is_leaf Sh c = false) by (destruct (is_leaf Sh c) eqn:E; auto; rewrite (C_leaf s C c E) in Ev; discriminate).
  unfold pushed. destruct (is_ifout Sh c) eqn:Ho.
  - (* an interface cell *)
    destruct (ifout_input c Ho) as (i & Hi). destruct (input_of_spec c i Hi) as (k1 & k' & A1 & A2 & A3 & A4 & A5 & A6 & A7 & A8 & A9).
    rewrite Hk in A1. injection A1 as <-. rewrite Hn in *.
    destruct A9 as [Hc|(e & Hc)]; rewrite Hc; cbn [run_calc].
    + assert (Tk : top_ok s n) by (unfold top_ok; rewrite Hst; right; split; eauto 8).
      assert (Bd : bound s n = rank n) by (unfold bound; rewrite Hst, String.eqb_refl; reflexivity).
      pose proof (IHg n s C Tk) as Q. unfold get_ok in Q. rewrite Bd in Q.
      destruct (g n s) as [v s1|x s1|]; [| |exact Logic.I].
      * destruct Q as (Q1 & Q2 & Q3). unfold answer in Q3. rewrite Hst, String.eqb_refl in Q3. specialize (Q3 c i Lk Hi).
        assert (V1 : d_evaluated s1 c = false).
        { destruct (d_evaluated s1 c) eqn:E; auto. destruct (E_new _ _ _ Q2 c E) as [H|(m & Hm1 & Hm2 & _)]; [congruence|].
          assert (m = n) by (eapply lk_inj; eauto). subst m. lia. }
        assert (Df : forall inp' val', def_value Sh T inp' val' c = own_value Sh T inp' val' n c i).
        { intros. unfold def_value. now rewrite Hk, A2, A3, Hc, Hn. }
        split; [exact Q1|]. split; [exact Q2|]. split; [exact V1|].
        destruct (T c) as [tm|] eqn:Et.
        -- destruct Q3 as (S1 & O1 & F1). split; [eauto|]. split; [rewrite Df; exact O1|].
           intros inp' val' A Sv v' E. rewrite Df in E. exact (F1 inp' val' A Sv v' E).
        -- destruct Q3 as (S1 & O1 & F1). split; [eauto|]. split; [rewrite Df; unfold own_value; rewrite Et, O1; reflexivity|].
           intros inp' val' [_ A] Sv v' E. rewrite Df in E. unfold own_value in E. rewrite Et in E. injection E as <-. rewrite O1. auto.
      * exact Logic.I.
    + assert (Hr : forall m, may_look e m -> m = n \/ rank m < rank n).
      { intros m Hm. destruct (AC n c m Lk) as [[_ ->]|H]; auto. left. exists k, e. auto. }
      assert (Df : forall inp' val', def_value Sh T inp' val' c =
         run (fun x => if String.eqb x n then own_value Sh T inp' val' n c i else val' x) e).
      { intros. unfold def_value. now rewrite Hk, A2, A3, Hc, Hn. }
      destruct (T c) as [tm|] eqn:Et.
      * pose proof (ev_own n st c i e s Hst C Ev Rd Lk Hi ltac:(congruence)) as G.
        assert (Lo : looks_once n e) by (rewrite <- Hn; apply (ONCE c k e Hk Hc); congruence).
        specialize (G Lo Hr). destruct (ev g e s) as [v s1|x s1|]; [| |exact Logic.I].
        -- destruct G as (G1 & G2 & G3 & G4 & G5 & G6). split; [exact G1|]. split; [exact G3|]. split; [exact G2|].
           split; [exact G4|]. split; [rewrite Df; exact G5|]. intros inp' val' A Sv v' E. rewrite Df in E. exact (G6 inp' val' A Sv v' E).
        -- exact Logic.I.
      * pose proof (ev_input n false st c i e s Hst C Ev Rd Lk Hi (or_intror Et) Hr) as G.
        assert (Df2 : forall inp' val', def_value Sh T inp' val' c =
           run (fun x => if String.eqb x n then Some (inp' i) else val' x) e).
        { intros. rewrite Df. apply run_ext. intros x _. destruct (String.eqb x n); auto. unfold own_value. now rewrite Et. }
        destruct (ev g e s) as [v s1|x s1|]; [| |exact Logic.I].
        -- destruct G as (G1 & G2 & G3 & G4 & G5 & G6). split; [exact G1|]. split; [exact G3|]. split; [exact G2|].
           split; [eauto|]. split; [rewrite Df2; exact G5|]. intros inp' val' A Sv v' E. rewrite Df2 in E. exact (G6 inp' val' A Sv v' E).
        -- exact Logic.I.
  - (* a logic, output or invariant cell *)
    assert (K : exists e, c_calc k = CExpr e /\ (c_spec k = SOutput \/ c_spec k = SLogic \/ c_spec k = SInvariant)).
    { unfold is_ifout, spec_is, cell_at in Ho. unfold is_leaf, spec_is, cell_at in Nleaf. rewrite Hk in Ho, Nleaf.
      pose proof (W_cell Sh W c k Hk) as Q. destruct (c_spec k) eqn:Es; try discriminate; try congruence.
      - destruct (W_output Sh W _ c Q) as (_ & k1 & A & B & D). rewrite Hk in A. injection A as <-.
        unfold out_kind in D. rewrite Es in D. destruct D as [_ (e & He)]. eauto.
      - destruct Q as (_ & _ & e & He). eauto.
      - destruct (W_output Sh W _ c Q) as (_ & k1 & A & B & D). rewrite Hk in A. injection A as <-.
        unfold out_kind in D. rewrite Es in D. destruct D as [_ (e & He)]. eauto. }
    destruct K as (e & Hc & Hsp). rewrite Hc. cbn [run_calc].
    assert (Df : forall inp' val', def_value Sh T inp' val' c = run val' e).
    { intros. unfold def_value. rewrite Hk, Hc. destruct Hsp as [->|[->| ->]]; reflexivity. }
    assert (Hr : forall m, may_look e m -> rank m < rank n).
    { intros m Hm. destruct (AC n c m Lk) as [[H _]|H]; auto; [left; exists k, e; auto|congruence]. }
    pose proof (ev_plain (rank n) st e s Hst C Hr) as G.
    specialize (G ltac:(intros t b st' E; specialize (Hrk t b st' E); lia)).
    destruct (ev g e s) as [v s1|x s1|]; [| |exact Logic.I].
    + destruct G as (G1 & G2 & G3 & G4 & G5). split; [exact G1|]. split; [exact G2|].
      split.
      { destruct (d_evaluated s1 c) eqn:E; auto. destruct (E_new _ _ _ G2 c E) as [H|(m & Hm1 & Hm2 & _)]; [congruence|].
        assert (m = n) by (eapply lk_inj; eauto). subst m. lia. }
      split; [exact G3|]. split; [rewrite Df; exact G4|]. intros inp' val' A Sv v' E. rewrite Df in E. exact (G5 inp' val' A Sv v' E).
    + exact Logic.I.
Qed.
End Expr.

(** *** get() *)
Lemma consistent_eq s s' : d_term s' = d_term s -> d_state s' = d_state s -> d_evaluated s' = d_evaluated s ->
  d_contrib s' = d_contrib s -> d_count s' = d_count s -> consistent s -> consistent s'.
Proof.
  intros E1 E2 E3 E4 E5 [c0 c1 c2 c3 c4 c5 c6]. constructor; rewrite ?E1, ?E2, ?E3, ?E4, ?E5; auto.
  intros n c Hn He.
  assert (V : forall m, value_of Sh s' m = value_of Sh s m) by (apply value_of_same; auto).
  assert (Lw : forall v, def_value Sh T inp (value_of Sh s) c = Some v -> def_value Sh T inp (value_of Sh s') c = Some v).
  { intros v. apply def_value_mono. intros x w. now rewrite V. }
  apply Lw. now apply (c2 n).
Qed.
Lemma lk_not_input n c d i : lookup n (name_index Sh) = Some c -> input_of Sh d = Some i -> i <> c.
Proof.
  intros H Hi ->. destruct (lk_cell n c H) as (k & A & _ & B).
  destruct (input_of_spec d c Hi) as (_ & k' & _ & _ & _ & _ & A' & B' & _). congruence.
Qed.
Lemma get_step g n s : (forall n s, consistent s -> top_ok s n -> get_ok n s (g n s)) -> consistent s -> top_ok s n ->
  get_ok n s (get_body Sh g n s).
Proof.
  intros IHg C Tk. unfold get_body. destruct (lookup n (name_index Sh)) as [c|] eqn:Lk; [|exact Logic.I]. cbv zeta.
  destruct (match d_stack s with (m, _) :: _ => String.eqb m n | [] => false end) eqn:Self.
  - (* the name of the cell being evaluated *)
    destruct (d_stack s) as [|[m b] st] eqn:St; [discriminate|]. apply String.eqb_eq in Self. subst m.
    unfold top_ok in Tk. rewrite St in Tk. destruct Tk as [Tk|(_ & c' & i & Lk' & Hi & Ev & Rd)]; [lia|].
    assert (c' = c) by congruence. subst c'. rewrite Hi.
    assert (Bd : bound s n = rank n) by (unfold bound; rewrite St, String.eqb_refl; reflexivity).
    assert (Inp : get_ok n s (ROk (d_state s i) (w_vacc (setb (d_vacc s) i) (w_acc (N.lor (d_acc s) (d_contrib s i)) s))) \/ (b = false /\ T c <> None)).
    { destruct b.
      2: destruct (T c) eqn:Tc; [right; split; [reflexivity|congruence]|].
      all: left; unfold get_ok; split; [revert C; now apply consistent_eq|]; rewrite Bd; split.
      all: try (constructor; cbn [d_evaluated d_state d_contrib d_acc d_dirty w_vacc w_acc]; auto using sub_refl, sub_lor_l; repeat split).
      1, 3: intros c0 H0 H1; congruence.
      all: unfold answer; rewrite St, String.eqb_refl; intros c' i' L' H'; assert (c' = c) by congruence; subst c'; assert (i' = i) by congruence; subst i'.
      2: rewrite Tc.
      all: split; [exact St|]; split; [exact (C_inp s C c i Hi Ev)|]; cbn [d_acc w_vacc w_acc]; rewrite testb_lor, (C_bit s C c i Hi); apply Bool.orb_true_r. }
    destruct Inp as [Inp|[-> HT]].
    + rewrite (C_term s C c Rd). destruct b; [exact Inp|]. destruct (T c) as [tm|] eqn:Tc; [|exact Inp].
      destruct Inp as (_ & _ & Q). unfold answer in Q. rewrite St, String.eqb_refl in Q. specialize (Q c i Lk Hi). rewrite Tc in Q.
      destruct Q as (Q & _). cbn [d_stack w_vacc w_acc] in Q. congruence.
    + rewrite (C_term s C c Rd). destruct (T c) as [tm|] eqn:Tc; [|congruence].
      pose proof (run_term_ok g IHg n st c i tm (w_stack ((n, true) :: st) s) eq_refl) as Q.
      assert (C' : consistent (w_stack ((n, true) :: st) s)) by (revert C; now apply consistent_eq).
      specialize (Q C' Ev Rd Lk Hi Tc). destruct (run_term Sh g tm (w_stack ((n, true) :: st) s)) as [v s'|x s'|]; [|exact Logic.I|exact Logic.I].
      destruct Q as (Q1 & Q2 & Q3 & Q4 & Q5 & Q6). split; [exact Q1|]. rewrite Bd. split.
      * destruct Q3 as [q1 q2 q3 q4 q5 q6 q7 q8 q9]. constructor; auto.
      * unfold answer. rewrite St, String.eqb_refl. intros c' i' L' H'. assert (c' = c) by congruence. subst c'.
        assert (i' = i) by congruence. subst i'. rewrite Tc. auto.
  - (* another cell *)
    destruct (lk_cell n c Lk) as (k & Hk & Hn & Hs).
    assert (Bd : bound s n = Datatypes.S (rank n)).
    { unfold bound. destruct (d_stack s) as [|[m b] st]; [reflexivity|]. now rewrite Self. }
    assert (Ans : forall v s', d_stack s' = d_stack s -> value_of Sh s' n = Some v -> forced (d_acc s') (fun _ val' => val' n) v -> answer s n v s').
    { intros v s' A1 A2 A3. unfold answer. destruct (d_stack s) as [|[m b] st]; [auto|]. rewrite Self. auto. }
    set (s1 := if is_ifout Sh c then w_stack ((n, false) :: d_stack s) s else s).
    assert (S1 : d_evaluated s1 = d_evaluated s /\ d_state s1 = d_state s /\ d_contrib s1 = d_contrib s /\ d_acc s1 = d_acc s /\ d_term s1 = d_term s /\
      d_dirty s1 = d_dirty s /\ frame s s1 /\ d_stack s1 = if is_ifout Sh c then (n, false) :: d_stack s else d_stack s).
    { unfold s1. destruct (is_ifout Sh c); repeat split. }
    clearbody s1. destruct S1 as (Se & Ss & Sc & Sa & St & Sd & Sf & Sk).
    destruct (d_evaluated s1 c) eqn:Ev; rewrite Se in Ev.
    + (* already evaluated *)
      set (s2 := add_cond Sh c (w_acc (N.lor (d_acc s1) (d_contrib s1 c)) s1)).
      assert (S2 : d_evaluated s2 = d_evaluated s /\ d_state s2 = d_state s /\ d_term s2 = d_term s /\ d_dirty s2 = d_dirty s /\
        d_acc s2 = N.lor (d_acc s) (d_contrib s c) /\ frame s s2 /\ d_stack s2 = d_stack s1 /\
        (forall d, d <> c -> d_contrib s2 d = d_contrib s d) /\ sub (d_contrib s c) (d_contrib s2 c)).
      { unfold s2, add_cond. rewrite <- ?Se, <- ?Ss, <- ?St, <- ?Sd, <- ?Sa, <- ?Sc.
        destruct (is_leaf Sh c); cbn [d_evaluated d_state d_term d_dirty d_acc d_stack d_contrib w_contrib w_acc];
          repeat (split; [reflexivity|]); (split; [revert Sf; unfold frame; intuition|]); (split; [reflexivity|]); split.
        - reflexivity.
        - apply sub_refl.
        - intros d Hd. now rewrite fset_other.
        - rewrite fset_same. apply sub_lor_l. }
      clearbody s2. destruct S2 as (S2e & S2s & S2t & S2d & S2a & S2f & S2k & S2c & S2b).
      set (s3 := pop Sh c s2).
      assert (S3 : d_evaluated s3 = d_evaluated s /\ d_state s3 = d_state s /\ d_term s3 = d_term s /\ d_dirty s3 = d_dirty s /\
        d_acc s3 = N.lor (d_acc s) (d_contrib s c) /\ frame s s3 /\ d_stack s3 = d_stack s /\
        (forall d, d <> c -> d_contrib s3 d = d_contrib s d) /\ sub (d_contrib s c) (d_contrib s3 c)).
      { assert (Ep : s3 = if is_ifout Sh c then w_stack (tl (d_stack s2)) s2 else s2) by reflexivity. clearbody s3.
        rewrite Sk in S2k. destruct (is_ifout Sh c); subst s3; cbn [d_evaluated d_state d_term d_dirty d_acc d_stack d_contrib w_stack]; auto 10.
        rewrite S2k. cbn [tl]. repeat (split; [assumption || reflexivity|]). auto. }
      assert (Vs : d_state s2 c = d_state s c) by now rewrite S2s. clear Ans.
      assert (Ans : forall v s', d_stack s' = d_stack s -> value_of Sh s' n = Some v -> forced (d_acc s') (fun _ val' => val' n) v -> answer s n v s').
      { intros v s' A1 A2 A3. unfold answer. destruct (d_stack s) as [|[m b] st]; [auto|]. rewrite Self. auto. }
      clearbody s3. destruct S3 as (S3e & S3s & S3t & S3d & S3a & S3f & S3k & S3c & S3b). rewrite Vs.
      assert (Sub : forall d, sub (d_contrib s d) (d_contrib s3 d)).
      { intros d. destruct (Nat.eq_dec d c) as [->|Hd]; [exact S3b|]. rewrite S3c by exact Hd. apply sub_refl. }
      split; [|split].
      * assert (S3n : d_count s3 = d_count s) by exact (proj1 (proj2 (proj2 S3f))).
        destruct C as [c0 c1 c2 c3 c4 c5 c6]. constructor; rewrite ?S3t, ?S3s, ?S3e, ?S3n; auto.
        -- intros m d Hm He.
           assert (Lw : forall v, def_value Sh T inp (value_of Sh s) d = Some v -> def_value Sh T inp (value_of Sh s3) d = Some v).
           { intros v. apply def_value_mono. intros x w. now rewrite (value_of_same s s3 S3e S3s). }
           apply Lw. now apply (c2 m).
        -- intros m d Hm He. apply (forced_sub (d_contrib s d)); [apply Sub|]. exact (c5 m d Hm He).
        -- intros d i Hi. apply Sub. exact (c6 d i Hi).
      * rewrite Bd. constructor; rewrite ?S3s, ?S3e, ?S3d; auto.
        -- intros d i Hi. apply S3c. exact (lk_not_input n c d i Lk Hi).
        -- rewrite S3a. apply sub_lor_l.
        -- intros d H0 H1. congruence.
      * apply Ans; [exact S3k| |].
        -- unfold value_of. now rewrite Lk, S3e, Ev, S3s.
        -- rewrite S3a. apply (forced_sub (d_contrib s c)); [apply sub_lor_r|]. exact (C_forced s C n c Lk Ev).
    + (* it must be computed *)
      unfold calculate, cell_at. rewrite Hk.
      change (d_evaluated (w_acc 0%N s1) c) with (d_evaluated s1 c). change (d_count (w_acc 0%N s1) c) with (d_count s1 c).
      rewrite Se, Ev. destruct (d_count s1 c =? 0)%N eqn:Hc; cbn [negb]; [|exact Logic.I].
      assert (Hct : d_count s c = 0%N).
      { apply N.eqb_eq in Hc. destruct Sf as (_ & _ & Sf & _). now rewrite <- Sf. }
      assert (C1 : consistent (w_acc 0%N s1)) by (revert C; apply consistent_eq; auto; exact (proj1 (proj2 (proj2 Sf)))).
      assert (Rk : forall t b st', d_stack s = (t, b) :: st' -> rank n < rank t).
      { intros t b st' E. unfold top_ok in Tk. rewrite E in Tk. destruct Tk as [Tk|(-> & _)]; [exact Tk|].
        rewrite E, String.eqb_refl in Self. discriminate. }
      pose proof (run_calc_ok g IHg n c k (d_stack s) (w_acc 0%N s1) Lk Hk) as Q.
      change (d_evaluated (w_acc 0%N s1) c) with (d_evaluated s1 c) in Q. rewrite Se in Q. specialize (Q Ev (C_ready s C c Hct) C1 Sk Rk).
      destruct (run_calc g (c_calc k) (w_acc 0%N s1)) as [v s2|x s2|]; [|exact Logic.I|exact Logic.I].
      destruct Q as (Q1 & Q2 & Q3 & Q4 & Q5 & Q6).
      set (s3 := w_evaluated _ _).
      set (s4 := add_cond Sh c _).
      assert (S4 : d_evaluated s4 = fset (d_evaluated s2) c true /\ d_state s4 = fset (d_state s2) c v /\ d_term s4 = d_term s2 /\
        d_dirty s4 = fset (d_dirty s2) c (negb (veqb v (d_state s2 c))) /\ d_acc s4 = N.lor (d_acc s2) (d_acc s) /\ frame s2 s4 /\
        d_stack s4 = d_stack s2 /\ (forall d, d <> c -> d_contrib s4 d = d_contrib s2 d) /\ sub (d_acc s2) (d_contrib s4 c) /\ sub (d_cond s2) (d_contrib s4 c)).
      { assert (Nl : is_leaf Sh c = false) by (destruct (is_leaf Sh c) eqn:E; auto; rewrite (C_leaf s C c E) in Ev; discriminate).
        unfold s4, s3, add_cond. rewrite <- Sa, Nl. cbn [d_evaluated d_state d_term d_dirty d_acc d_stack d_contrib w_contrib w_acc w_evaluated w_state w_dirty];
          repeat (split; [reflexivity|]); (split; [repeat split|]); (split; [reflexivity|]); split.
        - intros d Hd. now rewrite !fset_other.
        - rewrite !fset_same. split; [apply sub_lor_l|apply sub_lor_r]. }
      clearbody s4. clear s3. destruct S4 as (S4e & S4s & S4t & S4d & S4a & S4f & S4k & S4c & S4b & S4q).
      set (s5 := pop Sh c s4).
      assert (S5 : d_evaluated s5 = fset (d_evaluated s2) c true /\ d_state s5 = fset (d_state s2) c v /\ d_term s5 = d_term s2 /\
        d_dirty s5 = fset (d_dirty s2) c (negb (veqb v (d_state s2 c))) /\ d_acc s5 = N.lor (d_acc s2) (d_acc s) /\ frame s2 s5 /\
        d_stack s5 = d_stack s /\ (forall d, d <> c -> d_contrib s5 d = d_contrib s2 d) /\ sub (d_acc s2) (d_contrib s5 c) /\ sub (d_cond s2) (d_contrib s5 c)).
      { assert (Ep : s5 = if is_ifout Sh c then w_stack (tl (d_stack s4)) s4 else s4) by reflexivity. clearbody s5.
        unfold pushed in Q4. rewrite <- S4k in Q4. destruct (is_ifout Sh c); subst s5; cbn [d_evaluated d_state d_term d_dirty d_acc d_stack d_contrib w_stack]; auto 10.
        destruct Q4 as (b & Q4). rewrite Q4. cbn [tl]. repeat (split; [assumption || reflexivity|]). auto. }
      assert (Vs : d_state s4 c = v) by (rewrite S4s; apply fset_same). rewrite Vs. clearbody s5. clear s4 S4e S4s S4t S4d S4a S4f S4k S4c S4b S4q Vs.
      destruct S5 as (S5e & S5s & S5t & S5d & S5a & S5f & S5k & S5c & S5b & S5q).
      assert (Val : forall m w, value_of Sh s2 m = Some w -> value_of Sh s5 m = Some w).
      { intros m w. unfold value_of. destruct (lookup m (name_index Sh)) as [d|]; [|auto]. rewrite S5e, S5s, !fset_eq.
        destruct (Nat.eqb_spec d c) as [->|]; [rewrite Q3; discriminate|auto]. }
      assert (Dv : def_value Sh T inp (value_of Sh s5) c = Some v) by (revert Q5; now apply def_value_mono).
      assert (Ff : forced (d_acc s2) (fun _ val' => val' n) v).
      { intros inp' val' A Sv v' E. destruct (Sv n v' E) as (c' & L' & D'). assert (c' = c) by congruence. subst c'.
        exact (Q6 inp' val' A Sv v' D'). }
      split; [|split].
      * destruct Q1 as [c0 c1 c2 c3 c4 c5 c6]. constructor.
        -- intros d. rewrite (proj1 (proj2 (proj2 S5f))). apply c0.
        -- intros d. rewrite S5t. apply c1.
        -- intros m d Hm. rewrite S5e, S5s, !fset_eq. destruct (Nat.eqb_spec d c) as [->|Hd]; [intros _; exact Dv|].
           intros He. apply (def_value_mono Sh T inp (value_of Sh s2)); [exact Val|exact (c2 m d Hm He)].
        -- intros d i Hi. rewrite S5e, S5s, !fset_eq. destruct (Nat.eqb_spec d c) as [->|Hd]; [discriminate|]. intros He.
           rewrite (proj2 (Nat.eqb_neq i c)); [exact (c3 d i Hi He)|exact (lk_not_input n c d i Lk Hi)].
        -- intros d Hd. rewrite S5e, fset_eq. destruct (d =? c); auto.
        -- intros m d Hm. rewrite S5e, S5s, !fset_eq. destruct (Nat.eqb_spec d c) as [->|Hd].
           ++ intros _. assert (m = n) by (eapply lk_inj; eauto). subst m. apply (forced_sub (d_acc s2)); auto.
           ++ intros He. rewrite S5c by exact Hd. exact (c5 m d Hm He).
        -- intros d i Hi. rewrite S5c by exact (lk_not_input n c d i Lk Hi). exact (c6 d i Hi).
      * rewrite Bd. destruct Q2 as [q1 q2 q3 q4 q5 q6 q7 q8 q9].
        cbn [d_evaluated d_state d_contrib d_dirty d_count d_acc w_acc] in q1, q2, q3, q4, q5, q6, q7. rewrite Se in q1, q2, q3, q4, q7. rewrite Ss in q2, q7. rewrite Sc in q4, q5. rewrite Sd in q7.
        constructor.
        -- intros d Hd. rewrite S5e, fset_eq. destruct (d =? c); auto.
        -- intros d. rewrite S5e, S5s, !fset_eq. destruct (Nat.eqb_spec d c) as [->|Hd]; [right; auto|]. apply q2.
        -- intros d. rewrite S5e, fset_eq. destruct (Nat.eqb_spec d c) as [->|Hd].
           ++ intros _. right. exists n. auto.
           ++ intros He. destruct (q3 d He) as [?|(m & M1 & M2 & M3)]; [now left|right]. exists m. split; [exact M1|]. split; [lia|].
              destruct Sf as (_ & _ & Sf & _). now rewrite <- Sf.
        -- intros d Hd. destruct (Nat.eq_dec d c) as [->|Hne]; [congruence|]. rewrite S5c by exact Hne. auto.
        -- intros d i Hi. rewrite S5c by exact (lk_not_input n c d i Lk Hi). exact (q5 d i Hi).
        -- rewrite S5a. apply sub_lor_r.
        -- intros d. rewrite S5e, S5s, S5d, !fset_eq. destruct (Nat.eqb_spec d c) as [->|Hd]; [|apply q7].
           right. split; [exact Ev|]. split; [reflexivity|]. destruct (q2 c) as [->|[_ E]]; [reflexivity|congruence].
        -- apply (frame_trans s s1); [exact Sf|]. apply (frame_trans s1 s2); [exact q8|exact S5f].
        -- intros d He. rewrite S5e, fset_eq. destruct (Nat.eqb_spec d c) as [->|Hd].
           ++ intros _. pose proof (frame_trans _ _ _ Sf q8) as (_ & _ & _ & _ & _ & _ & _ & Fc & _). cbn [d_cond w_acc] in Fc. rewrite <- Fc. exact S5q.
           ++ rewrite S5c by exact Hd. intros He'. assert (d_cond s1 = d_cond s) as <- by (destruct Sf as (_ & _ & _ & _ & _ & _ & _ & Fc & _); exact Fc).
              exact (q9 d (eq_trans (f_equal (fun h => h d) Se) He) He').
      * apply Ans; [exact S5k| |].
        -- unfold value_of. rewrite Lk, S5e, S5s, !fset_same. reflexivity.
        -- rewrite S5a. apply (forced_sub (d_acc s2)); [apply sub_lor_l|exact Ff].
Qed.
Theorem get_correct : forall f n s, consistent s -> top_ok s n -> get_ok n s (get Sh f n s).
Proof. induction f as [|f IH]; intros n s C Tk; cbn [get]; [exact Logic.I|]. apply get_step; auto. Qed.
End Eval.
