(** The structure every sheet has, however it was built. *)
From Coq Require Import String Permutation Sorted.
From Verif Require Import Prelude Vm_Value Adam_Model Adam_Spec.
From Coq Require Import List.
Local Open Scope nat_scope.
Ltac Zify.zify_post_hook ::= idtac.

Lemma lookup_In n c l : lookup n l = Some c -> In (n, c) l.
Proof.
  induction l as [|[m d] l IH]; cbn [lookup]; [discriminate|].
  destruct (String.eqb_spec m n) as [->|]; [injection 1 as <-; now left|right; auto].
Qed.
Lemma lookup_None n l : lookup n l = None <-> ~ In n (map fst l).
Proof.
  induction l as [|[m d] l IH]; cbn [lookup map fst In]; [tauto|].
  destruct (String.eqb_spec m n) as [->|Hn]; [intuition congruence|]. rewrite IH. intuition congruence.
Qed.
Lemma In_lookup n c l : NoDup (map fst l) -> In (n, c) l -> lookup n l = Some c.
Proof.
  induction l as [|[m d] l IH]; cbn [lookup map fst]; intros N; [intros []|]. inversion N as [|? ? Nm N']; subst.
  intros [H|H].
  - injection H as -> ->. now rewrite String.eqb_refl.
  - destruct (String.eqb_spec m n) as [->|]; auto. exfalso. apply Nm. apply in_map_iff. exists (n, c). auto.
Qed.
Lemma iinsert_fresh n c l : lookup n l = None -> iinsert n c l = l ++ [(n, c)].
Proof.
  induction l as [|[m d] l IH]; cbn [lookup iinsert app]; [reflexivity|].
  destruct (String.eqb_spec m n); [discriminate|]. intros H. now rewrite IH.
Qed.
Lemma lookup_app n l l' : lookup n (l ++ l') = match lookup n l with Some c => Some c | None => lookup n l' end.
Proof.
  induction l as [|[m d] l IH]; cbn [lookup app]; [reflexivity|]. destruct (String.eqb m n); auto.
Qed.
Lemma NoDup_snoc {A} (l : list A) x : NoDup l -> ~ In x l -> NoDup (l ++ [x]).
Proof.
  induction 1 as [|a l Ha N IH]; cbn [app]; intros H.
  - constructor; [intros []|constructor].
  - constructor; [|apply IH; intuition]. rewrite in_app_iff. intros [H'|[<-|[]]]; [contradiction|]. apply H. now left.
Qed.

(** what kind of cell an index entry may be *)
Definition out_kind (Sh : sheet) (c : nat) (k : cell) : Prop :=
  match c_spec k with
  | SOutput | SInvariant => c_in k = None /\ exists e, c_calc k = CExpr e
  | SIfOut => exists i k', c_in k = Some i /\ c = Datatypes.S i /\ nth_error (cells Sh) i = Some k' /\
                c_spec k' = SIfIn /\ c_name k' = c_name k /\
                (c_calc k = CGet (c_name k) \/ exists e, c_calc k = CExpr e)
  | _ => False
  end.
Record wf (Sh : sheet) : Prop := {
  W_names : NoDup (map fst (name_index Sh));
  W_inputs : NoDup (map fst (input_index Sh));
  W_outputs : NoDup (map fst (output_index Sh));
  W_name : forall n c, In (n, c) (name_index Sh) ->
      exists k, nth_error (cells Sh) c = Some k /\ c_name k = n /\ c_spec k <> SIfIn;
  W_input : forall n c, In (n, c) (input_index Sh) ->
      exists k, nth_error (cells Sh) c = Some k /\ c_name k = n /\ (c_spec k = SInput \/ c_spec k = SIfIn);
  W_output : forall n c, In (n, c) (output_index Sh) ->
      In (n, c) (name_index Sh) /\ exists k, nth_error (cells Sh) c = Some k /\ c_name k = n /\ out_kind Sh c k;
  W_cell : forall c k, nth_error (cells Sh) c = Some k ->
      match c_spec k with
      | SIfIn => In (c_name k, c) (input_index Sh) /\ In (c_name k, Datatypes.S c) (name_index Sh) /\ c_in k = None
      | SInput => In (c_name k, c) (input_index Sh) /\ In (c_name k, c) (name_index Sh) /\ c_in k = None
      | SIfOut | SOutput | SInvariant => In (c_name k, c) (output_index Sh)
      | SLogic => In (c_name k, c) (name_index Sh) /\ c_in k = None /\ exists e, c_calc k = CExpr e
      | SConst => In (c_name k, c) (name_index Sh) /\ c_in k = None
      end;
  W_input_name : forall n c, In (n, c) (input_index Sh) -> In n (map fst (name_index Sh));
  W_invariant : forall c, In c (invariant_index Sh) ->
      exists k, nth_error (cells Sh) c = Some k /\ c_spec k = SInvariant;
  W_rel : forall x, In x (rels Sh) ->
      (forall n, In n (rel_names x) -> exists c i, rel_cell Sh n c /\ input_of Sh c = Some i) /\
      (forall c, In c (r_edges x) <-> exists n, In n (rel_names x) /\ rel_cell Sh n c);
  W_edges : forall x, In x (rels Sh) -> NoDup (r_edges x)
}.

Lemma wf_empty : wf empty_sheet.
Proof.
  constructor; cbn [empty_sheet cells rels name_index input_index output_index invariant_index map].
  1-3: constructor.
  1-3: intros n c [].
  - intros [|c] k H; discriminate.
  - intros n c [].
  - intros c [].
  - intros x [].
  - intros x [].
Qed.

Lemma nth_snoc_old {A} (l : list A) c k x : nth_error l c = Some k -> nth_error (l ++ [x]) c = Some k.
Proof. intros H. rewrite nth_error_app1; auto. apply nth_error_Some. congruence. Qed.
Lemma nth_snoc_inv {A} (l : list A) c k x : nth_error (l ++ [x]) c = Some k ->
  nth_error l c = Some k \/ (c = length l /\ k = x).
Proof.
  intros H. destruct (Nat.lt_ge_cases c (length l)) as [Hc|Hc].
  - left. now rewrite nth_error_app1 in H.
  - right. rewrite nth_error_app2 in H by exact Hc. destruct (c - length l) as [|m] eqn:E; cbn in H.
    + injection H as <-. split; [lia|reflexivity].
    + destruct m; discriminate.
Qed.
Lemma nth_snoc_new {A} (l : list A) x : nth_error (l ++ [x]) (length l) = Some x.
Proof. rewrite nth_error_app2, Nat.sub_diag by lia. reflexivity. Qed.
Lemma wf_fresh_output Sh n : wf Sh -> lookup n (name_index Sh) = None -> lookup n (output_index Sh) = None.
Proof.
  intros W H. apply lookup_None. apply lookup_None in H. intros Hi. apply H.
  apply in_map_iff in Hi as ([m c] & <- & Hi). apply (W_output Sh W) in Hi as [Hi _]. apply in_map_iff. exists (m, c). auto.
Qed.
Lemma wf_fresh_input Sh n : wf Sh -> lookup n (name_index Sh) = None -> lookup n (input_index Sh) = None.
Proof.
  intros W H. apply lookup_None. apply lookup_None in H. intros Hi. apply H.
  apply in_map_iff in Hi as ([m c] & <- & Hi). exact (W_input_name Sh W m c Hi).
Qed.
Lemma fresh_snoc n c l : lookup n l = None -> NoDup (map fst l) -> NoDup (map (@fst name nat) (l ++ [(n, c)])).
Proof. intros H N. rewrite map_app. apply NoDup_snoc; auto. now apply lookup_None. Qed.

(** adding one cell, not an interface cell *)
Definition extend (k : cell) (isin isout : bool) (inv : list nat) (ho : bool) (Sh : sheet) : sheet :=
  mk_sheet (cells Sh ++ [k]) (rels Sh) (name_index Sh ++ [(c_name k, length (cells Sh))])
    (if isin then input_index Sh ++ [(c_name k, length (cells Sh))] else input_index Sh)
    (if isout then output_index Sh ++ [(c_name k, length (cells Sh))] else output_index Sh)
    (invariant_index Sh ++ inv) ho.
Lemma wf_extend Sh k isin isout inv ho : wf Sh -> lookup (c_name k) (name_index Sh) = None ->
  c_in k = None ->
  match c_spec k with
  | SIfIn | SIfOut => False
  | SInput => isin = true /\ isout = false
  | SOutput | SInvariant => isin = false /\ isout = true /\ exists e, c_calc k = CExpr e
  | SLogic => isin = false /\ isout = false /\ exists e, c_calc k = CExpr e
  | SConst => isin = false /\ isout = false
  end ->
  (inv = [] \/ inv = [length (cells Sh)] /\ c_spec k = SInvariant) ->
  wf (extend k isin isout inv ho Sh).
Proof.
  intros W F In0 Kd Iv. pose proof (wf_fresh_output Sh _ W F) as Fo. pose proof (wf_fresh_input Sh _ W F) as Fi.
  assert (Ko : forall c k0, out_kind Sh c k0 -> out_kind (extend k isin isout inv ho Sh) c k0).
  { intros c k0. unfold out_kind. destruct (c_spec k0); auto. intros (i & k' & A & B & C & D).
    exists i, k'. repeat (split; auto). cbn [extend cells]. now apply nth_snoc_old. }
  assert (Rc : forall m c, rel_cell Sh m c -> rel_cell (extend k isin isout inv ho Sh) m c).
  { intros m c. unfold rel_cell. cbn [extend output_index]. destruct isout; auto.
    rewrite lookup_app. now intros ->. }
  constructor; cbn [extend cells rels name_index input_index output_index invariant_index].
  - apply fresh_snoc; auto. apply W.
  - destruct isin; [|apply W]. apply fresh_snoc; auto. apply W.
  - destruct isout; [|apply W]. apply fresh_snoc; auto. apply W.
  - intros n c H. apply in_app_or in H as [H|[H|[]]].
    + destruct (W_name Sh W n c H) as (k0 & A & B & C). exists k0. split; auto. now apply nth_snoc_old.
    + injection H as <- <-. exists k. split; [apply nth_snoc_new|]. split; auto. destruct (c_spec k); try congruence; tauto.
  - intros n c H. destruct isin.
    + apply in_app_or in H as [H|[H|[]]].
      * destruct (W_input Sh W n c H) as (k0 & A & B & C). exists k0. split; auto. now apply nth_snoc_old.
      * injection H as <- <-. exists k. split; [apply nth_snoc_new|]. split; auto.
        destruct (c_spec k); auto; intuition discriminate.
    + destruct (W_input Sh W n c H) as (k0 & A & B & C). exists k0. split; auto. now apply nth_snoc_old.
  - intros n c H.
    assert (Old : In (n, c) (output_index Sh) -> In (n, c) (name_index Sh ++ [(c_name k, length (cells Sh))]) /\
      exists k0, nth_error (cells Sh ++ [k]) c = Some k0 /\ c_name k0 = n /\ out_kind (extend k isin isout inv ho Sh) c k0).
    { intros H'. destruct (W_output Sh W n c H') as (A & k0 & B & C & E). split; [apply in_or_app; now left|].
      exists k0. split; [now apply nth_snoc_old|]. auto. }
    destruct isout; auto. apply in_app_or in H as [H|[H|[]]]; auto.
    injection H as <- <-. split; [apply in_or_app; right; now left|]. exists k. split; [apply nth_snoc_new|]. split; auto.
    unfold out_kind. destruct (c_spec k); intuition discriminate.
  - intros c k0 H. apply nth_snoc_inv in H as [H|[-> ->]].
    + pose proof (W_cell Sh W c k0 H) as Q. destruct (c_spec k0), isin, isout; intuition (rewrite ?in_app_iff; auto).
    + destruct (c_spec k); try tauto; repeat match goal with H : _ /\ _ |- _ => destruct H end; subst; rewrite ?in_app_iff; cbn [In]; auto 8.
  - intros n c H. rewrite map_app, in_app_iff.
    assert (Old : In (n, c) (input_index Sh) -> In n (map fst (name_index Sh))) by apply (W_input_name Sh W).
    destruct isin; [|left; eauto]. apply in_app_or in H as [H|[H|[]]]; [left; eauto|]. injection H as <- <-. right. now left.
  - intros c H. apply in_app_or in H as [H|H].
    + destruct (W_invariant Sh W c H) as (k0 & A & B). exists k0. split; auto. now apply nth_snoc_old.
    + destruct Iv as [->|[-> Hs]]; [destruct H|]. destruct H as [<-|[]]. exists k. split; auto. apply nth_snoc_new.
  - intros x Hx. destruct (W_rel Sh W x Hx) as [A B].
    assert (Hio : forall c i, input_of Sh c = Some i -> input_of (extend k isin isout inv ho Sh) c = Some i).
    { intros c i. unfold input_of, cell_at. cbn [extend cells]. destruct (nth_error (cells Sh) c) eqn:E; [|discriminate].
      now rewrite (nth_snoc_old _ _ _ k E). }
    split.
    + intros n Hn. destruct (A n Hn) as (c & i & H1 & H2). exists c, i. auto.
    + intros c. rewrite B. split; intros (n & Hn & Hc); exists n; split; auto.
      destruct (A n Hn) as (c' & i & H1 & H2). pose proof (Rc n c' H1). unfold rel_cell in *. congruence.
  - exact (W_edges Sh W).
Qed.
(** adding the two halves of an interface cell *)
Definition extend2 (k k2 : cell) (Sh : sheet) : sheet :=
  mk_sheet ((cells Sh ++ [k]) ++ [k2]) (rels Sh) (name_index Sh ++ [(c_name k, Datatypes.S (length (cells Sh)))])
    (input_index Sh ++ [(c_name k, length (cells Sh))])
    (output_index Sh ++ [(c_name k, Datatypes.S (length (cells Sh)))])
    (invariant_index Sh) (has_output Sh).
Lemma wf_extend2 Sh k k2 : wf Sh -> lookup (c_name k) (name_index Sh) = None ->
  c_spec k = SIfIn -> c_in k = None -> c_spec k2 = SIfOut -> c_name k2 = c_name k -> c_in k2 = Some (length (cells Sh)) ->
  (c_calc k2 = CGet (c_name k) \/ exists e, c_calc k2 = CExpr e) -> wf (extend2 k k2 Sh).
Proof.
  intros W F S1 I1 S2 N2 I2 Kd. pose proof (wf_fresh_output Sh _ W F) as Fo. pose proof (wf_fresh_input Sh _ W F) as Fi.
  set (Sh' := extend2 k k2 Sh).
  assert (Old : forall c k0, nth_error (cells Sh) c = Some k0 -> nth_error (cells Sh') c = Some k0).
  { intros c k0 H. cbn [Sh' extend2 cells]. now do 2 apply nth_snoc_old. }
  assert (New1 : nth_error (cells Sh') (length (cells Sh)) = Some k).
  { cbn [Sh' extend2 cells]. apply nth_snoc_old, nth_snoc_new. }
  assert (New2 : nth_error (cells Sh') (Datatypes.S (length (cells Sh))) = Some k2).
  { cbn [Sh' extend2 cells]. replace (Datatypes.S (length (cells Sh))) with (length (cells Sh ++ [k])) by (rewrite app_length; cbn; lia).
    apply nth_snoc_new. }
  assert (Ko : forall c k0, out_kind Sh c k0 -> out_kind Sh' c k0).
  { intros c k0. unfold out_kind. destruct (c_spec k0); auto. intros (i & k' & A & B & C & D).
    exists i, k'. repeat (split; auto). }
  assert (Rc : forall m c, rel_cell Sh m c -> rel_cell Sh' m c).
  { intros m c. unfold rel_cell. cbn [Sh' extend2 output_index]. rewrite lookup_app. now intros ->. }
  constructor.
  - apply fresh_snoc; auto. apply W.
  - apply fresh_snoc; auto. apply W.
  - apply fresh_snoc; auto. apply W.
  - intros n c H. apply in_app_or in H as [H|[H|[]]].
    + destruct (W_name Sh W n c H) as (k0 & A & B & C). exists k0. auto.
    + injection H as <- <-. exists k2. split; auto. split; auto. congruence.
  - intros n c H. apply in_app_or in H as [H|[H|[]]].
    + destruct (W_input Sh W n c H) as (k0 & A & B & C). exists k0. auto.
    + injection H as <- <-. exists k. auto.
  - intros n c H. apply in_app_or in H as [H|[H|[]]].
    + destruct (W_output Sh W n c H) as (A & k0 & B & C & E). split; [apply in_or_app; now left|]. exists k0. auto.
    + injection H as <- <-. split; [apply in_or_app; right; now left|]. exists k2. split; auto. split; auto.
      unfold out_kind. rewrite S2. exists (length (cells Sh)), k. rewrite N2. auto 8.
  - intros c k0 H. cbn [Sh' extend2 cells] in H. apply nth_snoc_inv in H as [H|[-> ->]].
    + apply nth_snoc_inv in H as [H|[-> ->]].
      * pose proof (W_cell Sh W c k0 H) as Q. destruct (c_spec k0); cbn [Sh' extend2 input_index name_index output_index];
          intuition (rewrite ?in_app_iff; auto).
      * rewrite S1. cbn [Sh' extend2 input_index name_index output_index]. rewrite !in_app_iff. cbn [In]. auto 8.
    + rewrite S2. cbn [Sh' extend2 input_index name_index output_index]. rewrite app_length. cbn [length].
      rewrite N2, Nat.add_1_r. rewrite in_app_iff. right. now left.
  - intros n c H. cbn [Sh' extend2 name_index]. rewrite map_app, in_app_iff.
    apply in_app_or in H as [H|[H|[]]]; [left; exact (W_input_name Sh W n c H)|]. injection H as <- <-. right. now left.
  - intros c H. destruct (W_invariant Sh W c H) as (k0 & A & B). exists k0. auto.
  - intros x Hx. destruct (W_rel Sh W x Hx) as [A B].
    assert (Hio : forall c i, input_of Sh c = Some i -> input_of Sh' c = Some i).
    { intros c i. unfold input_of, cell_at. destruct (nth_error (cells Sh) c) eqn:E; [|discriminate].
      now rewrite (Old _ _ E). }
    split.
    + intros n Hn. destruct (A n Hn) as (c & i & H1 & H2). exists c, i. auto.
    + intros c. rewrite B. split; intros (n & Hn & Hc); exists n; split; auto.
      destruct (A n Hn) as (c' & i & H1 & H2). pose proof (Rc n c' H1). unfold rel_cell in *. congruence.
  - exact (W_edges Sh W).
Qed.

Lemma find_edges_ok Sh : forall ns l, find_edges Sh ns = (l, true) ->
  (forall n, In n ns -> exists c i, rel_cell Sh n c /\ input_of Sh c = Some i) /\
  (forall c, In c l <-> exists n, In n ns /\ rel_cell Sh n c) /\
  (names_ok Sh -> NoDup ns -> NoDup l).
Proof.
  induction ns as [|n ns IH]; intros l H; cbn [find_edges] in H.
  - injection H as <-. split; [intros n []|]. split; [|intros _ _; constructor].
    intros c. split; [intros []|intros (n & [] & _)].
  - destruct (lookup n (output_index Sh)) as [c|] eqn:E; [|discriminate].
    destruct (input_of Sh c) as [i|] eqn:Ei; [|discriminate].
    destruct (find_edges Sh ns) as [l' ok] eqn:Ef. injection H as <- ->. destruct (IH l' eq_refl) as (A & B & D). split; [|split].
    + intros m [<-|Hm]; [exists c, i; split; auto|auto].
    + intros d. cbn [In]. rewrite B. split.
      * intros [<-|(m & Hm & Hc)]; [exists n; split; [now left|exact E]|exists m; auto].
      * intros (m & [<-|Hm] & Hc); [left; unfold rel_cell in Hc; congruence|right; exists m; auto].
    + intros Ok N. inversion N as [|? ? Nn N']; subst. constructor; [|auto]. rewrite B. intros (m & Hm & Hc).
      destruct (Ok m c Hc) as (k & K1 & K2). destruct (Ok n c E) as (k' & K1' & K2'). apply Nn. replace n with m by congruence. exact Hm.
Qed.
Lemma wf_names_ok Sh : wf Sh -> names_ok Sh.
Proof. intros W n c H. apply lookup_In in H. destruct (W_output Sh W n c H) as (_ & k & A & B & _). eauto. Qed.

(** a sheet built by successful calls is well formed *)
Lemma build_wf o Sh s Sh' s' : wf Sh -> build o Sh s = BOk Sh' s' -> wf Sh'.
Proof.
  intros W H. destruct o; cbn [build] in H.
  - unfold add_input in H. destruct (match init with Some e => _ | None => _ end) as [v s1| |]; try discriminate.
    destruct (1024 <=? length (cells Sh)); [discriminate|]. unfold finish_name in H. cbn [name_index ix_input push_cell] in H.
    destruct (lookup n (name_index Sh)) eqn:E; [discriminate|]. injection H as <- _.
    unfold ix_name, ix_input, push_cell. cbn [name_index input_index output_index cells rels invariant_index has_output].
    rewrite !iinsert_fresh by (auto using wf_fresh_input).
    replace (invariant_index Sh) with (invariant_index Sh ++ []) by apply app_nil_r.
    apply (wf_extend Sh (mk_cell SInput n CNone false None) true false [] (has_output Sh)); cbn; auto.
  - unfold add_output, finish_name in H. cbn [name_index ix_output push_cell] in H.
    destruct (lookup n (name_index Sh)) eqn:E; [discriminate|]. injection H as <- _.
    unfold with_output, ix_name, ix_output, push_cell. cbn [name_index input_index output_index cells rels invariant_index has_output].
    rewrite !iinsert_fresh by (auto using wf_fresh_output).
    replace (invariant_index Sh) with (invariant_index Sh ++ []) by apply app_nil_r.
    apply (wf_extend Sh (mk_cell SOutput n (CExpr e) false None) false true [] true); cbn; eauto.
  - unfold add_logic, finish_name in H. cbn [name_index push_cell] in H.
    destruct (lookup n (name_index Sh)) eqn:E; [discriminate|]. injection H as <- _.
    unfold ix_name, push_cell. cbn [name_index input_index output_index cells rels invariant_index has_output].
    rewrite !iinsert_fresh by auto.
    replace (invariant_index Sh) with (invariant_index Sh ++ []) by apply app_nil_r.
    apply (wf_extend Sh (mk_cell SLogic n (CExpr e) false None) false false [] (has_output Sh)); cbn; eauto.
  - unfold add_invariant, finish_name in H. cbn [name_index ix_output push_cell] in H.
    destruct (lookup n (name_index Sh)) eqn:E; [discriminate|]. injection H as <- _.
    unfold with_invariant, ix_name, ix_output, push_cell. cbn [name_index input_index output_index cells rels invariant_index has_output].
    rewrite !iinsert_fresh by (auto using wf_fresh_output).
    apply (wf_extend Sh (mk_cell SInvariant n (CExpr e) false None) false true [length (cells Sh)] (has_output Sh)); cbn; eauto.
  - unfold add_constant in H. destruct (ev (get_init Sh) e s) as [v s1| |]; try discriminate.
    unfold add_constant_value, finish_name in H. cbn [name_index push_cell] in H.
    destruct (lookup n (name_index Sh)) eqn:E; [discriminate|]. injection H as <- _.
    unfold ix_name, push_cell. cbn [name_index input_index output_index cells rels invariant_index has_output].
    rewrite !iinsert_fresh by auto.
    replace (invariant_index Sh) with (invariant_index Sh ++ []) by apply app_nil_r.
    apply (wf_extend Sh (mk_cell SConst n CNone false None) false false [] (has_output Sh)); cbn; eauto.
  - unfold add_constant_value, finish_name in H. cbn [name_index push_cell] in H.
    destruct (lookup n (name_index Sh)) eqn:E; [discriminate|]. injection H as <- _.
    unfold ix_name, push_cell. cbn [name_index input_index output_index cells rels invariant_index has_output].
    rewrite !iinsert_fresh by auto.
    replace (invariant_index Sh) with (invariant_index Sh ++ []) by apply app_nil_r.
    apply (wf_extend Sh (mk_cell SConst n CNone false None) false false [] (has_output Sh)); cbn; eauto.
  - unfold add_interface in H. destruct (1024 <=? length (cells Sh)); [discriminate|]. cbv zeta in H.
    destruct (match init with Some _ => _ | None => _ end) as [v s1| |]; try discriminate.
    unfold finish_name in H. cbn [name_index ix_output ix_input push_cell] in H.
    destruct (lookup n (name_index Sh)) eqn:E; [discriminate|]. injection H as <- _.
    unfold ix_name, ix_output, ix_input, push_cell. cbn [name_index input_index output_index cells rels invariant_index has_output].
    rewrite !iinsert_fresh by (auto using wf_fresh_output, wf_fresh_input).
    apply (wf_extend2 Sh (mk_cell SIfIn n (match init with Some i => CExpr i | None => CNone end) lk None)
       (mk_cell SIfOut n (match e with Some x => CExpr x | None => CGet n end) false (Some (length (cells Sh))))); cbn; auto.
    destruct e; eauto.
  - unfold add_interface_value in H. destruct (1024 <=? length (cells Sh)); [discriminate|]. cbv zeta in H.
    unfold finish_name in H. cbn [name_index ix_output ix_input push_cell] in H.
    destruct (lookup n (name_index Sh)) eqn:E; [discriminate|]. injection H as <- _.
    unfold ix_name, ix_output, ix_input, push_cell. cbn [name_index input_index output_index cells rels invariant_index has_output].
    rewrite !iinsert_fresh by (auto using wf_fresh_output, wf_fresh_input).
    apply (wf_extend2 Sh (mk_cell SIfIn n CNone true None)
       (mk_cell SIfOut n (CGet n) false (Some (length (cells Sh))))); cbn; auto.
  - unfold add_relation in H. destruct (find_edges Sh (nodup string_dec (flat_map fst terms))) as [edges ok] eqn:Ef.
    destruct ok; [|discriminate]. injection H as <- _. apply find_edges_ok in Ef as (A & B & D).
    specialize (D (wf_names_ok Sh W) (NoDup_nodup _ _)).
    destruct W as [w1 w2 w3 w4 w5 w6 w7 w7i w8 w9 w10]. constructor; auto; cycle 1.
    { cbn [push_rel rels]. intros x Hx. apply in_app_or in Hx as [Hx|[<-|[]]]; auto. } cbn [push_rel rels]. intros x Hx.
    apply in_app_or in Hx as [Hx|[<-|[]]]; [exact (w9 x Hx)|]. unfold rel_names. cbn [r_terms r_edges]. split.
    + intros n Hn. apply A. now apply nodup_In.
    + intros c. rewrite B. split; intros (n & Hn & Hc); exists n; (split; [|exact Hc]); [eapply nodup_In; eauto|now apply nodup_In].
Qed.
Lemma reachable_wf b Sh s : reachable b Sh s -> wf Sh.
Proof. induction 1; auto using wf_empty. eapply build_wf; eauto. Qed.

(** so relations are well formed as soon as their terms are *)
Lemma wf_relations Sh : wf Sh -> (forall x, In x (rels Sh) -> relation_terms_ok (r_terms x)) -> relations_ok Sh.
Proof.
  intros W H. split; [now apply wf_names_ok|]. intros x Hx. destruct (W_rel Sh W x Hx) as [A B].
  destruct (H x Hx) as (T1 & T2 & T3). split; [exact T1|]. split; [exact T2|]. split; [exact T3|]. split; auto.
Qed.
