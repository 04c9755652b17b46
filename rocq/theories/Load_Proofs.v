(** Proofs about loading a sheet *)
From Coq Require Import String.
From Verif Require Import Prelude Vm_Value Decl_Model Decl_Spec Adam_Model Adam_Spec Adam_Flow Adam_Build Load_Model Load_Spec.
From Coq Require Import List Lia.
Import ListNotations.
Local Open Scope nat_scope.
Ltac Zify.zify_post_hook ::= idtac.

(** *** the calls, as extensions of the sheet *)
Definition taken (n : name) (Sh : sheet) : Prop := lookup n (name_index Sh) <> None.
Lemma spec_is_eq Sh p c : spec_is Sh p c = match nth_error (cells Sh) c with Some k => p (c_spec k) | None => false end.
Proof. reflexivity. Qed.

(** the declared values, through the indices *)
Definition const_is (p : specifier) : bool := match p with SConst => true | _ => false end.
Definition valued (Sh : sheet) (s : dyn) (vs : list (name * value)) : Prop := forall n,
  match value_of vs n with
  | Some v => exists c, (lookup n (input_index Sh) = Some c \/ (lookup n (input_index Sh) = None /\ lookup n (name_index Sh) = Some c /\ spec_is Sh const_is c = true)) /\ d_state s c = v
  | None => lookup n (input_index Sh) = None /\ (forall c, lookup n (name_index Sh) = Some c -> spec_is Sh const_is c = false)
  end.
Lemma get_init_value Sh s vs n s1 : valued Sh s vs -> d_state s1 = d_state s ->
  match value_of vs n with
  | Some v => exists s2, get_init Sh n s1 = ROk v s2 /\ d_state s2 = d_state s
  | None => get_init Sh n s1 = RThrow XNotFound s1
  end.
Proof.
  intros V E. specialize (V n). destruct (value_of vs n) as [v|].
  - destruct V as (c & [H | (H1 & H2 & H3)] & <-); unfold get_init.
    + rewrite H, E. eexists. split; [reflexivity|exact E].
    + rewrite H1, H2. fold const_is. rewrite H3, E. eexists. split; [reflexivity|exact E].
  - destruct V as [H1 H2]. unfold get_init. rewrite H1. destruct (lookup n (name_index Sh)) as [c|] eqn:L; [|reflexivity]. fold const_is. rewrite (H2 c eq_refl). reflexivity.
Qed.
Lemma ev_value Sh s vs e : valued Sh s vs -> forall s1, d_state s1 = d_state s ->
  match run (value_of vs) e with
  | Some v => exists s2, ev (get_init Sh) e s1 = ROk v s2 /\ d_state s2 = d_state s
  | None => exists x s2, ev (get_init Sh) e s1 = RThrow x s2 /\ d_state s2 = d_state s
  end.
Proof.
  intros V. induction e as [v | | n k IH]; intros s1 E; cbn [run ev]; [eauto|eauto|].
  pose proof (get_init_value Sh s vs n s1 V E) as G. destruct (value_of vs n) as [v|].
  - destruct G as (s2 & -> & E2). apply IH. exact E2.
  - rewrite G. eauto.
Qed.
Lemma lookup_snoc n l m c : lookup n (l ++ [(m, c)]) = match lookup n l with Some d => Some d | None => if String.eqb m n then Some c else None end.
Proof. rewrite lookup_app. reflexivity. Qed.
Lemma wf_name_small Sh n c : wf Sh -> lookup n (name_index Sh) = Some c -> c < length (cells Sh).
Proof. intros W L. apply lookup_In in L. destruct (W_name Sh W n c L) as (k & H & _). apply nth_error_Some. congruence. Qed.
Lemma wf_input_small Sh n c : wf Sh -> lookup n (input_index Sh) = Some c -> c < length (cells Sh).
Proof. intros W L. apply lookup_In in L. destruct (W_input Sh W n c L) as (k & H & _). apply nth_error_Some. congruence. Qed.
Lemma eqb_dec m n : String.eqb m n = if string_dec m n then true else false.
Proof. destruct (string_dec m n) as [-> | D]; [apply String.eqb_refl|apply String.eqb_neq, D]. Qed.

Lemma valued_extend Sh s vs k isin isout inv ho s' : wf Sh -> valued Sh s vs -> lookup (c_name k) (name_index Sh) = None ->
  (forall c, c < length (cells Sh) -> d_state s' c = d_state s c) ->
  (c_spec k = SInput -> isin = true) -> (isin = true -> c_spec k = SInput) ->
  valued (extend k isin isout inv ho Sh) s' (if isin || const_is (c_spec k) then (c_name k, d_state s' (length (cells Sh))) :: vs else vs).
Proof.
  intros W V N D K1 K2 n. specialize (V n). pose proof (wf_fresh_input Sh _ W N) as Fi.
  assert (Old : forall c, c < length (cells Sh) -> spec_is (extend k isin isout inv ho Sh) const_is c = spec_is Sh const_is c).
  { intros c L. rewrite !spec_is_eq. cbn [extend cells]. rewrite nth_error_app1 by exact L. reflexivity. }
  assert (New : spec_is (extend k isin isout inv ho Sh) const_is (length (cells Sh)) = const_is (c_spec k)).
  { rewrite spec_is_eq. cbn [extend cells]. rewrite nth_snoc_new. reflexivity. }
  assert (In' : lookup n (input_index (extend k isin isout inv ho Sh)) = match lookup n (input_index Sh) with Some d => Some d | None => if isin then if string_dec (c_name k) n then Some (length (cells Sh)) else None else None end).
  { cbn [extend input_index]. destruct isin; [rewrite lookup_snoc, eqb_dec; destruct (lookup n (input_index Sh)), (string_dec (c_name k) n); reflexivity|destruct (lookup n (input_index Sh)); reflexivity]. }
  assert (Na' : lookup n (name_index (extend k isin isout inv ho Sh)) = match lookup n (name_index Sh) with Some d => Some d | None => if string_dec (c_name k) n then Some (length (cells Sh)) else None end).
  { cbn [extend name_index]. rewrite lookup_snoc, eqb_dec. destruct (lookup n (name_index Sh)), (string_dec (c_name k) n); reflexivity. }
  destruct (string_dec (c_name k) n) as [E | E].
  - subst n. rewrite Fi in In'. rewrite N in Na'. destruct isin.
    + cbn [orb value_of]. destruct (string_dec (c_name k) (c_name k)); [|contradiction]. exists (length (cells Sh)). split; [left; exact In'|reflexivity].
    + cbn [orb]. destruct (const_is (c_spec k)) eqn:C.
      * cbn [value_of]. destruct (string_dec (c_name k) (c_name k)); [|contradiction]. exists (length (cells Sh)). split; [right; auto|reflexivity].
      * destruct (value_of vs (c_name k)) as [v|].
        { exfalso. destruct V as (c & [H | (H & H' & _)] & _); congruence. }
        split; [exact In'|]. intros c H. rewrite Na' in H. injection H as <-. congruence.
  - assert (Va : value_of (if isin || const_is (c_spec k) then (c_name k, d_state s' (length (cells Sh))) :: vs else vs) n = value_of vs n).
    { destruct (isin || const_is (c_spec k)); [|reflexivity]. cbn [value_of]. destruct (string_dec (c_name k) n); [contradiction|reflexivity]. }
    rewrite Va. assert (In2 : lookup n (input_index (extend k isin isout inv ho Sh)) = lookup n (input_index Sh)) by (rewrite In'; destruct (lookup n (input_index Sh)); [reflexivity|now destruct isin]).
    assert (Na2 : lookup n (name_index (extend k isin isout inv ho Sh)) = lookup n (name_index Sh)) by (rewrite Na'; destruct (lookup n (name_index Sh)); reflexivity).
    rewrite In2, Na2. destruct (value_of vs n) as [v|].
    + destruct V as (c & [H | (H1 & H2 & H3)] & <-); exists c.
      * split; [now left|]. apply D. eapply wf_input_small; eauto.
      * pose proof (wf_name_small Sh n c W H2) as L. split; [right|now apply D]. split; [exact H1|]. split; [exact H2|]. now rewrite Old.
    + destruct V as [H1 H2]. split; [exact H1|]. intros c H. rewrite Old by (eapply wf_name_small; eauto). auto.
Qed.
Lemma valued_extend2 Sh s vs k k2 s' : wf Sh -> valued Sh s vs -> lookup (c_name k) (name_index Sh) = None -> c_spec k = SIfIn -> c_spec k2 = SIfOut ->
  (forall c, c < length (cells Sh) -> d_state s' c = d_state s c) ->
  valued (extend2 k k2 Sh) s' ((c_name k, d_state s' (length (cells Sh))) :: vs).
Proof.
  intros W V N S1 S2 D n. specialize (V n). pose proof (wf_fresh_input Sh _ W N) as Fi.
  assert (Old : forall c, c < length (cells Sh) -> spec_is (extend2 k k2 Sh) const_is c = spec_is Sh const_is c).
  { intros c L. rewrite !spec_is_eq. cbn [extend2 cells]. rewrite nth_error_app1 by (rewrite app_length; cbn; lia). rewrite nth_error_app1 by exact L. reflexivity. }
  assert (In' : lookup n (input_index (extend2 k k2 Sh)) = match lookup n (input_index Sh) with Some d => Some d | None => if string_dec (c_name k) n then Some (length (cells Sh)) else None end).
  { cbn [extend2 input_index]. rewrite lookup_snoc, eqb_dec. destruct (lookup n (input_index Sh)), (string_dec (c_name k) n); reflexivity. }
  assert (Na' : lookup n (name_index (extend2 k k2 Sh)) = match lookup n (name_index Sh) with Some d => Some d | None => if string_dec (c_name k) n then Some (Datatypes.S (length (cells Sh))) else None end).
  { cbn [extend2 name_index]. rewrite lookup_snoc, eqb_dec. destruct (lookup n (name_index Sh)), (string_dec (c_name k) n); reflexivity. }
  cbn [value_of]. destruct (string_dec (c_name k) n) as [E | E].
  - subst n. rewrite Fi in In'. exists (length (cells Sh)). split; [left; exact In'|reflexivity].
  - assert (In2 : lookup n (input_index (extend2 k k2 Sh)) = lookup n (input_index Sh)) by (rewrite In'; destruct (lookup n (input_index Sh)); reflexivity).
    assert (Na2 : lookup n (name_index (extend2 k k2 Sh)) = lookup n (name_index Sh)) by (rewrite Na'; destruct (lookup n (name_index Sh)); reflexivity).
    rewrite In2, Na2. destruct (value_of vs n) as [v|].
    + destruct V as (c & [H | (H1 & H2 & H3)] & <-); exists c.
      * split; [now left|]. apply D. eapply wf_input_small; eauto.
      * pose proof (wf_name_small Sh n c W H2) as L. split; [right|now apply D]. split; [exact H1|]. split; [exact H2|]. now rewrite Old.
    + destruct V as [H1 H2]. split; [exact H1|]. intros c H. rewrite Old by (eapply wf_name_small; eauto). auto.
Qed.
Lemma valued_half Sh s vs k s' : wf Sh -> valued Sh s vs -> lookup (c_name k) (name_index Sh) = None -> c_spec k = SIfIn ->
  (forall c, c < length (cells Sh) -> d_state s' c = d_state s c) ->
  valued (ix_input (c_name k) (length (cells Sh)) (push_cell k Sh)) s' ((c_name k, d_state s' (length (cells Sh))) :: vs).
Proof.
  intros W V N S1 D n. specialize (V n). pose proof (wf_fresh_input Sh _ W N) as Fi. set (Sh' := ix_input _ _ _).
  assert (Old : forall c, c < length (cells Sh) -> spec_is Sh' const_is c = spec_is Sh const_is c).
  { intros c L. rewrite !spec_is_eq. cbn [Sh' ix_input push_cell cells]. rewrite nth_error_app1 by exact L. reflexivity. }
  assert (In' : lookup n (input_index Sh') = match lookup n (input_index Sh) with Some d => Some d | None => if string_dec (c_name k) n then Some (length (cells Sh)) else None end).
  { cbn [Sh' ix_input push_cell input_index]. rewrite iinsert_fresh by exact Fi. rewrite lookup_snoc, eqb_dec. destruct (lookup n (input_index Sh)), (string_dec (c_name k) n); reflexivity. }
  assert (Na' : lookup n (name_index Sh') = lookup n (name_index Sh)) by reflexivity.
  cbn [value_of]. destruct (string_dec (c_name k) n) as [E | E].
  - subst n. rewrite Fi in In'. exists (length (cells Sh)). split; [left; exact In'|reflexivity].
  - assert (In2 : lookup n (input_index Sh') = lookup n (input_index Sh)) by (rewrite In'; destruct (lookup n (input_index Sh)); reflexivity).
    rewrite In2, Na'. destruct (value_of vs n) as [v|].
    + destruct V as (c & [H | (H1 & H2 & H3)] & <-); exists c.
      * split; [now left|]. apply D. eapply wf_input_small; eauto.
      * pose proof (wf_name_small Sh n c W H2) as L. split; [right|now apply D]. split; [exact H1|]. split; [exact H2|]. now rewrite Old.
    + destruct V as [H1 H2]. split; [exact H1|]. intros c H. rewrite Old by (eapply wf_name_small; eauto). auto.
Qed.
Lemma find_edges_iff Sh ns : snd (find_edges Sh ns) = true <-> forall n, In n ns -> exists c i, lookup n (output_index Sh) = Some c /\ input_of Sh c = Some i.
Proof.
  induction ns as [|n ns IH]; cbn [find_edges]; [split; [intros _ n []|reflexivity]|]. split.
  - intros H m [<- | I0].
    + destruct (lookup n (output_index Sh)) as [c|]; [|discriminate]. destruct (input_of Sh c) as [i|] eqn:E; [|discriminate]. eauto.
    + destruct (lookup n (output_index Sh)) as [c|]; [|discriminate]. destruct (input_of Sh c) as [i|]; [|discriminate]. destruct (find_edges Sh ns) as [l ok]. cbn [snd] in *. apply IH; auto.
  - intros H. destruct (H n (or_introl eq_refl)) as (c & i & -> & ->). destruct (find_edges Sh ns) as [l ok]. cbn [snd] in *. apply IH. intros m I0. apply H. now right.
Qed.

Record agrees (Sh : sheet) (s : dyn) (sc : scope) : Prop := {
  A_wf : wf Sh;
  A_names : forall n, In n (sc_names sc) <-> lookup n (name_index Sh) <> None;
  A_interfaces : forall n, In n (sc_interfaces sc) <-> exists c i, lookup n (output_index Sh) = Some c /\ input_of Sh c = Some i;
  A_values : valued Sh s (sc_values sc);
  A_cells : sc_cells sc = length (cells Sh) }.
Lemma agrees_empty s : agrees empty_sheet s nothing.
Proof.
  constructor; [exact wf_empty|..]; cbn [nothing sc_names sc_interfaces sc_values sc_cells empty_sheet cells length].
  - intros n. split; [intros []|intros H; destruct (H eq_refl)].
  - intros n. split; [intros []|intros (c & i & H & _); discriminate H].
  - intros n. cbn [value_of]. split; [reflexivity|]. intros c H. discriminate H.
  - reflexivity.
Qed.
Lemma input_of_extend Sh k isin isout inv ho c : c_in k = None -> input_of (extend k isin isout inv ho Sh) c = input_of Sh c.
Proof.
  intros H. unfold input_of, cell_at. cbn [extend cells]. destruct (Nat.lt_ge_cases c (length (cells Sh))) as [L | L].
  - rewrite nth_error_app1 by exact L. reflexivity.
  - rewrite nth_error_app2 by exact L. assert (E : nth_error (cells Sh) c = None) by now apply nth_error_None. rewrite E. destruct (c - length (cells Sh)) as [|d]; cbn; [now rewrite H|destruct d; reflexivity].
Qed.
(** one more cell *)
Lemma agrees_extend Sh s sc k isin isout inv ho s' : agrees Sh s sc -> lookup (c_name k) (name_index Sh) = None -> c_in k = None -> wf (extend k isin isout inv ho Sh) ->
  (forall c, c < length (cells Sh) -> d_state s' c = d_state s c) ->
  (c_spec k = SInput -> isin = true) -> (isin = true -> c_spec k = SInput) ->
  agrees (extend k isin isout inv ho Sh) s' (Scope (c_name k :: sc_names sc) (sc_interfaces sc) (if isin || const_is (c_spec k) then (c_name k, d_state s' (length (cells Sh))) :: sc_values sc else sc_values sc) (sc_cells sc + 1)).
Proof.
  intros [W An Ai Av Ac] N Ki W' D K1 K2. constructor; cbn [sc_names sc_interfaces sc_values sc_cells]; [exact W'|..].
  - intros n. cbn [extend name_index In]. rewrite lookup_snoc, eqb_dec, An. destruct (lookup n (name_index Sh)) as [d|]; [split; [discriminate|right; discriminate]|].
    destruct (string_dec (c_name k) n) as [-> | E]; [split; [discriminate|now left]|]. split; [intros [? | H]; [contradiction|exact H]|intros H; now right].
  - intros n. rewrite Ai. split.
    + intros (c & i & H & H'). exists c, i. rewrite input_of_extend by exact Ki. split; [|exact H']. cbn [extend output_index]. destruct isout; [rewrite lookup_snoc, H; reflexivity|exact H].
    + intros (c & i & H & H'). rewrite input_of_extend in H' by exact Ki. exists c, i. split; [|exact H']. cbn [extend output_index] in H. destruct isout; [|exact H]. rewrite lookup_snoc in H. destruct (lookup n (output_index Sh)); [exact H|]. exfalso.
      destruct (String.eqb (c_name k) n); [|discriminate]. injection H as <-. unfold input_of, cell_at in H'. assert (E : nth_error (cells Sh) (length (cells Sh)) = None) by now apply nth_error_None. rewrite E in H'. discriminate.
  - apply (valued_extend Sh s); auto.
  - cbn [extend cells]. rewrite app_length, Ac. reflexivity.
Qed.
Lemma agrees_extend2 Sh s sc k k2 s' : agrees Sh s sc -> lookup (c_name k) (name_index Sh) = None -> c_spec k = SIfIn -> c_spec k2 = SIfOut -> c_in k2 = Some (length (cells Sh)) -> wf (extend2 k k2 Sh) ->
  (forall c, c < length (cells Sh) -> d_state s' c = d_state s c) ->
  agrees (extend2 k k2 Sh) s' (Scope (c_name k :: sc_names sc) (c_name k :: sc_interfaces sc) ((c_name k, d_state s' (length (cells Sh))) :: sc_values sc) (sc_cells sc + 2)).
Proof.
  intros [W An Ai Av Ac] N S1 S2 Ki W' D. constructor; cbn [sc_names sc_interfaces sc_values sc_cells]; [exact W'|..].
  - intros n. cbn [extend2 name_index In]. rewrite lookup_snoc, eqb_dec, An. destruct (lookup n (name_index Sh)) as [d|]; [split; [discriminate|right; discriminate]|].
    destruct (string_dec (c_name k) n) as [-> | E]; [split; [discriminate|now left]|]. split; [intros [? | H]; [contradiction|exact H]|intros H; now right].
  - assert (Old : forall c, c < length (cells Sh) -> input_of (extend2 k k2 Sh) c = input_of Sh c).
    { intros c L. unfold input_of, cell_at. cbn [extend2 cells]. rewrite nth_error_app1 by (rewrite app_length; cbn; lia). rewrite nth_error_app1 by exact L. reflexivity. }
    assert (New : input_of (extend2 k k2 Sh) (Datatypes.S (length (cells Sh))) = Some (length (cells Sh))).
    { unfold input_of, cell_at. cbn [extend2 cells]. replace (Datatypes.S (length (cells Sh))) with (length (cells Sh ++ [k])) by (rewrite app_length; cbn; lia). rewrite nth_snoc_new. exact Ki. }
    assert (Small : forall n c, lookup n (output_index Sh) = Some c -> c < length (cells Sh)).
    { intros n c L. apply lookup_In in L. destruct (W_output Sh W n c L) as (_ & k' & H & _). apply nth_error_Some. congruence. }
    pose proof (wf_fresh_output Sh _ W N) as Fo.
    intros n. cbn [In extend2 output_index]. rewrite Ai. split.
    + intros [<- | (c & i & H & H')]; [exists (Datatypes.S (length (cells Sh))), (length (cells Sh))|exists c, i].
      * rewrite lookup_snoc, Fo, String.eqb_refl. auto.
      * rewrite lookup_snoc, H. split; [reflexivity|]. rewrite Old by (eapply Small; eauto). exact H'.
    + intros (c & i & H & H'). rewrite lookup_snoc in H. destruct (lookup n (output_index Sh)) as [d|] eqn:L.
      * injection H as ->. right. exists c, i. split; [reflexivity|]. rewrite Old in H' by (eapply Small; eauto). exact H'.
      * rewrite eqb_dec in H. destruct (string_dec (c_name k) n) as [-> | E]; [now left|discriminate].
  - apply (valued_extend2 Sh s); auto.
  - cbn [extend2 cells]. rewrite !app_length, Ac. cbn. lia.
Qed.

(** *** one call *)
Definition same_below (m : nat) (s s' : dyn) : Prop := forall c, c < m -> d_state s' c = d_state s c.
Definition started_value (vs : list (name * value)) (init : option expr) (v : value) : Prop :=
  match init with Some e => run (value_of vs) e = Some v | None => v = VEmpty end.
Lemma starts_optional meaning vs code v : starts meaning vs code v <-> started_value vs (optional meaning code) v.
Proof.
  unfold starts, computes, started_value, optional. destruct code as [|x code]; split.
  - intros [[_ H] | [H _]]; [exact H|contradiction].
  - intros ->. left. auto.
  - intros [[H _] | [_ H]]; [discriminate|exact H].
  - intros H. right. split; [discriminate|exact H].
Qed.
Lemma fresh_state c v r s c' : d_state (fresh_cell c v r s) c' = if c' =? c then v else d_state s c'.
Proof. unfold fresh_cell. cbn [d_state w_state w_prio w_resolved w_evaluated w_count w_contrib w_init w_inv w_term]. apply fset_eq. Qed.
Lemma fresh_below c v r s s0 : d_state s = d_state s0 -> same_below c s0 (fresh_cell c v r s).
Proof. intros E c' L. rewrite fresh_state. destruct (Nat.eqb_spec c' c); [lia|]. now rewrite E. Qed.
Lemma fresh_at c v r s : d_state (fresh_cell c v r s) c = v.
Proof. rewrite fresh_state, Nat.eqb_refl. reflexivity. Qed.

Lemma step_input Sh s vs n init : wf Sh -> valued Sh s vs ->
  match add_input n init Sh s with
  | BOk Sh' s' => lookup n (name_index Sh) = None /\ length (cells Sh) < 1024 /\ started_value vs init (d_state s' (length (cells Sh))) /\
      Sh' = extend (mk_cell SInput n CNone false None) true false [] (has_output Sh) Sh /\ same_below (length (cells Sh)) s s'
  | BThrow _ _ _ => lookup n (name_index Sh) = None -> length (cells Sh) < 1024 -> forall v, ~ started_value vs init v
  | BUB => False
  end.
Proof.
  intros W V. unfold add_input.
  assert (Hv : match match init with Some e => ev (get_init Sh) e s | None => ROk VEmpty s end with
    ROk v s1 => started_value vs init v /\ d_state s1 = d_state s | RThrow _ _ => forall v, ~ started_value vs init v | RUB => False end).
  { destruct init as [e|]; cbn [started_value]; [|auto]. pose proof (ev_value Sh s vs e V s eq_refl) as G. destruct (run (value_of vs) e) as [v|].
    - destruct G as (s2 & -> & E). auto.
    - destruct G as (x & s2 & -> & E). discriminate. }
  destruct (match init with Some e => ev (get_init Sh) e s | None => ROk VEmpty s end) as [v s1|x s1|]; [|auto|exact Hv].
  destruct Hv as [Hv E1]. destruct (1024 <=? length (cells Sh)) eqn:L; [apply Nat.leb_le in L; intros _ L'; lia|]. apply Nat.leb_gt in L.
  unfold finish_name. cbn [name_index ix_input push_cell]. destruct (lookup n (name_index Sh)) eqn:E; [intros H; discriminate|].
  split; [reflexivity|]. split; [exact L|]. split; [|split].
  - cbn [d_state w_init]. rewrite fresh_at. exact Hv.
  - unfold ix_name, ix_input, push_cell, extend. cbn [c_name name_index input_index output_index cells rels invariant_index has_output]. rewrite !iinsert_fresh by (auto using wf_fresh_input). rewrite app_nil_r. reflexivity.
  - intros c' L'. cbn [d_state w_init]. apply (fresh_below _ _ _ s1 s E1). exact L'.
Qed.
Lemma step_constant Sh s vs n e : wf Sh -> valued Sh s vs ->
  match add_constant n e Sh s with
  | BOk Sh' s' => lookup n (name_index Sh) = None /\ run (value_of vs) e = Some (d_state s' (length (cells Sh))) /\
      Sh' = extend (mk_cell SConst n CNone false None) false false [] (has_output Sh) Sh /\ same_below (length (cells Sh)) s s'
  | BThrow _ _ _ => lookup n (name_index Sh) = None -> forall v, run (value_of vs) e <> Some v
  | BUB => False
  end.
Proof.
  intros W V. unfold add_constant. pose proof (ev_value Sh s vs e V s eq_refl) as G. destruct (run (value_of vs) e) as [v|].
  2:{ destruct G as (x & s2 & -> & E). intros _ v. discriminate. }
  destruct G as (s1 & -> & E1). unfold add_constant_value, finish_name. cbn [name_index push_cell].
  destruct (lookup n (name_index Sh)) eqn:E; [intros H; discriminate|].
  split; [reflexivity|]. split; [now rewrite fresh_at|]. split; [|now apply fresh_below].
  unfold ix_name, push_cell, extend. cbn [c_name name_index input_index output_index cells rels invariant_index has_output]. rewrite !iinsert_fresh by auto. rewrite app_nil_r. reflexivity.
Qed.
(** outputs, logic cells and invariants *)
Definition plain (Sh : sheet) (s : dyn) (n : name) (k : cell) (isout : bool) (inv : list nat) (ho : bool) (r : bres) : Prop :=
  match r with
  | BOk Sh' s' => lookup n (name_index Sh) = None /\ Sh' = extend k false isout inv ho Sh /\ same_below (length (cells Sh)) s s'
  | BThrow _ _ _ => lookup n (name_index Sh) <> None
  | BUB => False
  end.
Lemma step_output Sh s n e : wf Sh -> plain Sh s n (mk_cell SOutput n (CExpr e) false None) true [] true (add_output n e Sh s).
Proof.
  intros W. unfold plain, add_output, finish_name. cbn [name_index ix_output push_cell]. destruct (lookup n (name_index Sh)) eqn:E; [discriminate|].
  split; [reflexivity|]. split; [|now apply fresh_below].
  unfold with_output, ix_name, ix_output, push_cell, extend. cbn [c_name name_index input_index output_index cells rels invariant_index has_output]. rewrite !iinsert_fresh by (auto using wf_fresh_output). rewrite app_nil_r. reflexivity.
Qed.
Lemma step_logic Sh s n e : wf Sh -> plain Sh s n (mk_cell SLogic n (CExpr e) false None) false [] (has_output Sh) (add_logic n e Sh s).
Proof.
  intros W. unfold plain, add_logic, finish_name. cbn [name_index push_cell]. destruct (lookup n (name_index Sh)) eqn:E; [discriminate|].
  split; [reflexivity|]. split; [|now apply fresh_below].
  unfold ix_name, push_cell, extend. cbn [c_name name_index input_index output_index cells rels invariant_index has_output]. rewrite !iinsert_fresh by auto. rewrite app_nil_r. reflexivity.
Qed.
Lemma step_invariant Sh s n e : wf Sh -> plain Sh s n (mk_cell SInvariant n (CExpr e) false None) true [length (cells Sh)] (has_output Sh) (add_invariant n e Sh s).
Proof.
  intros W. unfold plain, add_invariant, finish_name. cbn [name_index ix_output push_cell]. destruct (lookup n (name_index Sh)) eqn:E; [discriminate|].
  split; [reflexivity|]. split; [|now apply fresh_below].
  unfold with_invariant, ix_name, ix_output, push_cell, extend. cbn [c_name name_index input_index output_index cells rels invariant_index has_output]. rewrite !iinsert_fresh by (auto using wf_fresh_output). reflexivity.
Qed.
Lemma cell_at_half Sh n k : cell_at (ix_input n (length (cells Sh)) (push_cell k Sh)) (length (cells Sh)) = Some k.
Proof. unfold cell_at, ix_input, push_cell. cbn [cells]. apply nth_snoc_new. Qed.
Lemma step_interface Sh s vs n l init e : wf Sh -> valued Sh s vs ->
  match add_interface n l init e Sh s with
  | BOk Sh' s' => lookup n (name_index Sh) = None /\ length (cells Sh) < 1024 /\ started_value ((n, VEmpty) :: vs) init (d_state s' (length (cells Sh))) /\
      Sh' = extend2 (mk_cell SIfIn n (match init with Some i => CExpr i | None => CNone end) l None)
                    (mk_cell SIfOut n (match e with Some x => CExpr x | None => CGet n end) false (Some (length (cells Sh)))) Sh /\ same_below (length (cells Sh)) s s'
  | BThrow _ _ _ => lookup n (name_index Sh) = None -> length (cells Sh) < 1024 -> forall v, ~ started_value ((n, VEmpty) :: vs) init v
  | BUB => lookup n (name_index Sh) <> None
  end.
Proof.
  intros W V. unfold add_interface. destruct (1024 <=? length (cells Sh)) eqn:L; [apply Nat.leb_le in L; intros _ L'; lia|]. apply Nat.leb_gt in L. cbv zeta.
  set (k := mk_cell SIfIn n _ l None). set (c := length (cells Sh)). set (S1 := ix_input n c (push_cell k Sh)).
  set (s2 := w_contrib _ _).
  assert (E2 : forall c', d_state s2 c' = if c' =? c then VEmpty else d_state s c') by (intros c'; unfold s2; cbn [d_state w_contrib]; apply fresh_state).
  destruct (lookup n (name_index Sh)) eqn:E.
  { destruct (match init with Some _ => initialize_one S1 c s2 | None => ROk tt s2 end); [|discriminate|discriminate].
    unfold finish_name. unfold S1. cbn [name_index ix_output ix_input push_cell]. rewrite E. discriminate. }
  assert (V2 : valued S1 s2 ((n, VEmpty) :: vs)).
  { pose proof (valued_half Sh s vs k s2 W V E eq_refl) as H. cbn [k c_name] in H. fold c in H. rewrite E2, Nat.eqb_refl in H. apply H.
    intros c' L'. rewrite E2. destruct (Nat.eqb_spec c' c); [lia|reflexivity]. }
  assert (Hv : match match init with Some _ => initialize_one S1 c s2 | None => ROk tt s2 end with
    ROk _ s3 => started_value ((n, VEmpty) :: vs) init (d_state s3 c) /\ (forall c', c' <> c -> d_state s3 c' = d_state s2 c') | RThrow _ _ => forall v, ~ started_value ((n, VEmpty) :: vs) init v | RUB => False end).
  { destruct init as [i|]; cbn [started_value].
    2:{ split; [rewrite E2, Nat.eqb_refl; reflexivity|reflexivity]. }
    pose proof (cell_at_half Sh n k) as Hc. fold c in Hc. fold S1 in Hc. unfold initialize_one. rewrite Hc. cbn [k c_calc run_calc].
    pose proof (ev_value S1 s2 _ i V2 (w_acc 0%N s2) eq_refl) as G. destruct (run (value_of ((n, VEmpty) :: vs)) i) as [v|].
    - destruct G as (s3 & -> & E3). cbn [d_state w_init w_prio w_high w_state]. split; [now rewrite fset_same|]. intros c' D. rewrite fset_other by exact D. now rewrite E3.
    - destruct G as (x & s3 & -> & E3). discriminate. }
  destruct (match init with Some _ => initialize_one S1 c s2 | None => ROk tt s2 end) as [u s3|x s3|]; [|auto|destruct Hv].
  destruct Hv as [Hv Eo]. unfold finish_name. unfold S1. cbn [name_index ix_output ix_input push_cell]. rewrite E.
  split; [reflexivity|]. split; [exact L|]. split; [|split].
  - rewrite fresh_state. destruct (Nat.eqb_spec c (Datatypes.S c)); [lia|]. exact Hv.
  - unfold ix_name, ix_output, ix_input, push_cell, extend2. cbn [k c_name name_index input_index output_index cells rels invariant_index has_output]. rewrite !iinsert_fresh by (auto using wf_fresh_output, wf_fresh_input). reflexivity.
  - intros c' L'. rewrite fresh_state. destruct (Nat.eqb_spec c' (Datatypes.S c)); [lia|]. rewrite Eo by lia. rewrite E2. destruct (Nat.eqb_spec c' c); [lia|reflexivity].
Qed.
Lemma step_relation Sh s sc cond terms : agrees Sh s sc ->
  match add_relation cond terms Sh s with
  | BOk Sh' s' => (forall n, In n (flat_map fst terms) -> In n (sc_interfaces sc)) /\ s' = s /\ agrees Sh' s sc /\ cells Sh' = cells Sh /\
      exists edges, rels Sh' = rels Sh ++ [mk_rel cond terms edges]
  | BThrow _ _ _ => ~ (forall n, In n (flat_map fst terms) -> In n (sc_interfaces sc))
  | BUB => False
  end.
Proof.
  intros A. pose proof (build_wf (ORelation cond terms) Sh s) as B. cbn [build] in B. unfold add_relation in *.
  pose proof (find_edges_iff Sh (nodup string_dec (flat_map fst terms))) as F. destruct (find_edges Sh (nodup string_dec (flat_map fst terms))) as [edges ok]. cbn [snd] in F.
  assert (F' : ok = true <-> forall n, In n (flat_map fst terms) -> In n (sc_interfaces sc)).
  { rewrite F. split; intros H n Hn.
    - apply (A_interfaces Sh s sc A). apply H. now apply nodup_In.
    - apply (A_interfaces Sh s sc A). apply H. eapply nodup_In; eauto. }
  destruct ok; [|intros H; apply F' in H; discriminate].
  split; [now apply F'|]. split; [reflexivity|]. split; [|split; [reflexivity|exists edges; reflexivity]].
  specialize (B _ _ (A_wf _ _ _ A) eq_refl). destruct A as [W An Ai Av Ac]. constructor; auto.
Qed.

Definition rel_parts (r : Adam_Model.relation) := (r_cond r, r_terms r).
Section Handling.
Variable meaning : list value -> expr.
Variable bound : bool.
Definition sheet_event (e : event) : Prop := match e with AddView _ _ _ _ _ _ | FinalizeSheet => False | _ => True end.
Definition built (Sh : sheet) (s : dyn) (Sh' : sheet) (s' : dyn) : Prop := (Sh' = Sh /\ s' = s) \/ exists o, build o Sh s = BOk Sh' s'.
Lemma handled e Sh s sc xs : agrees Sh s sc -> sheet_event e ->
  match handle meaning bound e Sh s xs with
  | Loaded Sh' s' xs' => built Sh s Sh' s' /\ exists sc', reads meaning bound sc e sc' /\ agrees Sh' s' sc' /\
      map parts (cells Sh') = map parts (cells Sh) ++ declared meaning e /\ map rel_parts (rels Sh') = map rel_parts (rels Sh) ++ related meaning e /\ xs' = xs ++ external e
  | _ => forall sc', ~ reads meaning bound sc e sc'
  end.
Proof.
  intros A SE. pose proof (A_wf _ _ _ A) as W. pose proof (A_values _ _ _ A) as V.
  assert (Fresh : forall n, lookup n (name_index Sh) = None <-> ~ In n (sc_names sc)).
  { intros n. pose proof (A_names _ _ _ A n) as H. destruct (lookup n (name_index Sh)) as [c|]; split.
    - discriminate.
    - intros H'. destruct H'. apply H. discriminate.
    - intros _ H'. apply H in H'. destruct (H' eq_refl).
    - reflexivity. }
  assert (Plain : forall t n p code b d k isout inv ho r, t = output_c \/ t = logic_c \/ t = invariant_c -> c_name k = n -> c_in k = None -> c_spec k <> SInput -> const_is (c_spec k) = false ->
    plain Sh s n k isout inv ho r -> (forall Sh' s', r = BOk Sh' s' -> exists o, build o Sh s = BOk Sh' s') -> declared meaning (AddCell t n p code b d) = [parts k] ->
    match on_sheet xs r with
    | Loaded Sh' s' xs' => built Sh s Sh' s' /\ exists sc', reads meaning bound sc (AddCell t n p code b d) sc' /\ agrees Sh' s' sc' /\
        map parts (cells Sh') = map parts (cells Sh) ++ declared meaning (AddCell t n p code b d) /\ map rel_parts (rels Sh') = map rel_parts (rels Sh) ++ [] /\ xs' = xs ++ []
    | _ => forall sc', ~ reads meaning bound sc (AddCell t n p code b d) sc'
    end).
  { intros t n p code b d k isout inv ho r Ht Kn Ki Ks Kc Hp Hb Hd. destruct r as [Sh' s'|x Sh' s'|]; cbn [on_sheet plain] in *; [|intros sc' R|destruct Hp].
    2:{ apply Hp. apply Fresh. inversion R; subst; try assumption; exfalso; destruct Ht as [H | [H | H]]; discriminate. }
    destruct Hp as (N & -> & Bel). destruct (Hb _ _ eq_refl) as (o & Ho). split; [right; eauto|].
    exists (Scope (n :: sc_names sc) (sc_interfaces sc) (sc_values sc) (sc_cells sc + 1)). split; [apply reads_other; [exact Ht|now apply Fresh]|]. split; [|split; [|split]].
    - pose proof (agrees_extend Sh s sc k false isout inv ho s' A) as G. rewrite Kn in G. specialize (G N Ki (build_wf o _ _ _ _ W Ho) Bel). rewrite Kc in G. cbn [orb] in G. apply G; [intros; contradiction|discriminate].
    - cbn [extend cells]. rewrite map_app, Hd. reflexivity.
    - cbn [extend rels]. now rewrite app_nil_r.
    - now rewrite app_nil_r. }
  destruct e as [t n p code b d|n p b d|n l ip init ep e b d|p cond rs b d|pa p cl ar b d|]; cbn [sheet_event] in SE; try (destruct SE; fail).
  - cbn [handle related external]. destruct t; cbn [on_sheet].
    + (* input *)
      pose proof (step_input Sh s _ n (optional meaning code) W V) as H. pose proof (build_wf (OInput n (optional meaning code)) Sh s) as B. cbn [build] in B.
      destruct (add_input n (optional meaning code) Sh s) as [Sh' s'|x Sh' s'|] eqn:Ea; cbn [on_sheet]; [|intros sc' R|destruct H].
      * destruct H as (N & L & Hv & -> & Bel). specialize (B _ _ W eq_refl). split; [right; exists (OInput n (optional meaning code)); exact Ea|].
        exists (Scope (n :: sc_names sc) (sc_interfaces sc) ((n, d_state s' (length (cells Sh))) :: sc_values sc) (sc_cells sc + 1)). split; [|split; [|split; [|split]]].
        -- apply reads_input; [now apply starts_optional|rewrite (A_cells _ _ _ A); exact L|now apply Fresh].
        -- pose proof (agrees_extend Sh s sc (mk_cell SInput n CNone false None) _ _ _ _ s' A N eq_refl B Bel) as G. cbn [c_spec c_name const_is orb] in G. apply G; auto.
        -- cbn [extend cells]. rewrite map_app. reflexivity.
        -- cbn [extend rels]. now rewrite app_nil_r.
        -- now rewrite app_nil_r.
      * inversion R as [? ? ? ? ? ? v Hv L F| | ? ? ? ? ? ? ? Ht F | | |]; subst; [|destruct Ht as [Ht | [Ht | Ht]]; discriminate].
        apply Fresh in F. rewrite (A_cells _ _ _ A) in L. apply starts_optional in Hv. exact (H F L v Hv).
    + (* output *)
      apply (Plain output_c n p code b d (mk_cell SOutput n (CExpr (meaning code)) false None) true [] true); auto; [discriminate|apply step_output; exact W|intros Sh' s' E; exists (OOutput n (meaning code)); exact E].
    + (* constant *)
      pose proof (step_constant Sh s _ n (meaning code) W V) as H. pose proof (build_wf (OConstant n (meaning code)) Sh s) as B. cbn [build] in B.
      destruct (add_constant n (meaning code) Sh s) as [Sh' s'|x Sh' s'|] eqn:Ea; cbn [on_sheet]; [|intros sc' R|destruct H].
      * destruct H as (N & Hv & -> & Bel). specialize (B _ _ W eq_refl). split; [right; exists (OConstant n (meaning code)); exact Ea|].
        exists (Scope (n :: sc_names sc) (sc_interfaces sc) ((n, d_state s' (length (cells Sh))) :: sc_values sc) (sc_cells sc + 1)). split; [|split; [|split; [|split]]].
        -- apply reads_constant; [exact Hv|now apply Fresh].
        -- pose proof (agrees_extend Sh s sc (mk_cell SConst n CNone false None) _ _ _ _ s' A N eq_refl B Bel) as G. cbn [c_spec c_name const_is orb] in G. apply G; discriminate.
        -- cbn [extend cells]. rewrite map_app. reflexivity.
        -- cbn [extend rels]. now rewrite app_nil_r.
        -- now rewrite app_nil_r.
      * inversion R as [ | ? ? ? ? ? ? v Hv F | ? ? ? ? ? ? ? Ht F | | |]; subst; [|destruct Ht as [Ht | [Ht | Ht]]; discriminate].
        apply Fresh in F. exact (H F v Hv).
    + apply (Plain logic_c n p code b d (mk_cell SLogic n (CExpr (meaning code)) false None) false [] (has_output Sh)); auto; [discriminate|apply step_logic; exact W|intros Sh' s' E; exists (OLogic n (meaning code)); exact E].
    + apply (Plain invariant_c n p code b d (mk_cell SInvariant n (CExpr (meaning code)) false None) true [length (cells Sh)] (has_output Sh)); auto; [discriminate|apply step_invariant; exact W|intros Sh' s' E; exists (OInvariant n (meaning code)); exact E].
  - cbn [handle declared related external]. destruct bound eqn:Eb; [|intros sc' R; inversion R; congruence]. split; [left; auto|]. exists sc. split; [now apply reads_external|]. rewrite !app_nil_r. auto.
  - cbn [handle declared related external].
    pose proof (step_interface Sh s _ n l (optional meaning init) (optional meaning e) W V) as H. pose proof (build_wf (OInterface n l (optional meaning init) (optional meaning e)) Sh s) as B. cbn [build] in B.
    destruct (add_interface n l (optional meaning init) (optional meaning e) Sh s) as [Sh' s'|x Sh' s'|] eqn:Ea; cbn [on_sheet]; [|intros sc' R|intros sc' R].
    + destruct H as (N & L & Hv & -> & Bel). specialize (B _ _ W eq_refl). split; [right; exists (OInterface n l (optional meaning init) (optional meaning e)); exact Ea|].
      exists (Scope (n :: sc_names sc) (n :: sc_interfaces sc) ((n, d_state s' (length (cells Sh))) :: sc_values sc) (sc_cells sc + 2)). split; [|split; [|split; [|split]]].
      * apply reads_interface; [now apply starts_optional|rewrite (A_cells _ _ _ A); exact L|now apply Fresh].
      * exact (agrees_extend2 Sh s sc (mk_cell SIfIn n (match optional meaning init with Some i => CExpr i | None => CNone end) l None)
          (mk_cell SIfOut n (match optional meaning e with Some x => CExpr x | None => CGet n end) false (Some (length (cells Sh)))) s' A N eq_refl eq_refl eq_refl B Bel).
      * cbn [extend2 cells]. rewrite !map_app, <- app_assoc. cbn [map app parts c_spec c_name c_calc c_linked]. unfold optional, started, computed. destruct init, e; reflexivity.
      * cbn [extend2 rels]. now rewrite app_nil_r.
      * now rewrite app_nil_r.
    + inversion R as [ | | ? ? ? ? ? ? ? Ht F | ? ? ? ? ? ? ? ? ? v Hv L F | |]; subst. apply Fresh in F. rewrite (A_cells _ _ _ A) in L. apply starts_optional in Hv. exact (H F L v Hv).
    + inversion R as [ | | ? ? ? ? ? ? ? Ht F | ? ? ? ? ? ? ? ? ? v Hv L F | |]; subst. apply Fresh in F. contradiction.
  - cbn [handle declared related external]. destruct rs as [|r0 rs]; [intros sc' R; inversion R; congruence|]. set (terms := map (fun r => (r_names r, meaning (r_code r))) (r0 :: rs)).
    assert (Hn : forall n, In n (flat_map fst terms) <-> exists r, In r (r0 :: rs) /\ In n (r_names r)).
    { intros n. rewrite in_flat_map. unfold terms. split.
      - intros (t & Ht & Hi). apply in_map_iff in Ht as (r & <- & Hr). eauto.
      - intros (r & Hr & Hi). exists (r_names r, meaning (r_code r)). split; [apply in_map_iff; eauto|exact Hi]. }
    pose proof (step_relation Sh s sc (optional meaning cond) terms A) as H.
    destruct (add_relation (optional meaning cond) terms Sh s) as [Sh' s'|x Sh' s'|] eqn:Ea; cbn [on_sheet]; [|intros sc' R|destruct H].
    + destruct H as (Hi & -> & A' & Ec & edges & Er). split; [right; exists (ORelation (optional meaning cond) terms); exact Ea|].
      exists sc. split; [apply reads_relation; [discriminate|intros r n Hr Hm; apply Hi, Hn; eauto]|]. split; [exact A'|]. rewrite Ec, Er, !app_nil_r. split; [reflexivity|]. split; [|reflexivity].
      rewrite map_app. cbn [map rel_parts r_cond r_terms]. unfold optional. destruct cond; reflexivity.
    + inversion R as [ | | ? ? ? ? ? ? ? Ht F | | ? ? ? ? ? ? Hne Hi |]; subst. apply H. intros n Hm. apply Hn in Hm as (r & Hr & Hm). exact (Hi r n Hr Hm).
Qed.

Lemma starts_det vs code v v' : starts meaning vs code v -> starts meaning vs code v' -> v = v'.
Proof. rewrite !starts_optional. unfold started_value. destruct (optional meaning code); congruence. Qed.
Lemma reads_det sc e sc1 sc2 : reads meaning bound sc e sc1 -> reads meaning bound sc e sc2 -> sc1 = sc2.
Proof.
  intros R1 R2. destruct R1; inversion R2; subst; auto; try (repeat match goal with H : _ \/ _ |- _ => destruct H end; discriminate).
  - f_equal. f_equal. f_equal. eapply starts_det; eauto.
  - unfold computes in *. congruence.
  - f_equal. f_equal. f_equal. eapply starts_det; eauto.
Qed.
Lemma reading_det sc evs sc1 sc2 : reading meaning bound sc evs sc1 -> reading meaning bound sc evs sc2 -> sc1 = sc2.
Proof.
  intros R. revert sc2. induction R as [sc|sc e sc1 evs sc2 R1 Rs IH]; intros sc' R'; inversion R' as [|? ? sc3 ? ? R3 Rs3]; subst; [reflexivity|].
  apply IH. rewrite (reads_det sc e sc1 sc3 R1 R3). exact Rs3.
Qed.
(** *** the whole text *)
Lemma loads : forall evs Sh s sc xs, agrees Sh s sc -> Forall sheet_event evs ->
  match load meaning bound evs Sh s xs with
  | Loaded Sh' s' xs' => exists sc', reading meaning bound sc evs sc' /\ agrees Sh' s' sc' /\
      map parts (cells Sh') = map parts (cells Sh) ++ flat_map (declared meaning) evs /\
      map rel_parts (rels Sh') = map rel_parts (rels Sh) ++ flat_map (related meaning) evs /\ xs' = xs ++ flat_map external evs /\
      (reachable true Sh s -> reachable true Sh' s')
  | _ => forall sc', ~ reading meaning bound sc evs sc'
  end.
Proof.
  induction evs as [|e evs IH]; intros Sh s sc xs A F; cbn [load flat_map].
  - exists sc. rewrite !app_nil_r. split; [constructor|]. split; [exact A|]. auto.
  - apply Forall_cons_iff in F as [Fe F]. pose proof (handled e Sh s sc xs A Fe) as H.
    destruct (handle meaning bound e Sh s xs) as [Sh' s' xs'|x Sh' s' xs'|].
    + destruct H as (Bu & sc1 & R1 & A1 & C1 & L1 & X1). specialize (IH Sh' s' sc1 xs' A1 F).
      destruct (load meaning bound evs Sh' s' xs') as [Sh2 s2 xs2|x Sh2 s2 xs2|].
      * destruct IH as (sc2 & R2 & A2 & C2 & L2 & X2 & P2). exists sc2. split; [econstructor; eauto|]. split; [exact A2|]. rewrite C2, C1, L2, L1, X2, X1, <- !app_assoc. split; [reflexivity|]. split; [reflexivity|]. split; [reflexivity|].
        intros P. apply P2. destruct Bu as [[-> ->] | (o & Bo)]; [exact P|exact (R_build _ _ _ _ _ _ P Bo)].
      * intros sc' R. inversion R as [|? ? sc1' ? ? R1' R2']; subst. rewrite (reads_det _ _ _ _ R1' R1) in R2'. exact (IH sc' R2').
      * intros sc' R. inversion R as [|? ? sc1' ? ? R1' R2']; subst. rewrite (reads_det _ _ _ _ R1' R1) in R2'. exact (IH sc' R2').
    + intros sc' R. inversion R as [|? ? sc1' ? ? R1' R2']; subst. exact (H _ R1').
    + intros sc' R. inversion R as [|? ? sc1' ? ? R1' R2']; subst. exact (H _ R1').
Qed.
End Handling.
(** *** the scope *)
Definition scoped (sc : scope) : Prop := NoDup (sc_names sc) /\ NoDup (map fst (sc_values sc)) /\ incl (map fst (sc_values sc)) (sc_names sc).
Lemma reads_scoped meaning bound sc e sc' : scoped sc -> reads meaning bound sc e sc' -> scoped sc'.
Proof.
  intros (A & B & D) R. assert (G : forall n, ~ In n (sc_names sc) -> ~ In n (map fst (sc_values sc))) by (intros n H H'; apply H, D, H').
  destruct R; unfold scoped; cbn [sc_names sc_values map fst]; auto.
  - split; [constructor; auto|]. split; [constructor; auto|]. intros x [<- | H']; [now left|right; now apply D].
  - split; [constructor; auto|]. split; [constructor; auto|]. intros x [<- | H']; [now left|right; now apply D].
  - split; [constructor; auto|]. split; [exact B|]. intros x H'. right. now apply D.
  - split; [constructor; auto|]. split; [constructor; auto|]. intros x [<- | H']; [now left|right; now apply D].
Qed.
Lemma reading_scoped meaning bound sc evs sc' : reading meaning bound sc evs sc' -> scoped sc -> scoped sc'.
Proof. induction 1; auto. intros H'. apply IHreading. eapply reads_scoped; eauto. Qed.
Lemma value_of_In vs n v : NoDup (map fst vs) -> In (n, v) vs -> value_of vs n = Some v.
Proof.
  induction vs as [|[m w] vs IH]; cbn [map fst value_of]; intros N H; [destruct H|]. inversion N as [|? ? Nm N']; subst. destruct H as [H | H].
  - injection H as -> ->. destruct (string_dec n n); [reflexivity|contradiction].
  - destruct (string_dec m n) as [E | _]; [|auto]. exfalso. apply Nm. rewrite E. apply in_map_iff. exists (n, v). auto.
Qed.
Lemma agrees_holds Sh s sc n v : agrees Sh s sc -> scoped sc -> In (n, v) (sc_values sc) -> holds Sh s n v.
Proof.
  intros A (_ & N & _) H. apply value_of_In in H; [|exact N]. pose proof (A_values _ _ _ A n) as V. rewrite H in V. pose proof (A_wf _ _ _ A) as W.
  destruct V as (c & [L | (_ & L & Sp)] & <-); apply lookup_In in L.
  - destruct (W_input Sh W n c L) as (k & K & E & D). exists c, k. tauto.
  - destruct (W_name Sh W n c L) as (k & K & E & D). exists c, k. rewrite spec_is_eq, K in Sp. destruct (c_spec k) eqn:Ek; try discriminate. auto 7.
Qed.

(** *** the parser's calls *)
Section Calls.
Variable strict : bool.
Variable denotes : list written -> list Decl_Model.relation -> Prop.
Lemma declaration_call n d s u ev : declaration strict denotes n d s u ev -> sheet_event ev.
Proof. destruct 1; exact Logic.I. Qed.
Lemma declarations_calls n s u evs : declarations strict denotes n s u evs -> Forall sheet_event evs.
Proof. induction 1; constructor; auto. eapply declaration_call; eauto. Qed.
Lemma set_decls_calls ss n u evs : set_decls strict denotes ss n u evs -> Forall sheet_event evs.
Proof. induction 1 as [|n u evs us evss H]; [constructor|]. apply Forall_app. split; [|assumption]. destruct H. eapply declarations_calls; eauto. Qed.
Lemma specifiers_calls n u evs : sheet_specifiers strict denotes n u evs -> Forall sheet_event evs.
Proof. induction 1 as [|n u evs us evss H]; [constructor|]. apply Forall_app. split; [|assumption]. destruct H. eapply set_decls_calls; eauto. Qed.
Lemma unit_calls ts evs : translation_unit strict denotes ts evs -> Forall sheet_event evs.
Proof. destruct 1. eapply specifiers_calls; eauto. Qed.
End Calls.

(** *** nothing undefined happens *)
Lemma ev_defined Sh e : forall s, ev (get_init Sh) e s <> RUB.
Proof.
  induction e as [v| |n k IH]; intros s; cbn [ev]; try discriminate. unfold get_init at 1.
  destruct (lookup n (input_index Sh)); [apply IH|]. destruct (lookup n (name_index Sh)); [|discriminate]. destruct (spec_is Sh _ n0); [apply IH|discriminate].
Qed.
Definition no_relations_call (e : event) : Prop := match e with AddRelation _ _ rs _ _ => rs <> [] | _ => True end.
Lemma handle_defined meaning bound e Sh s xs : no_relations_call e -> handle meaning bound e Sh s xs <> Crash.
Proof.
  assert (O : forall r, r <> BUB -> on_sheet xs r <> Crash) by (intros [] H; cbn [on_sheet]; congruence).
  assert (F : forall n c Sh s k, finish_name n c Sh s k <> BUB) by (intros; unfold finish_name; destruct (lookup _ _); discriminate).
  destruct e as [t n p code b d|n p b d|n l ip init ep e b d|p cond rs b d|pa p cl ar b d|]; cbn [handle no_relations_call]; intros H; try discriminate.
  - destruct t; apply O.
    + unfold add_input. destruct (match optional meaning code with Some e => ev (get_init Sh) e s | None => ROk VEmpty s end) eqn:E; [destruct (1024 <=? _); [discriminate|apply F]|discriminate|].
      exfalso. destruct (optional meaning code); [exact (ev_defined _ _ _ E)|discriminate].
    + apply F.
    + unfold add_constant. destruct (ev (get_init Sh) (meaning code) s) eqn:E; [apply F|discriminate|exfalso; exact (ev_defined _ _ _ E)].
    + apply F.
    + apply F.
  - destruct bound; discriminate.
  - apply O. unfold add_interface. destruct (1024 <=? _); [discriminate|]. cbv zeta.
    destruct (match optional meaning init with Some _ => _ | None => _ end) eqn:E; [apply F|discriminate|]. exfalso.
    destruct (optional meaning init) as [i|]; [|discriminate]. unfold initialize_one in E. rewrite (cell_at_half Sh n) in E. cbn [c_calc run_calc] in E.
    match type of E with context [ev ?g i ?s0] => destruct (ev g i s0) eqn:E'; [discriminate|discriminate|exact (ev_defined _ _ _ E')] end.
  - destruct rs as [|r rs]; [contradiction|]. apply O. unfold add_relation. destruct (find_edges _ _) as [es []]; discriminate.
Qed.
Lemma load_defined meaning bound : forall evs Sh s xs, Forall no_relations_call evs -> load meaning bound evs Sh s xs <> Crash.
Proof.
  induction evs as [|e evs IH]; intros Sh s xs F; cbn [load]; [discriminate|]. apply Forall_cons_iff in F as [Fe F].
  pose proof (handle_defined meaning bound e Sh s xs Fe) as H. destruct (handle meaning bound e Sh s xs); [apply IH; exact F|discriminate|contradiction].
Qed.
Section Nonempty.
Variable strict : bool.
Lemma relate_nonempty n u p c rs b : relate_decl strict faithful n u p c rs b -> rs <> [].
Proof.
  unfold faithful. destruct 1 as [o us ws rs ul c0 ut b E R L D | op ux e cp o us ws rs ul c0 ut b E1 G E2 E3 R L D]; subst rs; destruct ws; cbn in *; try discriminate; lia.
Qed.
Lemma declaration_nonempty n d s u ev : declaration strict faithful n d s u ev -> no_relations_call ev.
Proof. destruct 1; try exact Logic.I. cbn [no_relations_call]. eapply relate_nonempty; eauto. Qed.
Lemma declarations_nonempty n s u evs : declarations strict faithful n s u evs -> Forall no_relations_call evs.
Proof. induction 1; constructor; auto. eapply declaration_nonempty; eauto. Qed.
Lemma set_decls_nonempty ss n u evs : set_decls strict faithful ss n u evs -> Forall no_relations_call evs.
Proof. induction 1 as [|n u evs us evss H]; [constructor|]. apply Forall_app. split; [|assumption]. destruct H. eapply declarations_nonempty; eauto. Qed.
Lemma specifiers_nonempty n u evs : sheet_specifiers strict faithful n u evs -> Forall no_relations_call evs.
Proof. induction 1 as [|n u evs us evss H]; [constructor|]. apply Forall_app. split; [|assumption]. destruct H. eapply set_decls_nonempty; eauto. Qed.
Lemma unit_nonempty ts evs : translation_unit strict faithful ts evs -> Forall no_relations_call evs.
Proof. destruct 1. eapply specifiers_nonempty; eauto. Qed.
End Nonempty.
(** the names *)
Lemma reads_names meaning bound sc e sc' : reads meaning bound sc e sc' -> sc_names sc' = rev (names_declared e) ++ sc_names sc.
Proof. destruct 1; reflexivity. Qed.
Lemma reading_names meaning bound sc evs sc' : reading meaning bound sc evs sc' -> sc_names sc' = rev (flat_map names_declared evs) ++ sc_names sc.
Proof.
  induction 1 as [sc|sc e sc1 evs sc2 R Rs IH]; cbn [flat_map]; [reflexivity|]. rewrite IH, (reads_names _ _ _ _ _ R), rev_app_distr, app_assoc. reflexivity.
Qed.
