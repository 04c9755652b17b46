(** C68: what update() computes. *)
From Coq Require Import String Permutation Sorted.
From Verif Require Import Prelude Vm_Value Adam_Model Adam_Spec Adam_Flow Adam_Build Adam_Frame Adam_Eval Adam_Quiet Adam_Update Adam_Calm Adam_Solve Adam_Example AdamFlow_Props.
From Coq Require Import List.
Import ListNotations.
Local Open Scope nat_scope.
Ltac Zify.zify_post_hook ::= idtac.

(** relation [r] is in force: exactly one of its terms is used *)
Definition in_force (Sh : sheet) (s : dyn) (r : nat) : Prop :=
  exists j, enforced_by Sh s r j /\ forall j', enforced_by Sh s r j' -> j' = j.
(** relation [r] derives nothing *)
Definition not_used (s : dyn) (r : nat) : Prop := forall c j i, d_term s c <> Some (r, j, i).

Section Facts.
Variable Sh : sheet.
Hypothesis W : wf Sh.
Lemma enforced_term s t r j : d_term s = d_term t -> enforced_by Sh s r j <-> enforced_by Sh t r j.
Proof using. intros E. unfold enforced_by. now rewrite E. Qed.
Lemma leaf_not_input c : is_leaf Sh c = true -> not_input Sh c.
Proof using W.
  intros H e He. destruct (input_of_spec Sh W e c He) as (_ & k & _ & _ & _ & _ & A & B & _). unfold is_leaf, spec_is, cell_at in H.
  rewrite A, B in H. discriminate.
Qed.
Lemma named_not_input n c : lookup n (name_index Sh) = Some c -> not_input Sh c.
Proof using W. intros H e He. exact (lk_not_input Sh W n c e c H He eq_refl). Qed.
Lemma output_named n c : In (n, c) (output_index Sh) -> lookup n (name_index Sh) = Some c.
Proof using W. intros H. apply In_lookup; [apply W|]. exact (proj1 (W_output Sh W n c H)). Qed.
End Facts.

Section Done.
Variables (Sh : sheet) (rank : name -> nat) (D : sched) (s s1 s2 s3 s' : dyn).
Hypothesis W : wf Sh.
Hypothesis O : done Sh rank D s s1 s2 s3 s'.
Lemma done_value_mono n v : value_of Sh s1 n = Some v -> value_of Sh s' n = Some v.
Proof using W O.
  destruct O as [C G De Bl Un Of Ev Vo Ap Et Es Ee Ec Ed En Ek]. unfold value_of. destruct (lookup n (name_index Sh)) as [c|] eqn:L; auto.
  destruct (d_evaluated s1 c) eqn:E; [|discriminate]. destruct Of as (o1 & o2 & _). cbn [d_state d_evaluated w_cond] in o1, o2.
  rewrite Ee, Es. rewrite (V_eval _ _ _ Vo c) by now rewrite o2.
  destruct (V_state _ _ _ Vo c (named_not_input Sh W n c L)) as [->|[H _]]; [now rewrite o1|]. congruence.
Qed.
Lemma done_cons : consistent Sh (d_term s') (d_state s) any s'.
Proof using O.
  destruct O as [C G De Bl Un Of Ev Vo Ap Et Es Ee Ec Ed En Ek].
  apply (cons_fields Sh (d_term s') (d_state s) any any s3 s'); auto; intros; exact Logic.I.
Qed.
Lemma done_solves : solves Sh (d_term s') (d_state s) (value_of Sh s').
Proof using O.
  intros n v H. unfold value_of in H. destruct (lookup n (name_index Sh)) as [c|] eqn:L; [|discriminate].
  destruct (d_evaluated s' c) eqn:E; [|discriminate]. injection H as <-. exists c. split; [reflexivity|].
  exact (C_def _ _ _ _ _ done_cons n c L E).
Qed.
Lemma done_unevaluated c : d_evaluated (clear Sh s) c = is_leaf Sh c. Proof using. reflexivity. Qed.
Lemma done_keeps_leaf c : is_leaf Sh c = true -> d_state s' c = d_state s c.
Proof using W O.
  intros H. destruct O as [C G De Bl Un Of Ev Vo Ap Et Es Ee Ec Ed En Ek]. rewrite Es.
  destruct G as (g1 & g2 & _). destruct Of as (o1 & o2 & _). cbn [d_state d_evaluated w_cond] in o1, o2.
  assert (E1 : d_evaluated s1 c = true) by (apply g1; exact H).
  destruct (V_state _ _ _ Vo c (leaf_not_input Sh W c H)) as [->|[E _]]; [|congruence]. rewrite o1.
  destruct (g2 c) as [E|[E _]]; [exact E|]. rewrite done_unevaluated in E. congruence.
Qed.
Lemma done_input c i : input_of Sh c = Some i -> d_state s' i = if linked Sh i then d_state s' c else d_state s i.
Proof using W O.
  intros Hi. destruct O as [C G De Bl Un Of Ev Vo Ap Et Es Ee Ec Ed En Ek]. rewrite Es.
  destruct (input_of_spec Sh W c i Hi) as (k & k' & K1 & K2 & K3 & K4 & K5 & K6 & K7 & K8 & K9).
  pose proof (W_cell Sh W c k K1) as Q. rewrite K2 in Q. destruct (linked Sh i) eqn:L.
  - destruct (Ap _ c Q) as [_ A]. exact (A i Hi L).
  - rewrite (V_unlinked _ _ _ Vo c i Hi L). destruct Of as (o1 & _). cbn [d_state w_cond] in o1. rewrite o1.
    destruct G as (_ & g2 & _). destruct (g2 i) as [E|[_ E]]; [exact E|].
    destruct (Bl _ (conditions_top Sh rank) i E) as [E'|(m & Hm & _)].
    + rewrite done_unevaluated in E'. exfalso. exact (leaf_not_input Sh W i E' c Hi).
    + exfalso. exact (named_not_input Sh W m i Hm c Hi).
Qed.
Lemma done_dirty n c : In (n, c) (output_index Sh) -> d_dirty s' c = negb (veqb (d_state s' c) (d_state s c)).
Proof using W O.
  intros Hc. destruct O as [C G De Bl Un Of Ev Vo Ap Et Es Ee Ec Ed En Ek]. rewrite Ed, Es.
  destruct (W_output Sh W n c Hc) as (Hn & k & Hk & _ & Ho). pose proof (output_named Sh W n c Hc) as L.
  assert (Nl : is_leaf Sh c = false).
  { unfold is_leaf, spec_is, cell_at. rewrite Hk. unfold out_kind in Ho. destruct (c_spec k); auto; destruct Ho. }
  destruct G as (g1 & g2 & g3 & _). destruct Of as (o1 & o2 & o3 & _). cbn [d_state d_evaluated d_dirty w_cond] in o1, o2, o3.
  destruct (V_dirty _ _ _ Vo c (named_not_input Sh W n c L)) as [[E1 E2]|(E1 & E2 & E3)].
  - rewrite E1, o3. destruct (g3 c) as [[F1 F2]|(F1 & F2 & F3)].
    + rewrite done_unevaluated, Nl in F2. destruct (Ap n c Hc) as [A _]. congruence.
    + rewrite F3. destruct (V_state _ _ _ Vo c (named_not_input Sh W n c L)) as [->|[X _]]; [now rewrite o1|congruence].
  - rewrite E3, o1. destruct (g2 c) as [->|[_ F]]; [reflexivity|congruence].
Qed.
Lemma done_evaluated n c : In (n, c) (output_index Sh) -> d_evaluated s' c = true.
Proof using O. destruct O as [C G De Bl Un Of Ev Vo Ap Et Es Ee Ec Ed En Ek]. intros H. rewrite Ee. exact (proj1 (Ap n c H)). Qed.
End Done.

(** C68: a successful update computes a solution: every interface, output and invariant cell has a
    value; every cell that has a value has the value its definition gives it; the relations in force
    are those whose condition holds for the values computed, each through exactly one of its terms;
    linked interface cells take over the result, and nothing else the client set is changed. *)
Theorem C68_update_solves_the_sheet_partial Sh D l s ns s' rank : reachable true Sh s -> rel_terms_ok Sh -> sched_ok D ->
  update Sh D l s = Some (ROk ns s') -> acyclic_by Sh (d_term s') rank -> self_once Sh (d_term s') ->
  (forall n c, In (n, c) (output_index Sh) -> exists v, value_of Sh s' n = Some v /\ at_name Sh n s' = Some v) /\
  solves Sh (d_term s') (d_state s) (value_of Sh s') /\
  (forall r x, nth_error (rels Sh) r = Some x ->
     match r_cond x with
     | None => in_force Sh s' r
     | Some e => (run (value_of Sh s') e = Some (VBool true) /\ in_force Sh s' r) \/
                 (run (value_of Sh s') e = Some (VBool false) /\ not_used s' r)
     end) /\
  (forall c i, input_of Sh c = Some i -> d_state s' i = if linked Sh i then d_state s' c else d_state s i) /\
  (forall c, is_leaf Sh c = true -> d_state s' c = d_state s c).
Proof.
  intros R RT HD E AC ONCE. pose proof (reachable_wf _ _ _ R) as W. destruct (update_ran Sh D l s ns s' E) as (s1 & s2 & s3 & pa & p & Rn).
  pose proof (update_done Sh D l s ns s1 s2 s3 s' pa p rank R RT HD Rn AC ONCE) as O.
  split; [|split; [|split; [|split]]].
  - intros n c Hc. exists (d_state s' c). unfold value_of, at_name. rewrite (output_named Sh W n c Hc).
    now rewrite (done_evaluated Sh rank D s s1 s2 s3 s' O n c Hc).
  - exact (done_solves Sh rank D s s1 s2 s3 s' O).
  - intros r x Hx. pose proof (O_decided _ _ _ _ _ _ _ _ O r x Hx) as De. cbn [Nat.add] in De.
    pose proof (wf_relations Sh W RT) as OK. pose proof (U_flow _ _ _ _ _ _ _ _ _ _ _ Rn) as Fl.
    destruct (C65_every_relation_is_decided Sh D _ OK HD (O_undecided _ _ _ _ _ _ _ _ O)) as [(x' & F)|(pa' & s2' & F & F1 & F2 & _)]; rewrite Fl in F; [discriminate|].
    injection F as <- <-. assert (Hr : r < length (rels Sh)) by (apply nth_error_Some; congruence).
    assert (Yes : d_rres s1 r = false -> in_force Sh s' r).
    { intros H. destruct (F1 r (conj Hr H)) as (j & J1 & J2). exists j. split; [exact (proj2 (enforced_term Sh s' s2 r j (O_term _ _ _ _ _ _ _ _ O)) J1)|].
      intros j' H'. apply J2. exact (proj1 (enforced_term Sh s' s2 r j' (O_term _ _ _ _ _ _ _ _ O)) H'). }
    destruct (r_cond x) as [e|]; [|exact (Yes De)]. destruct De as (b & B1 & B2 & _).
    assert (Rb : run (value_of Sh s') e = Some (VBool b)).
    { revert B1. apply run_mono. intros m w. exact (done_value_mono Sh rank D s s1 s2 s3 s' W O m w). }
    destruct b; cbn [negb] in B2; [left|right]; (split; [exact Rb|]); [exact (Yes B2)|].
    intros c j i Hc. rewrite (O_term _ _ _ _ _ _ _ _ O) in Hc. destruct (F2 c r j i Hc) as ([_ A] & _). cbn [d_rres w_cond] in A. congruence.
  - intros c i Hi. exact (done_input Sh rank D s s1 s2 s3 s' W O c i Hi).
  - intros c Hc. exact (done_keeps_leaf Sh rank D s s1 s2 s3 s' W O c Hc).
Qed.

Lemma run_same L L' e : (forall m, may_look e m -> L m = L' m) -> run L e = run L' e.
Proof.
  induction e as [w| |n k IH]; intros H; cbn [run]; auto. rewrite (H n (ML_here n k)). destruct (L' n) as [w|]; auto.
  apply IH. intros m Hm. apply H. now apply ML_there with w.
Qed.
(** so the relations of plain interface cells hold: the cell of the term in use has the value of the
    term's expression *)
Theorem C68_the_relation_holds_partial Sh D l s ns s' rank r j x n e c k : reachable true Sh s -> rel_terms_ok Sh -> sched_ok D ->
  update Sh D l s = Some (ROk ns s') -> acyclic_by Sh (d_term s') rank -> self_once Sh (d_term s') ->
  nth_error (rels Sh) r = Some x -> enforced_by Sh s' r j -> nth_error (r_terms x) j = Some ([n], e) -> ~ may_look e n ->
  lookup n (output_index Sh) = Some c -> nth_error (cells Sh) c = Some k -> c_calc k = CGet n ->
  exists v, value_of Sh s' n = Some v /\ run (value_of Sh s') e = Some v.
Proof.
  intros R RT HD E AC ONCE Hx (x' & ms & e' & Hx' & Hj' & Hen) Hj Hm Hc Hk Hp.
  destruct (C68_update_solves_the_sheet_partial Sh D l s ns s' rank R RT HD E AC ONCE) as (P1 & P2 & _).
  pose proof (reachable_wf _ _ _ R) as W. apply lookup_In in Hc. destruct (P1 n c Hc) as (v & Hv & _). exists v. split; [exact Hv|].
  rewrite Hx in Hx'. injection Hx' as <-. rewrite Hj in Hj'. injection Hj' as <- <-.
  assert (Tc : d_term s' c = Some (r, j, 0)).
  { apply (Hen 0 n c eq_refl). apply In_lookup; [apply W|exact Hc]. }
  destruct (P2 n v Hv) as (c' & L' & Dv). rewrite (output_named Sh W n c Hc) in L'. injection L' as <-.
  destruct (W_output Sh W n c Hc) as (_ & k' & Hk' & Hn & Ho). assert (k' = k) by congruence. subst k'.
  unfold def_value in Dv. rewrite Hk, Hp, Hn in Dv.
  assert (Dv' : exists i, own_value Sh (d_term s') (d_state s) (value_of Sh s') n c i = Some v).
  { unfold out_kind in Ho. destruct (c_spec k); try destruct Ho as (_ & ? & Ho); try congruence; try contradiction.
    destruct (c_in k) as [i|]; [exists i; exact Dv|discriminate]. }
  destruct Dv' as (i & Dv'). unfold own_value in Dv'. rewrite Tc in Dv'. unfold term_value in Dv'. rewrite Hx, Hj in Dv'.
  rewrite <- Dv'. apply run_same. intros m Hlm. destruct (String.eqb_spec m n) as [->|]; [contradiction|reflexivity].
Qed.

(** the box, with a condition and an expression: every hypothesis is met *)
Definition flag : expr := Look "on"%string (fun v => Ret (match v with VSize z => VBool (1 <=? z)%N | _ => VBool false end)).
Definition off_flag : expr := Look "on"%string (fun v => Ret (match v with VSize z => VBool (z <? 1)%N | _ => VBool false end)).
Definition cbox : list build_op :=
  [ OInput "on"%string (Some (Ret (num 1)));
    OInterface "left"%string true (Some (Ret (num 10))) None; OInterface "right"%string true (Some (Ret (num 30))) (Some (two plus "right" "on")%string);
    OInterface "width"%string true (Some (Ret (num 5))) None;
    ORelation (Some flag) [ (["left"], two minus "right" "width"); (["right"], two plus "left" "width"); (["width"], two minus "right" "left") ]%string;
    ORelation (Some off_flag) [ (["left"], var "right"); (["right"], var "left") ]%string;
    OOutput "result"%string (two plus "left" "width")%string ].
Definition cbox_end : dyn := after (update (sheet_of cbox) D0 nolisten (start_of cbox)).
Definition cbox_rank (n : name) : nat :=
  if String.eqb n "result" then 3 else if String.eqb n "left" then 2 else if String.eqb n "right" then 1 else 0.
Lemma cbox_T c : d_term cbox_end c = if c =? 2 then Some (0, 0, 0) else None.
Proof. vm_compute. do 3 (destruct c as [|c]; [reflexivity|]). reflexivity. Qed.
Lemma cbox_cells : cells (sheet_of cbox) =
  [ mk_cell SInput "on" CNone false None; mk_cell SIfIn "left" (CExpr (Ret (num 10))) true None; mk_cell SIfOut "left" (CGet "left") false (Some 1);
    mk_cell SIfIn "right" (CExpr (Ret (num 30))) true None; mk_cell SIfOut "right" (CExpr (two plus "right" "on")) false (Some 3);
    mk_cell SIfIn "width" (CExpr (Ret (num 5))) true None; mk_cell SIfOut "width" (CGet "width") false (Some 5);
    mk_cell SOutput "result" (CExpr (two plus "left" "width")) false None ]%string.
Proof. reflexivity. Qed.
Lemma cbox_names : name_index (sheet_of cbox) = [ ("on", 0); ("left", 2); ("right", 4); ("width", 6); ("result", 7) ]%string.
Proof. reflexivity. Qed.
Lemma cbox_rels : rels (sheet_of cbox) =
  [ mk_rel (Some flag) [ (["left"], two minus "right" "width"); (["right"], two plus "left" "width"); (["width"], two minus "right" "left") ]%string [2; 4; 6];
    mk_rel (Some off_flag) [ (["left"], var "right"); (["right"], var "left") ]%string [2; 4] ].
Proof. reflexivity. Qed.

Lemma cbox_terms : rel_terms_ok (sheet_of cbox).
Proof.
  intros x. rewrite cbox_rels. intros [<-|[<-|[]]]; cbn [r_terms]; (split; [cbn; lia|]).
  - split; [intros t [<-|[<-|[<-|[]]]]; discriminate|]. cbn; repeat (constructor; [cbn; intuition discriminate|]); constructor.
  - split; [intros t [<-|[<-|[]]]; discriminate|]. cbn; repeat (constructor; [cbn; intuition discriminate|]); constructor.
Qed.
Lemma look_two f n m x : may_look (two f n m) x -> x = n \/ x = m.
Proof.
  intros H. inversion H as [? ? E1 E2|? ? ? ? H' E1 E2]; subst; auto. inversion H' as [? ? E1 E2|? ? ? ? H'' E1 E2]; subst; auto. inversion H''.
Qed.
Lemma look_var n x : may_look (var n) x -> x = n.
Proof. intros H. inversion H as [? ? E1 E2|? ? ? ? H' E1 E2]; subst; auto. inversion H'. Qed.
Lemma cbox_acyclic : acyclic_by (sheet_of cbox) (d_term cbox_end) cbox_rank.
Proof.
  intros n c m L H. apply lookup_In in L. rewrite cbox_names in L.
  destruct H as [(k & e & Hk & Hc & Hl)|(r & j & i & x & ms & e & Ht & Hx & Hj & Hl)].
  - rewrite cbox_cells in Hk.
    destruct L as [L|[L|[L|[L|[L|[]]]]]]; injection L as <- <-; cbn [nth_error] in Hk; injection Hk as <-; cbn [c_calc] in Hc; try discriminate; injection Hc as <-.
    + destruct (look_two _ _ _ _ Hl) as [-> | ->]; [left; split; reflexivity|right; cbn; lia].
    + destruct (look_two _ _ _ _ Hl) as [-> | ->]; right; cbn; lia.
  - rewrite cbox_T in Ht. destruct (Nat.eqb_spec c 2) as [->|]; [|discriminate]. injection Ht as <- <- <-.
    rewrite cbox_rels in Hx. cbn [nth_error] in Hx. injection Hx as <-. cbn [r_terms nth_error] in Hj. injection Hj as <- <-.
    destruct L as [L|[L|[L|[L|[L|[]]]]]]; try discriminate. injection L as <-.
    destruct (look_two _ _ _ _ Hl) as [-> | ->]; right; cbn; lia.
Qed.
Lemma cbox_once : self_once (sheet_of cbox) (d_term cbox_end).
Proof.
  intros c k e Hk Hc HT. rewrite cbox_T in HT. destruct (Nat.eqb_spec c 2) as [->|]; [|congruence]. rewrite cbox_cells in Hk.
  cbn [nth_error] in Hk. injection Hk as <-. discriminate.
Qed.
Example cbox_ok : reachable true (sheet_of cbox) (start_of cbox) /\ rel_terms_ok (sheet_of cbox) /\ sched_ok D0 /\
  acyclic_by (sheet_of cbox) (d_term cbox_end) cbox_rank /\ self_once (sheet_of cbox) (d_term cbox_end) /\
  (match update (sheet_of cbox) D0 nolisten (start_of cbox) with
   | Some (ROk _ s') => map (fun n => value_of (sheet_of cbox) s' n) ["left"; "right"; "width"; "result"]%string = [Some (num 26); Some (num 31); Some (num 5); Some (num 31)]
   | _ => False end).
Proof.
  split; [apply built_reachable|]. split; [exact cbox_terms|]. split; [apply D0_ok|]. split; [exact cbox_acyclic|]. split; [exact cbox_once|].
  vm_compute. reflexivity.
Qed.

(** *** without the hypotheses *)
(** A cycle through a logic cell is not reported: what is computed depends on the order in which a
    hash index is iterated. *)
Definition twist : list build_op :=
  [ OInterface "x" true (Some (Ret (num 1))) (Some (Look "l" (fun v => Ret (plus v (num 1))))); OLogic "l" (two plus "x" "x"); OOutput "o" (var "l") ]%string.
Theorem C68_cycle_refuted : exists Sh s D D' ns ns' s1 s2,
  reachable true Sh s /\ rels Sh = [] /\ sched_ok D /\ sched_ok D' /\
  update Sh D nolisten s = Some (ROk ns s1) /\ update Sh D' nolisten s = Some (ROk ns' s2) /\
  value_of Sh s1 "o"%string = Some (num 2) /\ value_of Sh s2 "o"%string = Some (num 6) /\
  (forall rank, ~ acyclic_by Sh (d_term s1) rank).
Proof.
  exists (sheet_of twist), (start_of twist), D0, D1.
  exists (match update (sheet_of twist) D0 nolisten (start_of twist) with Some (ROk ns _) => ns | _ => [] end).
  exists (match update (sheet_of twist) D1 nolisten (start_of twist) with Some (ROk ns _) => ns | _ => [] end).
  exists (after (update (sheet_of twist) D0 nolisten (start_of twist))), (after (update (sheet_of twist) D1 nolisten (start_of twist))).
  split; [apply built_reachable|]. split; [reflexivity|]. split; [apply D0_ok|]. split; [apply D1_ok|].
  split; [vm_compute; reflexivity|]. split; [vm_compute; reflexivity|]. split; [vm_compute; reflexivity|]. split; [vm_compute; reflexivity|].
  intros rank AC. assert (En : name_index (sheet_of twist) = [("x", 1); ("l", 2); ("o", 3)]%string) by reflexivity.
  assert (Lx : lookup "x"%string (name_index (sheet_of twist)) = Some 1) by (rewrite En; reflexivity).
  assert (Ll : lookup "l"%string (name_index (sheet_of twist)) = Some 2) by (rewrite En; reflexivity).
  assert (Ec : cells (sheet_of twist) = [ mk_cell SIfIn "x" (CExpr (Ret (num 1))) true None;
     mk_cell SIfOut "x" (CExpr (Look "l" (fun v => Ret (plus v (num 1))))) false (Some 0); mk_cell SLogic "l" (CExpr (two plus "x" "x")) false None;
     mk_cell SOutput "o" (CExpr (var "l")) false None ]%string) by reflexivity.
  destruct (AC "x" 1 "l" Lx)%string as [[_ H]|H]; [|discriminate|].
  { left. eexists; eexists. rewrite Ec. cbn [nth_error]. split; [reflexivity|]. cbn [c_calc]. split; [reflexivity|]. constructor. }
  destruct (AC "l" 2 "x" Ll)%string as [[H' _]|H']; [| |lia].
  { left. eexists; eexists. rewrite Ec. cbn [nth_error]. split; [reflexivity|]. cbn [c_calc]. split; [reflexivity|]. constructor. }
  unfold is_ifout, spec_is, cell_at in H'. rewrite Ec in H'. discriminate.
Qed.
(** In the expression of a derived cell, only the first mention of the cell's own name means what the
    relation gives; the second means what the client set. *)
Definition twice : list build_op :=
  [ OInterface "a" false (Some (Ret (num 3))) (Some (two plus "a" "a")); OInterface "b" true (Some (Ret (num 5))) None;
    ORelation None [ (["a"], var "b"); (["b"], var "a") ] ]%string.
Theorem C68_own_name_twice_refuted : exists Sh s ns s',
  reachable true Sh s /\ rel_terms_ok Sh /\ update Sh D0 nolisten s = Some (ROk ns s') /\
  value_of Sh s' "b"%string = Some (num 5) /\ value_of Sh s' "a"%string = Some (num 8) /\
  ~ solves Sh (d_term s') (d_state s) (value_of Sh s').
Proof.
  exists (sheet_of twice), (start_of twice).
  exists (match update (sheet_of twice) D0 nolisten (start_of twice) with Some (ROk ns _) => ns | _ => [] end).
  exists (after (update (sheet_of twice) D0 nolisten (start_of twice))).
  split; [apply built_reachable|]. split.
  { assert (E : map r_terms (rels (sheet_of twice)) = [ [ (["a"], var "b"); (["b"], var "a") ] ]%string) by reflexivity.
    intros x Hx. apply (in_map r_terms) in Hx. rewrite E in Hx. destruct Hx as [<-|[]].
    split; [cbn; lia|]. split; [intros t [<-|[<-|[]]]; discriminate|]. cbn; repeat (constructor; [cbn; intuition discriminate|]); constructor. }
  split; [vm_compute; reflexivity|]. split; [vm_compute; reflexivity|].
  assert (Ha : value_of (sheet_of twice) (after (update (sheet_of twice) D0 nolisten (start_of twice))) "a"%string = Some (num 8)) by (vm_compute; reflexivity).
  split; [exact Ha|]. intros S. destruct (S "a"%string (num 8) Ha) as (c & L & Dv).
  assert (L' : lookup "a"%string (name_index (sheet_of twice)) = Some 1) by reflexivity. rewrite L' in L. injection L as <-.
  revert Dv. vm_compute. discriminate.
Qed.
(** After an update that has thrown, the next one can compute the wrong result. *)
Definition fragile : list build_op :=
  [ OInterface "a" false (Some (Ret (num 0))) (Some (Look "a" (fun v => match v with VSize 0 => Fail | _ => Ret (plus v (num 10)) end)));
    OOutput "o" (var "a") ]%string.
Theorem C68_after_a_throw_refuted : exists Sh s x s1 u s2 ns s3,
  reachable true Sh s /\ rels Sh = [] /\ update Sh D0 nolisten s = Some (RThrow x s1) /\
  set_cell Sh "a"%string (num 1) s1 = ROk u s2 /\ update Sh D0 nolisten s2 = Some (ROk ns s3) /\
  value_of Sh s3 "a"%string = Some (num 11) /\ value_of Sh s3 "o"%string = Some (num 1) /\
  (forall c k, nth_error (cells Sh) c = Some k -> c_name k = "o"%string -> c_calc k = CExpr (var "a"%string)).
Proof.
  exists (sheet_of fragile), (start_of fragile).
  exists (match update (sheet_of fragile) D0 nolisten (start_of fragile) with Some (RThrow x _) => x | _ => XCast end).
  exists (after (update (sheet_of fragile) D0 nolisten (start_of fragile))), tt.
  exists (after (Some (set_cell (sheet_of fragile) "a"%string (num 1) (after (update (sheet_of fragile) D0 nolisten (start_of fragile)))))).
  set (s2 := after (Some (set_cell _ _ _ _))).
  exists (match update (sheet_of fragile) D0 nolisten s2 with Some (ROk ns _) => ns | _ => [] end).
  exists (after (update (sheet_of fragile) D0 nolisten s2)).
  split; [apply built_reachable|]. split; [reflexivity|]. split; [vm_compute; reflexivity|]. split; [vm_compute; reflexivity|].
  split; [vm_compute; reflexivity|]. split; [vm_compute; reflexivity|]. split; [vm_compute; reflexivity|].
  assert (Ec : cells (sheet_of fragile) = [ mk_cell SIfIn "a" (CExpr (Ret (num 0))) false None;
     mk_cell SIfOut "a" (CExpr (Look "a" (fun v => match v with VSize 0 => Fail | _ => Ret (plus v (num 10)) end))) false (Some 0);
     mk_cell SOutput "o" (CExpr (var "a")) false None ]%string) by reflexivity.
  rewrite Ec. intros c k Hc Hn. destruct c as [|[|[|c]]]; cbn [nth_error] in Hc; try (injection Hc as <-; cbn [c_name] in Hn; discriminate || reflexivity).
  destruct c; discriminate.
Qed.
