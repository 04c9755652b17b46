(** C69: what the value of a cell depends on. *)
From Coq Require Import String Permutation Sorted.
From Verif Require Import Prelude Vm_Value Adam_Model Adam_Spec Adam_Flow Adam_Build Adam_Frame Adam_Eval Adam_Quiet Adam_Update Adam_Calm Adam_Solve Adam_Det Adam_Prio Adam_Example AdamFlow_Props AdamSolve_Props.
From Coq Require Import List.
Import ListNotations.
Local Open Scope nat_scope.
Ltac Zify.zify_post_hook ::= idtac.

Lemma same_inputs_sub Sh a b s t : sub a b -> same_inputs Sh b s t -> same_inputs Sh a s t.
Proof. intros H [A B]. split; auto. Qed.
(** both updates take the same decisions *)
Lemma same_decisions Sh D D' l l' s t ns ms s1 s2 s3 s' pa p t1 t2 t3 t' pb q rank :
  reachable true Sh s -> reachable true Sh t -> rel_terms_ok Sh -> sched_ok D -> sched_ok D' ->
  ran Sh D l s ns s1 s2 s3 s' pa p -> ran Sh D' l' t ms t1 t2 t3 t' pb q -> acyclic_by Sh (d_term s') rank ->
  same_order Sh s t -> same_inputs Sh (d_cond s') s t -> (forall c, d_term t' c = d_term s' c) /\ pa = pb.
Proof.
  intros R R' RT HD HD' U U' AC SO SI. pose proof (reachable_wf _ _ _ R) as W.
  destruct U as [Uc Uf Ue Up Un Us], U' as [Vc Vf Ve Vp Vn Vs].
  destruct (conditionals_undecided Sh s tt s1 W Uc) as [Us1 Fs]. destruct (conditionals_undecided Sh t tt t1 W Vc) as [Ut1 Ft].
  pose proof (evaluate_all_frame Sh (sd_iter D (map snd (output_index Sh))) s2) as Fe. rewrite Ue in Fe. cbn [keeps] in Fe.
  pose proof (evaluate_all_frame Sh (sd_iter D' (map snd (output_index Sh))) t2) as Ge. rewrite Ve in Ge. cbn [keeps] in Ge.
  pose proof (flow_off Sh D (w_cond (d_acc s1) s1)) as Of. rewrite Uf in Of. cbn [offs] in Of.
  assert (Ec : d_cond s' = d_acc s1).
  { rewrite Us. change (d_cond s3 = d_acc s1). destruct Fe as (_ & _ & _ & _ & _ & _ & _ & F & _). rewrite F.
    destruct Of as (_ & _ & _ & _ & _ & _ & _ & _ & _ & o & _). exact o. }
  rewrite Ec in SI.
  pose proof (same_conditions Sh rank s t s1 t1 W (reachable_calm Sh s R) (reachable_calm Sh t R') (acyclic_T0 Sh _ rank AC) Uc Vc SI) as Rr.
  assert (A : alike (w_cond (d_acc s1) s1) (w_cond (d_acc t1) t1)).
  { destruct Us1 as (u1 & u2 & _ & _), Ut1 as (v1 & v2 & _ & _). unfold alike. split; [intros c; now rewrite u1, v1|]. split; [|split].
    - intros c. rewrite u2, v2. do 2 f_equal. apply filter_ext. intros r. cbn [d_rres w_cond]. now rewrite Rr.
    - intros c. cbn [d_resolved w_cond]. destruct Fs as (_ & -> & _), Ft as (_ & -> & _). reflexivity.
    - exact Rr. }
  assert (SO' : same_order Sh (w_cond (d_acc s1) s1) (w_cond (d_acc t1) t1)).
  { intros c d i k Hc Hd Hcd.
    rewrite !(out_prio_eq Sh s (w_cond (d_acc s1) s1)) by (destruct Fs as (F & _); exact F).
    rewrite !(out_prio_eq Sh t (w_cond (d_acc t1) t1)) by (destruct Ft as (F & _); exact F). exact (SO c d i k Hc Hd Hcd). }
  destruct (flow_det Sh D D' _ _ pa s2 pb t2 HD HD' A SO' Uf Vf) as [E (B & _)]. split; [|exact E].
  intros c. rewrite Us, Vs. change (d_term t3 c = d_term s3 c).
  destruct Fe as (_ & _ & _ & _ & _ & -> & _), Ge as (_ & _ & _ & _ & _ & -> & _). now rewrite B.
Qed.
Lemma acyclic_T Sh T T' rank : (forall c, T' c = T c) -> acyclic_by Sh T rank -> acyclic_by Sh T' rank.
Proof.
  intros E AC n c m L H. apply (AC n c m L). destruct H as [H|(r & j & i & x & ms & e & Ht & H)]; [now left|right].
  exists r, j, i, x, ms, e. now rewrite <- E.
Qed.
Lemma once_T Sh T T' : (forall c, T' c = T c) -> self_once Sh T -> self_once Sh T'.
Proof. intros E O c k e Hk Hc HT. apply (O c k e Hk Hc). now rewrite <- E. Qed.

(** C69: the value of a cell is a function of the inputs that contribute to it and to the conditions,
    the cells that are not interface cells, and the order of priorities: two sheets with the same
    cells and relations, whatever their histories, the order their hash indexes are iterated in and
    the results of std::sort, compute the same value and take the same decisions. *)
Theorem C69_value_depends_only_on_contributors_partial Sh D D' l l' s t ns ms s' t' rank n c :
  reachable true Sh s -> reachable true Sh t -> rel_terms_ok Sh -> sched_ok D -> sched_ok D' ->
  update Sh D l s = Some (ROk ns s') -> update Sh D' l' t = Some (ROk ms t') ->
  acyclic_by Sh (d_term s') rank -> self_once Sh (d_term s') -> same_order Sh s t ->
  In (n, c) (output_index Sh) -> same_inputs Sh (N.lor (d_contrib s' c) (d_cond s')) s t ->
  (forall d, d_term t' d = d_term s' d) /\ value_of Sh t' n = value_of Sh s' n.
Proof.
  intros R R' RT HD HD' E E' AC ONCE SO Hc SI. pose proof (reachable_wf _ _ _ R) as W.
  destruct (update_ran Sh D l s ns s' E) as (s1 & s2 & s3 & pa & p & U). destruct (update_ran Sh D' l' t ms t' E') as (t1 & t2 & t3 & pb & q & U').
  destruct (same_decisions Sh D D' l l' s t ns ms s1 s2 s3 s' pa p t1 t2 t3 t' pb q rank R R' RT HD HD' U U' AC SO) as [ET _].
  { apply (same_inputs_sub Sh _ (N.lor (d_contrib s' c) (d_cond s'))); [apply sub_lor_r|exact SI]. }
  split; [exact ET|].
  pose proof (update_done Sh D l s ns s1 s2 s3 s' pa p rank R RT HD U AC ONCE) as O.
  pose proof (update_done Sh D' l' t ms t1 t2 t3 t' pb q rank R' RT HD' U' (acyclic_T Sh _ _ rank ET AC) (once_T Sh _ _ ET ONCE)) as O'.
  pose proof (output_named Sh W n c Hc) as L.
  pose proof (done_evaluated Sh rank D s s1 s2 s3 s' O n c Hc) as Ev. pose proof (done_evaluated Sh rank D' t t1 t2 t3 t' O' n c Hc) as Ev'.
  pose proof (C_forced _ _ _ _ _ (done_cons Sh rank D s s1 s2 s3 s' O) n c L Ev) as F.
  assert (Sv : solves Sh (d_term s') (d_state t) (value_of Sh t')).
  { intros m v Hm. destruct (done_solves Sh rank D' t t1 t2 t3 t' O' m v Hm) as (d & Ld & Dd). exists d. split; [exact Ld|].
    rewrite <- Dd. apply def_value_T. intros x. now rewrite ET. }
  unfold value_of. rewrite L, Ev, Ev'. f_equal.
  apply (F (d_state t) (value_of Sh t')); [|exact Sv|unfold value_of; now rewrite L, Ev'].
  apply (same_inputs_sub Sh _ (N.lor (d_contrib s' c) (d_cond s'))); [apply sub_lor_l|exact SI].
Qed.
(** The contributing set the sheet reports is enough for a cell that no condition consults, directly
    or through other cells. *)
Theorem C69_contributing_set_is_enough_partial Sh D D' l l' s t ns ms s' t' rank n c :
  reachable true Sh s -> reachable true Sh t -> rel_terms_ok Sh -> sched_ok D -> sched_ok D' ->
  update Sh D l s = Some (ROk ns s') -> update Sh D' l' t = Some (ROk ms t') ->
  acyclic_by Sh (d_term s') rank -> self_once Sh (d_term s') -> same_order Sh s t ->
  In (n, c) (output_index Sh) ->
  (forall x e m d, In x (rels Sh) -> r_cond x = Some e -> may_look e m -> lookup m (name_index Sh) = Some d -> rank m < rank n) ->
  same_inputs Sh (d_contrib s' c) s t -> value_of Sh t' n = value_of Sh s' n.
Proof.
  intros R R' RT HD HD' E E' AC ONCE SO Hc Cb SI. pose proof (reachable_wf _ _ _ R) as W.
  assert (Sb : sub (N.lor (d_contrib s' c) (d_cond s')) (d_contrib s' c)).
  { destruct (update_ran Sh D l s ns s' E) as (s1 & s2 & s3 & pa & p & U).
    pose proof (update_done Sh D l s ns s1 s2 s3 s' pa p rank R RT HD U AC ONCE) as O.
    assert (Q : sub (d_cond s') (d_contrib s' c)).
    { pose proof (O_below _ _ _ _ _ _ _ _ O (rank n) Cb) as Bl. pose proof (O_off _ _ _ _ _ _ _ _ O) as Of.
      assert (Nev : d_evaluated s2 c = false).
      { destruct Of as (_ & o2 & _). rewrite o2. cbn [d_evaluated w_cond]. destruct (d_evaluated s1 c) eqn:Ev; auto. exfalso.
        destruct (Bl c Ev) as [H|(m & Lm & Hm)].
        - cbn [clear d_evaluated w_acc w_rres w_resolved w_evaluated] in H.
          destruct (W_output Sh W n c Hc) as (_ & k & Hk & _ & Ho). unfold is_leaf, spec_is, cell_at in H. rewrite Hk in H.
          unfold out_kind in Ho. destruct (c_spec k); try discriminate; destruct Ho.
        - assert (m = n) by (exact (lk_inj Sh W m n c Lm (output_named Sh W n c Hc))). subst m. lia. }
      pose proof (V_cond _ _ _ (O_evolved _ _ _ _ _ _ _ _ O) c Nev (proj1 (O_applied _ _ _ _ _ _ _ _ O n c Hc))) as V.
      rewrite (O_cnd _ _ _ _ _ _ _ _ O), (O_contrib _ _ _ _ _ _ _ _ O).
      destruct Of as (_ & _ & _ & _ & _ & _ & _ & _ & _ & o & _). rewrite o in V. exact V. }
    intros i Hi. rewrite testb_lor in Hi. apply Bool.orb_true_iff in Hi as [Hi|Hi]; auto. }
  apply (C69_value_depends_only_on_contributors_partial Sh D D' l l' s t ns ms s' t' rank n c R R' RT HD HD' E E' AC ONCE SO Hc).
  exact (same_inputs_sub Sh _ _ s t Sb SI).
Qed.
(** no two cells of the relations have the same priority *)
Definition no_ties (Sh : sheet) (s : dyn) : Prop :=
  forall c d r q, attached Sh c r -> attached Sh d q -> c <> d -> out_prio Sh s c <> out_prio Sh s d.
Corollary C69_order_does_not_matter_partial Sh D D' l l' s ns ms s' t' rank :
  reachable true Sh s -> rel_terms_ok Sh -> sched_ok D -> sched_ok D' ->
  update Sh D l s = Some (ROk ns s') -> update Sh D' l' s = Some (ROk ms t') ->
  acyclic_by Sh (d_term s') rank -> self_once Sh (d_term s') -> no_ties Sh s ->
  forall n c, In (n, c) (output_index Sh) -> value_of Sh t' n = value_of Sh s' n.
Proof.
  intros R RT HD HD' E E' AC ONCE NT n c Hc.
  refine (proj2 (C69_value_depends_only_on_contributors_partial Sh D D' l l' s s ns ms s' t' rank n c R R RT HD HD' E E' AC ONCE _ Hc _)).
  - intros x y r q Hx Hy Hxy. specialize (NT x y r q Hx Hy Hxy). lia.
  - split; auto.
Qed.
(** Ties are only possible between cells that were never initialised, set, touched or derived. *)
Theorem C69_ties_are_only_uninitialised b Sh s i k : reachable b Sh s -> i <> k -> d_prio s i = d_prio s k -> d_prio s i = 0%Z.
Proof. intros R N E. destruct (reachable_bounds b Sh s R) as [_ B]. destruct (B i) as [_ H]. destruct (H k E); [contradiction|auto]. Qed.
Corollary C69_no_ties b Sh s : reachable b Sh s -> (forall c r, attached Sh c r -> out_prio Sh s c <> 0%Z) -> no_ties Sh s.
Proof.
  intros R H c d r q Hc Hd Ne E. pose proof (H c r Hc) as Hn. pose proof (reachable_wf _ _ _ R) as W.
  assert (In : forall c r, attached Sh c r -> exists i, input_of Sh c = Some i).
  { intros c0 r0 (x & Hx & Ha). destruct (W_rel Sh W x (nth_error_In _ _ Hx)) as [A B]. apply B in Ha as (m & Hm & Hd').
    destruct (A m Hm) as (d' & k & K1 & K2). assert (d' = c0) by (unfold rel_cell in *; congruence). subst d'. eauto. }
  destruct (In c r Hc) as (i & Hi). destruct (In d q Hd) as (k & Hk). unfold out_prio in *. rewrite Hi in *. rewrite Hk in *.
  apply Hn. apply (C69_ties_are_only_uninitialised b Sh s i k R); [|exact E]. intros ->. apply Ne. exact (input_inj Sh W c d k Hi Hk).
Qed.

(** the hypotheses are met: the box, two schedules *)
Example order_ok : no_ties (sheet_of cbox) (start_of cbox) /\
  (match update (sheet_of cbox) D1 nolisten (start_of cbox) with
   | Some (ROk _ s') => map (fun n => value_of (sheet_of cbox) s' n) ["left"; "right"; "width"; "result"]%string = [Some (num 26); Some (num 31); Some (num 5); Some (num 31)]
   | _ => False end).
Proof.
  split; [|vm_compute; reflexivity]. apply (C69_no_ties true); [apply built_reachable|].
  intros c r (x & Hx & Hc). apply nth_error_In in Hx. rewrite cbox_rels in Hx.
  assert (G : c = 2 \/ c = 4 \/ c = 6) by (destruct Hx as [<-|[<-|[]]]; cbn in Hc; lia).
  destruct G as [-> | [-> | ->]]; vm_compute; discriminate.
Qed.
(** with a tie, the result of std::sort decides *)
Definition D2 : sched := {| sd_iter := fun l => l; sd_flow := fun p l => sd_flow D0 p (rev l); sd_touch := sd_touch D0 |}.
Lemma D2_ok : sched_ok D2.
Proof.
  destruct D0_ok as (H1 & H2 & H3). split; [exact H1|]. split; [|exact H3]. intros p l. destruct (H2 p (rev l)) as [P S]. split; [|exact S].
  cbn [sd_flow D2]. etransitivity; [exact P|]. apply Permutation_sym, Permutation_rev.
Qed.
Definition tied : list build_op :=
  [ OInterface "a" true None None; OInterface "b" true None None;
    ORelation None [ (["a"], Look "b" (fun _ => Ret (num 1))); (["b"], Look "a" (fun _ => Ret (num 2))) ] ]%string.
Theorem C69_ties_refuted : exists Sh s ns ms s' t',
  reachable true Sh s /\ sched_ok D0 /\ sched_ok D2 /\ update Sh D0 nolisten s = Some (ROk ns s') /\ update Sh D2 nolisten s = Some (ROk ms t') /\
  value_of Sh s' "a"%string <> value_of Sh t' "a"%string.
Proof.
  exists (sheet_of tied), (start_of tied).
  exists (match update (sheet_of tied) D0 nolisten (start_of tied) with Some (ROk ns _) => ns | _ => [] end).
  exists (match update (sheet_of tied) D2 nolisten (start_of tied) with Some (ROk ns _) => ns | _ => [] end).
  exists (after (update (sheet_of tied) D0 nolisten (start_of tied))), (after (update (sheet_of tied) D2 nolisten (start_of tied))).
  split; [apply built_reachable|]. split; [apply D0_ok|]. split; [apply D2_ok|].
  split; [vm_compute; reflexivity|]. split; [vm_compute; reflexivity|]. vm_compute. discriminate.
Qed.
(** The contributing set of a cell that a condition has consulted is not enough: it lacks the inputs
    of the conditions before it.  Here [n] keeps its contributing inputs, and changes. *)
Definition ge1 (v : value) : bool := match v with VSize z => (1 <=? z)%N | _ => false end.
Definition consulted : list build_op :=
  [ OInterface "x" true (Some (Ret (num 0))) None; OInterface "y" true (Some (Ret (num 1))) None;
    OInterface "n" true (Some (Ret (num 7))) None; OInterface "m" true (Some (Ret (num 9))) None;
    OInterface "p" true (Some (Ret (num 1))) None; OInterface "q" true (Some (Ret (num 2))) None;
    ORelation (Some (Look "x" (fun v => Ret (VBool (ge1 v))))) [ (["n"], var "m"); (["m"], var "n") ];
    ORelation (Some (Look "y" (fun v => if ge1 v then Look "n" (fun w => Ret (VBool (negb (ge1 w)))) else Ret (VBool false))))
      [ (["p"], var "q"); (["q"], var "p") ] ]%string.
Definition other : dyn := after (Some (set_cell (sheet_of consulted) "y"%string (num 0) (after (Some (set_cell (sheet_of consulted) "x"%string (num 1) (start_of consulted)))))).
Theorem C69_consulted_cell_refuted : exists Sh s t ns ms s' t' c,
  reachable true Sh s /\ reachable true Sh t /\ rel_terms_ok Sh /\ sched_ok D0 /\
  update Sh D0 nolisten s = Some (ROk ns s') /\ update Sh D0 nolisten t = Some (ROk ms t') /\
  acyclic_by Sh (d_term s') (fun _ => 0) /\ self_once Sh (d_term s') /\ same_order Sh s t /\
  In ("n"%string, c) (output_index Sh) /\ same_inputs Sh (d_contrib s' c) s t /\
  value_of Sh s' "n"%string = Some (num 7) /\ value_of Sh t' "n"%string = Some (num 9).
Proof.
  exists (sheet_of consulted), (start_of consulted), other.
  exists (match update (sheet_of consulted) D0 nolisten (start_of consulted) with Some (ROk ns _) => ns | _ => [] end).
  exists (match update (sheet_of consulted) D0 nolisten other with Some (ROk ns _) => ns | _ => [] end).
  exists (after (update (sheet_of consulted) D0 nolisten (start_of consulted))), (after (update (sheet_of consulted) D0 nolisten other)), 5.
  assert (R : reachable true (sheet_of consulted) (start_of consulted)) by apply built_reachable.
  assert (Er : rels (sheet_of consulted) = [ mk_rel (Some (Look "x" (fun v => Ret (VBool (ge1 v))))) [ (["n"], var "m"); (["m"], var "n") ] [5; 7];
     mk_rel (Some (Look "y" (fun v => if ge1 v then Look "n" (fun w => Ret (VBool (negb (ge1 w)))) else Ret (VBool false)))) [ (["p"], var "q"); (["q"], var "p") ] [9; 11] ]%string) by reflexivity.
  assert (Ec : cells (sheet_of consulted) = flat_map (fun p => [ mk_cell SIfIn (fst (fst p)) (CExpr (Ret (num (snd (fst p))))) true None; mk_cell SIfOut (fst (fst p)) (CGet (fst (fst p))) false (Some (snd p)) ])
     [("x", 0%N, 0); ("y", 1%N, 2); ("n", 7%N, 4); ("m", 9%N, 6); ("p", 1%N, 8); ("q", 2%N, 10)]%string) by reflexivity.
  assert (ET : forall c, d_term (after (update (sheet_of consulted) D0 nolisten (start_of consulted))) c = None) by (intros c; vm_compute; reflexivity).
  assert (At : forall c r, attached (sheet_of consulted) c r -> c = 5 \/ c = 7 \/ c = 9 \/ c = 11).
  { intros c r (x & Hx & Hc). apply nth_error_In in Hx. rewrite Er in Hx. destruct Hx as [<-|[<-|[]]]; cbn in Hc; lia. }
  split; [exact R|]. split.
  { assert (R1 : reachable true (sheet_of consulted) (after (Some (set_cell (sheet_of consulted) "x"%string (num 1) (start_of consulted))))).
    { apply (R_set true (sheet_of consulted) (start_of consulted) "x"%string (num 1) tt); [exact R|vm_compute; reflexivity]. }
    unfold other. apply (R_set true _ _ "y"%string (num 0) tt _ R1). vm_compute. reflexivity. }
  split.
  { intros x. rewrite Er. intros [<-|[<-|[]]]; cbn [r_terms]; (split; [cbn; lia|]);
      (split; [intros t [<-|[<-|[]]]; discriminate|]); cbn; repeat (constructor; [cbn; intuition discriminate|]); constructor. }
  split; [apply D0_ok|]. split; [vm_compute; reflexivity|]. split; [vm_compute; reflexivity|]. split.
  { intros n c m L H. destruct H as [(k & e & Hk & Hc & Hl)|(r & j & i & x & ms & e & Ht & _)]; [|now rewrite ET in Ht].
    exfalso. apply nth_error_In in Hk. rewrite Ec in Hk. apply in_flat_map in Hk as ([[a b] d] & _ & Hk). cbn in Hk.
    destruct Hk as [<-|[<-|[]]]; cbn [c_calc] in Hc; [injection Hc as <-; inversion Hl|discriminate]. }
  split. { intros c k e _ _ H. now rewrite ET in H. }
  split.
  { intros c d i k Hc Hd Hne. destruct (At c i Hc) as [-> | [-> | [-> | ->]]]; destruct (At d k Hd) as [-> | [-> | [-> | ->]]];
      try (destruct (Hne eq_refl)); vm_compute; (left; split; reflexivity) || (right; split; reflexivity). }
  split. { vm_compute. auto 10. }
  split; [|split; vm_compute; reflexivity].
  split.
  - intros c Hc. unfold is_leaf, spec_is, cell_at in Hc. rewrite Ec in Hc. exfalso.
    destruct (nth_error _ c) as [k|] eqn:Hk; [|discriminate]. apply nth_error_In in Hk. apply in_flat_map in Hk as ([[a b] d] & _ & Hk). cbn in Hk.
    destruct Hk as [<-|[<-|[]]]; discriminate.
  - assert (Eb : d_contrib (after (update (sheet_of consulted) D0 nolisten (start_of consulted))) 5 = setb 0%N 4) by (vm_compute; reflexivity).
    intros i Hi. rewrite Eb, testb_setb in Hi.
    destruct (Nat.eq_dec i 4) as [->|Hn]; [vm_compute; reflexivity|]. exfalso.
    unfold testb in Hi. rewrite N.bits_0, Bool.orb_false_r in Hi. apply Nat.eqb_eq in Hi. lia.
Qed.
