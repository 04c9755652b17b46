(** However a sheet was used, as long as no update() threw, no name is pending. *)
From Coq Require Import String Permutation Sorted.
From Verif Require Import Prelude Vm_Value Adam_Model Adam_Spec Adam_Flow Adam_Build Adam_Frame Adam_Quiet Adam_Update.
From Coq Require Import List.
Import ListNotations.
Local Open Scope nat_scope.
Ltac Zify.zify_post_hook ::= idtac.

Definition sc (s s' : dyn) : Prop := d_stack s' = d_stack s /\ d_contrib s' = d_contrib s.
Lemma sc_trans s s' s'' : sc s s' -> sc s' s'' -> sc s s''.
Proof. unfold sc. intuition congruence. Qed.
Definition scr {A} (s : dyn) (r : res A) : Prop :=
  match r with ROk _ s' => sc s s' | RThrow _ s' => sc s s' | RUB => True end.
Lemma get_init_sc Sh n s : scr s (get_init Sh n s).
Proof.
  unfold get_init. destruct (lookup n (input_index Sh)); [repeat split|].
  destruct (lookup n (name_index Sh)); [|repeat split]. destruct (spec_is Sh _ _); repeat split.
Qed.
Lemma init_expr_sc Sh : forall e s, scr s (ev (get_init Sh) e s).
Proof.
  induction e as [v| |n k IH]; intros s; cbn [ev]; try (repeat split).
  pose proof (get_init_sc Sh n s) as Q. destruct (get_init Sh n s) as [v s1|x s1|]; auto. cbn [scr] in Q.
  specialize (IH v s1). destruct (ev (get_init Sh) (k v) s1); cbn [scr] in *; auto; eapply sc_trans; eauto.
Qed.
Lemma initialize_one_sc Sh c s : scr s (initialize_one Sh c s).
Proof.
  unfold initialize_one. destruct (cell_at Sh c) as [k|]; [|exact I].
  assert (Q : scr (w_acc 0%N s) (run_calc (get_init Sh) (c_calc k) (w_acc 0%N s))).
  { destruct (c_calc k); cbn [run_calc]; [repeat split|apply init_expr_sc|apply get_init_sc]. }
  destruct (run_calc (get_init Sh) (c_calc k) (w_acc 0%N s)) as [v s1|x s1|]; auto.
Qed.
Lemma reinit_sc Sh : forall l s, scr s (reinit_all Sh l s).
Proof.
  induction l as [|c l IH]; intros s; cbn [reinit_all]; [repeat split|].
  destruct (input_of Sh c) as [i|]; auto. destruct (_ =? 0)%N; auto.
  pose proof (initialize_one_sc Sh i s) as Q. destruct (initialize_one Sh i s) as [u s1| |]; auto. cbn [scr] in Q.
  specialize (IH s1). destruct (reinit_all Sh l s1); cbn [scr] in *; auto; eapply sc_trans; eauto.
Qed.
Lemma calm_sc Sh s s' : sc s s' -> calm Sh s -> calm Sh s'.
Proof. intros [A B] [C D]. split; [congruence|]. exact (bits_eq Sh s s' B D). Qed.
Lemma calm_quiet Sh s s' : wf Sh -> quiet Sh s s' -> calm Sh s -> calm Sh s'.
Proof.
  intros W Q [C D]. split; [destruct Q as [Q _]; rewrite C in Q; exact Q|]. exact (bits_quiet Sh W s s' Q D).
Qed.
Lemma calm_add Sh Sh' ks s s' : wf Sh -> cells Sh' = cells Sh ++ ks -> d_stack s' = d_stack s ->
  (forall i, i < length (cells Sh) -> d_contrib s' i = d_contrib s i) ->
  (forall k i, In k ks -> c_in k = Some i -> testb (d_contrib s' i) i = true) -> calm Sh s -> calm Sh' s'.
Proof.
  intros W Ec Es Eo En [C D]. split; [congruence|]. intros c i. unfold input_of, cell_at. rewrite Ec.
  destruct (Nat.lt_ge_cases c (length (cells Sh))) as [Hc|Hc].
  - rewrite nth_error_app1 by exact Hc. intros Hi. assert (Hi' : input_of Sh c = Some i) by exact Hi.
    destruct (input_is_ifin Sh W c i Hi') as (k' & Hk' & _).
    rewrite Eo; [exact (D c i Hi')|]. apply nth_error_Some. congruence.
  - rewrite nth_error_app2 by exact Hc. destruct (nth_error ks (c - length (cells Sh))) as [k|] eqn:E; [|discriminate].
    intros Hi. exact (En k i (nth_error_In _ _ E) Hi).
Qed.
Lemma finish_calm n c Sh0 s0 k Sh' s' : finish_name n c Sh0 s0 k = BOk Sh' s' -> (forall S, cells (k S) = cells S) ->
  cells Sh' = cells Sh0 /\ s' = s0.
Proof.
  intros H Hk. unfold finish_name in H. destruct (lookup n (name_index Sh0)); [discriminate|]. injection H as <- <-.
  rewrite Hk. split; reflexivity.
Qed.
Lemma fresh_stack c v b s : d_stack (fresh_cell c v b s) = d_stack s.
Proof. reflexivity. Qed.
Lemma fresh_contrib c v b s : d_contrib (fresh_cell c v b s) = fset (d_contrib s) c 0%N.
Proof. reflexivity. Qed.
Lemma calm_plain Sh Sh' k s s' v b : wf Sh -> cells Sh' = cells Sh ++ [k] -> c_in k = None ->
  d_stack s' = d_stack s -> d_contrib s' = d_contrib (fresh_cell (length (cells Sh)) v b s) -> calm Sh s -> calm Sh' s'.
Proof.
  intros W Ec Hk Es Eb. apply (calm_add Sh Sh' [k]); auto.
  - intros i Hi. rewrite Eb, fresh_contrib, fset_other; [reflexivity|lia].
  - intros k' i [<-|[]]. congruence.
Qed.
Lemma calm_iface Sh Sh' k k2 s s' v w : wf Sh -> cells Sh' = cells Sh ++ [k; k2] -> c_in k = None -> c_in k2 = Some (length (cells Sh)) ->
  d_stack s' = d_stack s ->
  d_contrib s' = d_contrib (fresh_cell (Datatypes.S (length (cells Sh))) w false
     (w_contrib (fset (d_contrib (fresh_cell (length (cells Sh)) v true s)) (length (cells Sh)) (setb 0%N (length (cells Sh)))) s)) ->
  calm Sh s -> calm Sh' s'.
Proof.
  intros W Ec Hk Hk2 Es Eb. apply (calm_add Sh Sh' [k; k2]); auto.
  - intros i Hi. rewrite Eb, !fresh_contrib. cbn [d_contrib w_contrib]. rewrite !fset_other by lia. reflexivity.
  - intros k' i [<-|[<-|[]]]; [congruence|]. rewrite Hk2. intros [= <-]. rewrite Eb, fresh_contrib. cbn [d_contrib w_contrib].
    rewrite fset_other by lia. rewrite fset_same. unfold testb, setb. apply N.setbit_eq.
Qed.
Lemma build_calm o Sh s Sh' s' : wf Sh -> calm Sh s -> build o Sh s = BOk Sh' s' -> calm Sh' s'.
Proof.
  intros W C H. destruct o; cbn [build] in H.
  - unfold add_input in H.
    match type of H with match ?r with _ => _ end = _ => assert (Q : scr s r) by (destruct init; [apply init_expr_sc|repeat split]); destruct r as [v s1| |]; try discriminate end.
    destruct (1024 <=? length (cells Sh)); [discriminate|]. cbv zeta in H. apply finish_calm in H as [Ec ->]; [|reflexivity].
    apply (calm_plain Sh Sh' (mk_cell SInput n CNone false None) s1 _ v true); auto. exact (calm_sc Sh s s1 Q C).
  - apply finish_calm in H as [Ec ->]; [|reflexivity]. eapply (calm_plain Sh Sh' _ s _ _ _ W Ec); try reflexivity; exact C.
  - apply finish_calm in H as [Ec ->]; [|reflexivity]. eapply (calm_plain Sh Sh' _ s _ _ _ W Ec); try reflexivity; exact C.
  - apply finish_calm in H as [Ec ->]; [|reflexivity]. eapply (calm_plain Sh Sh' _ s _ _ _ W Ec); try reflexivity; exact C.
  - unfold add_constant in H. pose proof (init_expr_sc Sh e s) as Q. destruct (ev (get_init Sh) e s) as [v s1| |]; try discriminate.
    apply finish_calm in H as [Ec ->]; [|reflexivity]. eapply (calm_plain Sh Sh' _ s1 _ _ _ W Ec); try reflexivity. exact (calm_sc Sh s s1 Q C).
  - apply finish_calm in H as [Ec ->]; [|reflexivity]. eapply (calm_plain Sh Sh' _ s _ _ _ W Ec); try reflexivity; exact C.
  - unfold add_interface in H. destruct (1024 <=? length (cells Sh)); [discriminate|]. cbv zeta in H.
    set (s2 := w_contrib _ _) in H.
    match type of H with match ?r with _ => _ end = _ => assert (Q : scr s2 r) by (destruct init; [apply initialize_one_sc|repeat split]); destruct r as [u s3| |]; try discriminate end.
    apply finish_calm in H as [Ec ->]; [|reflexivity]. cbn [cells push_cell ix_output ix_input ix_name] in Ec. rewrite <- app_assoc in Ec.
    destruct Q as [Q1 Q2]. eapply (calm_iface Sh Sh' _ _ s _ VEmpty VEmpty W Ec); try reflexivity; [rewrite fresh_stack, Q1; reflexivity| |exact C].
    rewrite !fresh_contrib, Q2. reflexivity.
  - unfold add_interface_value in H. destruct (1024 <=? length (cells Sh)); [discriminate|]. cbv zeta in H.
    apply finish_calm in H as [Ec ->]; [|reflexivity]. cbn [cells push_cell ix_output ix_input ix_name] in Ec. rewrite <- app_assoc in Ec.
    eapply (calm_iface Sh Sh' _ _ s _ v VEmpty W Ec); try reflexivity; exact C.
  - unfold add_relation in H. destruct (find_edges _ _) as [edges ok]. destruct ok; [|discriminate]. injection H as <- <-. exact C.
Qed.
Lemma touch_sc Sh D ns s : sc s (touch Sh D ns s).
Proof.
  unfold touch. generalize (sd_touch D (d_prio s) (flat_map (fun n => match lookup n (input_index Sh) with Some c => [c] | None => [] end) ns)).
  intros l. revert s. induction l as [|c l IH]; intros s; cbn [fold_left]; [repeat split|]. eapply sc_trans; [|apply IH]. repeat split.
Qed.
Lemma iter_In D l c : sched_ok D -> (In c (sd_iter D l) <-> In c l).
Proof. intros (H & _). split; apply Permutation_in; [apply H|apply Permutation_sym, H]. Qed.
Lemma update_calm Sh D l s ns s' : wf Sh -> sched_ok D -> calm Sh s -> update Sh D l s = Some (ROk ns s') -> calm Sh s'.
Proof.
  intros W HD [St B]. unfold update.
  pose proof (conditionals_stack Sh W (rels Sh) 0 (clear Sh s) B St) as Q1.
  destruct (conditionals Sh (rels Sh) 0 (clear Sh s)) as [u s1| |]; try discriminate. destruct Q1 as [St1 B1].
  pose proof (flow_off Sh D (w_cond (d_acc s1) s1)) as Q2. destruct (flow Sh D (w_cond (d_acc s1) s1)) as [[pa s2| |]|]; try discriminate.
  cbn [offs] in Q2. destruct Q2 as (_ & _ & _ & O1 & _ & _ & _ & O2 & _). cbn [d_contrib d_stack w_cond] in O1, O2.
  pose proof (evaluate_all_stack Sh W (sd_iter D (map snd (output_index Sh))) s2) as Q3.
  specialize (Q3 ltac:(intros c; apply iter_In; exact HD) ltac:(congruence) (bits_eq Sh s1 s2 O1 B1)).
  destruct (evaluate_all Sh _ s2) as [v s3| |]; try discriminate. destruct Q3 as [St3 B3].
  destruct (poisoned (invariant_index Sh) 0%N s3); [|discriminate]. intros [= _ <-]. split; [exact St3|exact B3].
Qed.
Theorem reachable_calm Sh s : reachable true Sh s -> calm Sh s.
Proof.
  intros R. remember true as b eqn:Eb. revert Eb.
  induction R as [|b o Sh s Sh' s' R IH E|b Sh s n v u s' R IH E|b Sh s D ns R IH HD|b Sh s D l u s' R IH HD E|b Sh s D l x s' R IH HD E
    |b Sh s D u s' R IH HD E|b Sh s D x s' R IH HD E|b Sh s e v s' R IH E|b Sh s e x s' R IH E]; intros Eb; try specialize (IH Eb).
  - split; [reflexivity|]. intros [|c] i H; discriminate.
  - eapply build_calm; eauto. eapply reachable_wf; eauto.
  - unfold set_cell in E. destruct (lookup n (input_index Sh)) as [c|]; [|discriminate]. injection E as _ <-.
    apply (calm_sc Sh s); [|exact IH]. destruct (spec_is Sh _ c); repeat split.
  - apply (calm_sc Sh s); [apply touch_sc|exact IH].
  - eapply update_calm; eauto. eapply reachable_wf; eauto.
  - discriminate.
  - pose proof (reinit_sc Sh (sd_iter D (map snd (output_index Sh))) s) as Q. unfold reinitialize in E. rewrite E in Q. exact (calm_sc Sh s s' Q IH).
  - pose proof (reinit_sc Sh (sd_iter D (map snd (output_index Sh))) s) as Q. unfold reinitialize in E. rewrite E in Q. exact (calm_sc Sh s s' Q IH).
  - pose proof (reachable_wf b Sh s R) as W. pose proof (calc_expr_quiet Sh W e s) as Q. rewrite E in Q. exact (calm_quiet Sh s s' W Q IH).
  - pose proof (reachable_wf b Sh s R) as W. pose proof (calc_expr_quiet Sh W e s) as Q. rewrite E in Q. exact (calm_quiet Sh s s' W Q IH).
Qed.
