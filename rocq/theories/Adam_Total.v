(** Nothing undefined happens while a sheet is evaluated *)
From Coq Require Import String ZArith.
From Verif Require Import Prelude Vm_Value Adam_Model Adam_Spec Adam_Flow Adam_Build Adam_Frame Adam_Quiet Adam_Update Adam_Calm AdamTotal_Spec Adam_Flow2 Adam_Flow3.
From Coq Require Import List Lia.
Import ListNotations.
Local Open Scope nat_scope.
Ltac Zify.zify_post_hook ::= idtac.

Lemma wide_ev g n : forall e s l s', wide n e -> ev g e s = ROk (VArr l) s' -> n <= length l.
Proof.
  induction e as [v| |m k IH]; intros s l s'; cbn [ev wide].
  - intros Wd [= -> _]. exact Wd.
  - discriminate.
  - intros Wd. destruct (g m s) as [v s1| |]; [|discriminate|discriminate]. eauto.
Qed.
Section Total.
Variable Sh : sheet.
(** with [full], every derived cell is known to have a term of its own *)
Variable full : bool.
Hypothesis W : wf Sh.
(** get_stack_m only has names of interface cells *)
Definition stack_ok (s : dyn) : Prop := Forall (fun e => exists c, lookup (fst e) (name_index Sh) = Some c /\ is_ifout Sh c = true) (d_stack s).
(** every derived cell has a term of its own *)
Definition terms_fine (s : dyn) : Prop := full = true -> forall c r j i, d_term s c = Some (r, j, i) -> exists ns e, nth_error (terms_of Sh r) j = Some (ns, e) /\ i < length ns /\ (length ns = 1 \/ wide (length ns) e).
Definition fine (s : dyn) : Prop := stack_ok s /\ terms_fine s.
Definition defined {A} (r : res A) : Prop := match r with ROk _ s => fine s | RThrow _ s => fine s | RUB => full = false end.
Lemma fine_ext s s' : d_stack s' = d_stack s -> d_term s' = d_term s -> fine s -> fine s'.
Proof. intros E1 E2 [A B]. unfold fine, stack_ok, terms_fine. rewrite E1, E2. split; assumption. Qed.
Lemma fine_pop c s : fine s -> fine (pop Sh c s).
Proof.
  intros [A B]. unfold pop. destruct (is_ifout Sh c); [|split; assumption]. split; [|exact B]. unfold stack_ok. cbn [d_stack w_stack]. destruct A; [constructor|assumption].
Qed.
Lemma fine_push n c b s : lookup n (name_index Sh) = Some c -> is_ifout Sh c = true -> fine s -> fine (w_stack ((n, b) :: d_stack s) s).
Proof. intros L I [A B]. split; [|exact B]. unfold stack_ok. cbn [d_stack w_stack]. constructor; [exists c; auto|exact A]. Qed.
Lemma fine_cond c s : fine s -> fine (add_cond Sh c s).
Proof. intros F. unfold add_cond. destruct (is_leaf Sh c); [exact F|]. revert F. apply fine_ext; reflexivity. Qed.
Lemma ev_defined (g : name -> dyn -> res value) : (forall n s, fine s -> defined (g n s)) -> forall e s, fine s -> defined (ev g e s).
Proof.
  intros G. induction e as [v| |n k IH]; intros s F; cbn [ev defined]; auto. pose proof (G n s F) as H. destruct (g n s) as [v s1|x s1|]; cbn [defined] in *; [apply IH; exact H|exact H|exact H].
Qed.
Lemma run_term_defined g c t s : (forall n s, fine s -> defined (g n s)) -> fine s -> (exists s0, fine s0 /\ d_term s0 c = Some t) -> defined (run_term Sh g t s).
Proof.
  intros G F (s0 & [_ B] & E). destruct t as [[r j] i]. unfold run_term. destruct full eqn:Fu.
  - destruct (B Fu c r j i E) as (ns & e & T & Li & L). rewrite T. pose proof (ev_defined g G e s F) as H. destruct (Nat.eqb_spec (length ns) 1) as [|N1]; [exact H|].
    destruct L as [L|L]; [contradiction|]. destruct (ev g e s) as [v s1|x s1|] eqn:Ev; [|exact H|exact H]. destruct v; try exact H.
    pose proof (wide_ev g (length ns) e s l s1 L Ev) as Wl. destruct (nth_error l i) eqn:Nl; [exact H|]. apply nth_error_None in Nl. exfalso. exact (Nat.lt_irrefl _ (Nat.lt_le_trans _ _ _ Li (Nat.le_trans _ _ _ Wl Nl))).
  - destruct (nth_error (terms_of Sh r) j) as [[ns e]|]; [|exact Fu]. pose proof (ev_defined g G e s F) as H. destruct (length ns =? 1); [exact H|].
    destruct (ev g e s) as [v s1|x s1|]; [|exact H|exact H]. destruct v; try exact H. destruct (nth_error _ _); [exact H|exact Fu].
Qed.
Lemma run_calc_defined g k s : (forall n s, fine s -> defined (g n s)) -> fine s -> defined (run_calc g k s).
Proof. intros G F. destruct k; cbn [run_calc defined]; [exact F|apply ev_defined; assumption|apply G; exact F]. Qed.
Lemma calculate_defined g c s : (forall n s, fine s -> defined (g n s)) -> fine s -> cell_at Sh c <> None -> defined (calculate Sh g c s).
Proof.
  intros G F C. unfold calculate. destruct (cell_at Sh c) as [k|]; [|contradiction]. destruct (d_evaluated s c); [exact F|]. destruct (negb _); [exact F|].
  pose proof (run_calc_defined g (c_calc k) s G F) as H. destruct (run_calc g (c_calc k) s) as [v s1|x s1|]; cbn [defined] in *; [|exact H|exact H]. revert H. apply fine_ext; reflexivity.
Qed.
Lemma ifout_input c : is_ifout Sh c = true -> exists i, input_of Sh c = Some i.
Proof.
  unfold is_ifout, spec_is, input_of, cell_at. destruct (nth_error (cells Sh) c) as [k|] eqn:K; [|discriminate]. destruct (c_spec k) eqn:Sp; try discriminate. intros _.
  pose proof (W_cell Sh W c k K) as H. rewrite Sp in H. destruct (W_output Sh W _ _ H) as (_ & k' & K' & _ & Ok). rewrite K in K'. injection K' as <-. unfold out_kind in Ok. rewrite Sp in Ok. destruct Ok as (i & _ & E & _). exists i. exact E.
Qed.
Lemma name_cell n c : lookup n (name_index Sh) = Some c -> cell_at Sh c <> None.
Proof. intros L. apply lookup_In in L. destruct (W_name Sh W n c L) as (k & K & _). unfold cell_at. rewrite K. discriminate. Qed.
Lemma get_body_defined g n s : (forall n s, fine s -> defined (g n s)) -> fine s -> defined (get_body Sh g n s).
Proof.
  intros G F. unfold get_body. destruct (lookup n (name_index Sh)) as [c|] eqn:L; [|exact F].
  destruct (match d_stack s with (m, _) :: _ => String.eqb m n | [] => false end) eqn:Self.
  - destruct (d_stack s) as [|[m b] st] eqn:Es; [discriminate|]. apply String.eqb_eq in Self. subst m.
    pose proof (proj1 F) as A. unfold stack_ok in A. rewrite Es in A. apply Forall_cons_iff in A as [(c' & L' & I') A]. cbn [fst] in L'. rewrite L in L'. injection L' as <-.
    destruct (ifout_input c I') as (i & ->).
    assert (Leaf : defined (ROk (d_state s i) (w_vacc (setb (d_vacc s) i) (w_acc (N.lor (d_acc s) (d_contrib s i)) s)))) by (cbn [defined]; revert F; apply fine_ext; reflexivity).
    destruct b; [exact Leaf|]. destruct (d_term s c) as [t|] eqn:T; [|exact Leaf]. apply (run_term_defined g c); [exact G| |exists s; split; assumption].
    split; [|exact (proj2 F)]. unfold stack_ok. cbn [d_stack w_stack]. constructor; [exists c; auto|exact A].
  - set (s1 := if is_ifout Sh c then _ else s). assert (F1 : fine s1) by (unfold s1; destruct (is_ifout Sh c) eqn:I'; [apply (fine_push n c); assumption|exact F]).
    cbv zeta. destruct (d_evaluated s1 c).
    + cbn [defined]. apply fine_pop, fine_cond. revert F1. apply fine_ext; reflexivity.
    + pose proof (calculate_defined g c (w_acc 0%N s1) G) as H. specialize (H ltac:(revert F1; apply fine_ext; reflexivity) (name_cell n c L)).
      destruct (calculate Sh g c (w_acc 0%N s1)) as [u s2|x s2|]; cbn [defined] in *; [|apply fine_pop; exact H|exact H].
      apply fine_pop, fine_cond. revert H. apply fine_ext; reflexivity.
Qed.
Lemma get_defined f : forall n s, fine s -> defined (get Sh f n s).
Proof. induction f as [|f IH]; intros n s F; cbn [get]; [exact F|]. apply get_body_defined; assumption. Qed.
Lemma calc_expr_defined e s : fine s -> defined (calc_expr Sh e s).
Proof. intros F. unfold calc_expr, get_top. apply ev_defined; [intros; now apply get_defined|exact F]. Qed.
Lemma fold_dec_fine l : forall s, fine s -> fine (fold_left (fun s c => dec_count c s) l s).
Proof. induction l as [|c l IH]; intros s F; cbn [fold_left]; [exact F|]. apply IH. revert F. apply fine_ext; reflexivity. Qed.
Lemma conditionals_defined : forall rs r s, fine s -> defined (conditionals Sh rs r s).
Proof.
  induction rs as [|x rs IH]; intros r s F; cbn [conditionals]; [exact F|]. destruct (r_cond x) as [e|]; [|apply IH; exact F].
  pose proof (calc_expr_defined e s F) as H. destruct (calc_expr Sh e s) as [v s1|y s1|]; cbn [defined] in *; [|exact H|exact H].
  destruct v; cbn [defined]; try exact H. destruct b; [apply IH; exact H|]. apply IH. apply (fold_dec_fine (r_edges x)) in H. revert H. apply fine_ext; reflexivity.
Qed.
Lemma output_name n c : In (n, c) (output_index Sh) -> exists k, cell_at Sh c = Some k /\ c_name k = n /\ lookup n (name_index Sh) = Some c.
Proof.
  intros H. destruct (W_output Sh W n c H) as (Hn & k & K & E & _). exists k. split; [exact K|]. split; [exact E|]. apply In_lookup; [exact (W_names Sh W)|exact Hn].
Qed.
Lemma evaluate_cell_defined c s : In c (map snd (output_index Sh)) -> fine s -> defined (evaluate_cell Sh c s).
Proof.
  intros H F. apply in_map_iff in H as ([n c'] & Ec & H). cbn [snd] in Ec. subst c'. destruct (output_name n c H) as (k & K & E & L). unfold evaluate_cell. rewrite K. cbv zeta.
  match goal with |- defined (match ?r with _ => _ end) => assert (R : defined r) end.
  { destruct (d_evaluated s c); [exact F|]. set (s2 := if is_ifout Sh c then _ else _).
    assert (F2 : fine s2).
    { unfold s2. destruct (is_ifout Sh c) eqn:I'; [|revert F; apply fine_ext; reflexivity]. rewrite E. apply (fine_push n c); [exact L|exact I'|]. revert F. apply fine_ext; reflexivity. }
    pose proof (calculate_defined (get_top Sh) c s2 ltac:(intros; now apply get_defined) F2 ltac:(rewrite K; discriminate)) as C.
    destruct (calculate Sh (get_top Sh) c s2) as [u s3|x s3|]; cbn [defined] in *; [|exact C|exact C]. apply (fine_pop c) in C. revert C. apply fine_ext; reflexivity. }
  match goal with |- defined (match ?r with _ => _ end) => destruct r as [u s3|x s3|] end; cbn [defined] in *; [|exact R|exact R].
  destruct (c_in k) as [i|]; [|exact R]. destruct (linked Sh i); [|exact R]. cbn [defined]. revert R. apply fine_ext; reflexivity.
Qed.
Lemma evaluate_all_defined : forall l s, (forall c, In c l -> In c (map snd (output_index Sh))) -> fine s -> defined (evaluate_all Sh l s).
Proof.
  induction l as [|c l IH]; intros s H F; cbn [evaluate_all]; [exact F|]. pose proof (evaluate_cell_defined c s (H c (or_introl eq_refl)) F) as E.
  destruct (evaluate_cell Sh c s) as [u s1|x s1|]; cbn [defined] in *; [|exact E|exact E]. apply IH; [|exact E]. intros d Hd. apply H. now right.
Qed.
End Total.

(** ** A sheet only grows *)
Definition bigger (Sh Sh' : sheet) : Prop :=
  (exists ks, cells Sh' = cells Sh ++ ks) /\ (exists rs, rels Sh' = rels Sh ++ rs) /\
  (forall n c, lookup n (name_index Sh) = Some c -> lookup n (name_index Sh') = Some c).
Definition same_past (Sh : sheet) (s s' : dyn) : Prop :=
  d_stack s' = d_stack s /\ forall c t, d_term s' c = Some t -> d_term s c = Some t.
Lemma finish_bigger n c Sh0 s0 k Sh' s' : finish_name n c Sh0 s0 k = BOk Sh' s' ->
  (forall Z, cells (k Z) = cells Z /\ rels (k Z) = rels Z /\ name_index (k Z) = name_index Z) -> bigger Sh0 Sh' /\ s' = s0.
Proof.
  unfold finish_name. destruct (lookup n (name_index Sh0)) eqn:L; [discriminate|]. intros [= <- <-] H. split; [|reflexivity].
  destruct (H (ix_name n c Sh0)) as (A & B & C). unfold bigger. rewrite A, B, C. cbn [ix_name cells rels name_index].
  split; [exists []; now rewrite app_nil_r|]. split; [exists []; now rewrite app_nil_r|]. intros m d Hm. rewrite (iinsert_fresh n c _ L), lookup_app, Hm. reflexivity.
Qed.
Lemma bigger_trans A B C : bigger A B -> bigger B C -> bigger A C.
Proof.
  intros ((k & E) & (r & F) & G) ((k' & E') & (r' & F') & G'). split; [exists (k ++ k'); now rewrite E', E, app_assoc|]. split; [exists (r ++ r'); now rewrite F', F, app_assoc|]. auto.
Qed.
(** ** Initializers *)
Definition kept (s s' : dyn) : Prop := d_stack s' = d_stack s /\ d_term s' = d_term s.
Lemma kept_refl s : kept s s. Proof. now split. Qed.
Lemma kept_trans s s' s'' : kept s s' -> kept s' s'' -> kept s s''.
Proof. unfold kept. intuition congruence. Qed.
Definition keptr {A} (s : dyn) (r : res A) : Prop := match r with ROk _ s' => kept s s' | RThrow _ s' => kept s s' | RUB => False end.
Lemma get_init_kept Sh n s : keptr s (get_init Sh n s).
Proof.
  unfold get_init. destruct (lookup n (input_index Sh)); [now split|].
  destruct (lookup n (name_index Sh)); [|now split]. destruct (spec_is Sh _ _); now split.
Qed.
Lemma init_expr_kept Sh : forall e s, keptr s (ev (get_init Sh) e s).
Proof.
  induction e as [v| |n k IH]; intros s; cbn [ev]; try (now split).
  pose proof (get_init_kept Sh n s) as Q. destruct (get_init Sh n s) as [v s1|x s1|]; [|exact Q|exact Q]. cbn [keptr] in Q.
  specialize (IH v s1). destruct (ev (get_init Sh) (k v) s1); cbn [keptr] in *; [eapply kept_trans; eauto|eapply kept_trans; eauto|exact IH].
Qed.
Lemma initialize_one_kept Sh c s : cell_at Sh c <> None -> keptr s (initialize_one Sh c s).
Proof.
  intros C. unfold initialize_one. destruct (cell_at Sh c) as [k|]; [|contradiction].
  assert (Q : keptr (w_acc 0%N s) (run_calc (get_init Sh) (c_calc k) (w_acc 0%N s))).
  { destruct (c_calc k); cbn [run_calc]; [now split|apply init_expr_kept|apply get_init_kept]. }
  destruct (run_calc (get_init Sh) (c_calc k) (w_acc 0%N s)) as [v s1|x s1|]; exact Q.
Qed.
Lemma reinit_kept Sh : wf Sh -> forall l s, keptr s (reinit_all Sh l s).
Proof.
  intros W. induction l as [|c l IH]; intros s; cbn [reinit_all]; [now split|].
  destruct (input_of Sh c) as [i|] eqn:Ei; [|apply IH]. destruct (_ =? 0)%N; [apply IH|].
  assert (C : cell_at Sh i <> None) by (destruct (input_is_ifin Sh W c i Ei) as (k & K & _); unfold cell_at; rewrite K; discriminate).
  pose proof (initialize_one_kept Sh i s C) as Q. destruct (initialize_one Sh i s) as [u s1| |]; [|exact Q|exact Q]. cbn [keptr] in Q.
  specialize (IH s1). destruct (reinit_all Sh l s1); cbn [keptr] in *; [eapply kept_trans; eauto|eapply kept_trans; eauto|exact IH].
Qed.
Definition built_over (Sh : sheet) (s : dyn) (r : bres) : Prop :=
  match r with BOk Sh' s' => bigger Sh Sh' /\ same_past Sh s s' | BThrow _ _ _ => True | BUB => False end.
Lemma finish_over n c Sh Sh0 s s0 k :
  (forall Z, cells (k Z) = cells Z /\ rels (k Z) = rels Z /\ name_index (k Z) = name_index Z) -> bigger Sh Sh0 -> same_past Sh s s0 ->
  built_over Sh s (finish_name n c Sh0 s0 k).
Proof.
  intros K B P. destruct (finish_name n c Sh0 s0 k) as [Sh' s'| |] eqn:E; [|exact Logic.I|unfold finish_name in E; destruct (lookup _ _); discriminate].
  apply finish_bigger in E as [B' ->]; [|exact K]. split; [eapply bigger_trans; eauto|exact P].
Qed.
Lemma push_bigger Sh ks Z : cells Z = cells Sh ++ ks -> rels Z = rels Sh -> name_index Z = name_index Sh -> bigger Sh Z.
Proof. intros A B C. split; [exists ks; exact A|]. split; [exists []; now rewrite B, app_nil_r|]. intros n c. now rewrite C. Qed.
Lemma fset_none f c : forall d t, (fset f c None : nat -> option (nat * nat * nat)) d = Some t -> f d = Some t.
Proof. intros d t. unfold fset. destruct (Nat.eqb c d || Nat.eqb d c)%bool eqn:E; destruct (Nat.eqb d c) eqn:E'; try discriminate; auto; destruct (Nat.eqb c d); auto; discriminate. Qed.
Lemma kept_past Sh s s' : kept s s' -> same_past Sh s s'.
Proof. intros [A B]. split; [exact A|]. intros c t. now rewrite B. Qed.
Lemma fresh_past Sh s s0 c v b : same_past Sh s s0 -> same_past Sh s (fresh_cell c v b s0).
Proof. intros [A B]. split; [exact A|]. intros d t H. apply B. eapply fset_none. exact H. Qed.
Lemma build_over o Sh s : built_over Sh s (build o Sh s).
Proof.
  assert (KI : forall Z : sheet, cells Z = cells Z /\ rels Z = rels Z /\ name_index Z = name_index Z) by (intros; auto).
  assert (P0 : same_past Sh s s) by (split; auto).
  destruct o; cbn [build].
  - unfold add_input.
    match goal with |- built_over _ _ (match ?r with _ => _ end) => assert (Q : keptr s r) by (destruct init; [apply init_expr_kept|apply kept_refl]); destruct r as [v s1| |]; [|exact Logic.I|exact Q] end.
    destruct (1024 <=? length (cells Sh)); [exact Logic.I|]. cbv zeta. apply finish_over; [auto|eapply push_bigger; reflexivity|].
    apply (kept_past Sh) in Q. apply (fresh_past Sh s s1 (length (cells Sh)) v true) in Q. exact Q.
  - unfold add_output. cbv zeta. apply finish_over; [intros; auto|eapply push_bigger; reflexivity|apply fresh_past; exact P0].
  - unfold add_logic. cbv zeta. apply finish_over; [intros; auto|eapply push_bigger; reflexivity|apply fresh_past; exact P0].
  - unfold add_invariant. cbv zeta. apply finish_over; [intros; auto|eapply push_bigger; reflexivity|apply fresh_past; exact P0].
  - unfold add_constant. pose proof (init_expr_kept Sh e s) as Q. destruct (ev (get_init Sh) e s) as [v s1| |]; [|exact Logic.I|exact Q].
    unfold add_constant_value. cbv zeta. apply finish_over; [auto|eapply push_bigger; reflexivity|apply fresh_past, kept_past; exact Q].
  - unfold add_constant_value. cbv zeta. apply finish_over; [auto|eapply push_bigger; reflexivity|apply fresh_past; exact P0].
  - unfold add_interface. destruct (1024 <=? length (cells Sh)); [exact Logic.I|]. cbv zeta.
    set (s2 := w_contrib _ _). assert (P2 : same_past Sh s s2) by (apply (fresh_past Sh s s (length (cells Sh)) VEmpty true) in P0; exact P0).
    match goal with |- built_over _ _ (match ?r with _ => _ end) => assert (Q : keptr s2 r); [|destruct r as [u s3| |]; [|exact Logic.I|exact Q]] end.
    { destruct init; [|apply kept_refl]. apply initialize_one_kept. unfold cell_at. cbn [cells ix_input push_cell]. rewrite nth_snoc_new. discriminate. }
    apply finish_over; [auto|eapply push_bigger; [cbn [cells ix_output ix_input push_cell]; rewrite <- app_assoc; reflexivity|reflexivity|reflexivity]|].
    apply fresh_past. destruct P2 as [A B], Q as [A' B']. split; [congruence|]. intros c t. rewrite B'. apply B.
  - unfold add_interface_value. destruct (1024 <=? length (cells Sh)); [exact Logic.I|]. cbv zeta.
    apply finish_over; [auto|eapply push_bigger; [cbn [cells ix_output ix_input push_cell]; rewrite <- app_assoc; reflexivity|reflexivity|reflexivity]|].
    apply fresh_past. apply (fresh_past Sh s s (length (cells Sh)) v true) in P0. exact P0.
  - unfold add_relation. destruct (find_edges _ _) as [edges ok]. destruct ok; [|exact Logic.I]. split; [|exact P0].
    split; [exists []; now rewrite app_nil_r|]. split; [eexists; reflexivity|auto].
Qed.
(** ** update() *)
Lemma nth_app_old {A} (l ks : list A) c k : nth_error l c = Some k -> nth_error (l ++ ks) c = Some k.
Proof. intros H. rewrite nth_error_app1; [exact H|]. apply nth_error_Some. rewrite H. discriminate. Qed.
Lemma fine_bigger Sh Sh' b s s' : bigger Sh Sh' -> same_past Sh s s' -> fine Sh b s -> fine Sh' b s'.
Proof.
  intros ((ks & Ec) & (rs & Er) & N) [P1 P2] [A B]. split.
  - unfold stack_ok in *. rewrite P1. eapply Forall_impl; [|exact A]. intros [n x] (c & L & F). cbn [fst] in *. exists c. split; [auto|].
    unfold is_ifout, spec_is, cell_at in *. rewrite Ec. destruct (nth_error (cells Sh) c) eqn:K; [|discriminate]. now rewrite (nth_app_old _ ks _ _ K).
  - intros Eb c r j i H. destruct (B Eb c r j i (P2 _ _ H)) as (ns & e & T & L). exists ns, e. split; [|exact L].
    unfold terms_of in *. rewrite Er. destruct (nth_error (rels Sh) r) as [x|] eqn:K; [|destruct j; discriminate].
    now rewrite (nth_app_old _ rs _ _ K).
Qed.

Lemma fine_weaken Sh s b : fine Sh b s -> fine Sh false s.
Proof. intros [A _]. split; [exact A|discriminate]. Qed.
Lemma fine_stack Sh s s' : d_stack s' = d_stack s -> fine Sh false s -> fine Sh false s'.
Proof. intros E [A _]. split; [|discriminate]. unfold stack_ok. rewrite E. exact A. Qed.
(** ** The flow gives a cell a term only if there is one, also when it throws *)
Section FlowTerms.
Variable Sh : sheet.
Variable b : bool.
Hypothesis ST : b = true -> terms_supply Sh.
Definition termsr {A} (r : res A) : Prop :=
  match r with ROk _ s => terms_fine Sh b s | RThrow _ s => terms_fine Sh b s | RUB => True end.
Lemma terms_ext s s' : d_term s' = d_term s -> terms_fine Sh b s -> terms_fine Sh b s'.
Proof. intros E H. unfold terms_fine. rewrite E. exact H. Qed.
Lemma flow_out_terms r j ns0 e : nth_error (terms_of Sh r) j = Some (ns0, e) ->
  forall ns i stk s, i + length ns = length ns0 -> terms_fine Sh b s -> termsr (flow_out Sh r j ns i stk s).
Proof.
  intros T. induction ns as [|n ns IH]; intros i stk s L F; cbn [flow_out]; [exact F|].
  destruct (output_cell Sh n) as [c|]; [|exact Logic.I]. destruct (d_term s c); [exact F|]. destruct (input_of Sh c) as [ci|]; [|exact Logic.I]. cbv zeta. cbn [length] in L.
  set (s1 := dec_count c _). assert (F1 : terms_fine Sh b s1).
  { intros Eb d r' j' i' H. cbn [s1 dec_count d_term w_count w_term] in H. unfold fset in H. destruct (d =? c); [|exact (F Eb d r' j' i' H)].
    injection H as <- <- <-. exists ns0, e. split; [exact T|]. split; [rewrite <- L, <- plus_n_Sm; apply le_n_S, Nat.le_add_r|].
    unfold terms_of in T. destruct (nth_error (rels Sh) r) as [x|] eqn:Hx; [|destruct j; discriminate].
    exact (ST Eb x (ns0, e) (nth_error_In _ _ Hx) (nth_error_In _ _ T)). }
  set (s2 := if linked Sh ci then _ else _). assert (F2 : terms_fine Sh b s2) by (unfold s2; destruct (linked Sh ci); exact F1).
  clearbody s2. destruct (d_count s2 c =? 0)%N; apply IH; try (now rewrite plus_Sn_m, plus_n_Sm); exact F2.
Qed.
Lemma detach_terms : forall ns s, terms_fine Sh b s -> termsr (detach Sh ns s).
Proof.
  induction ns as [|n ns IH]; intros s F; cbn [detach]; [exact F|]. destruct (output_cell Sh n) as [c|]; [|exact Logic.I].
  apply IH. destruct (d_resolved s c); exact F.
Qed.
Lemma flow_rels_terms c : forall rs stk s, terms_fine Sh b s -> termsr (flow_rels Sh c rs stk s).
Proof.
  induction rs as [|r rs IH]; intros stk s F; cbn [flow_rels]; [exact F|]. destruct (d_rres s r); [exact (IH stk s F)|]. cbv zeta.
  destruct (unresolved_terms Sh (dec_count c s) (terms_of Sh r)) as [|j [|? ?]]; [exact F| |exact (IH stk (dec_count c s) F)].
  destruct (nth_error (terms_of Sh r) j) as [[ns e]|] eqn:T; [|exact Logic.I].
  set (s1 := w_rres _ _). pose proof (flow_out_terms r j ns e T ns 0 stk s1 eq_refl F) as Q.
  destruct (flow_out Sh r j ns 0 stk s1) as [stk' s2|x s2|]; [|exact Q|exact Logic.I]. cbn [termsr] in Q.
  pose proof (detach_terms (nodup string_dec (others j 0 (terms_of Sh r))) s2 Q) as Q2.
  destruct (detach Sh _ s2) as [u s3|x s3|]; [exact (IH stk' s3 Q2)|exact Q2|exact Logic.I].
Qed.
Lemma flow_loop_terms : forall f stk s, terms_fine Sh b s -> match flow_loop Sh f stk s with Some r => termsr r | None => True end.
Proof.
  induction f as [|f IH]; intros [|c stk] s F; cbn [flow_loop]; try exact F; [exact Logic.I|]. destruct (d_count s c =? 0)%N; [exact (IH stk s F)|].
  set (s1 := w_resolved _ s). pose proof (flow_rels_terms c (rindex Sh c) stk s1 F) as Q.
  destruct (flow_rels Sh c (rindex Sh c) stk s1) as [stk' s2|x s2|]; [exact (IH stk' s2 Q)|exact Q|exact Logic.I].
Qed.
Lemma flow_terms D s : terms_fine Sh b s -> match flow Sh D s with Some r => termsr r | None => True end.
Proof.
  intros F. unfold flow. cbv zeta. pose proof (flow_loop_terms (flow_fuel Sh (flow_cells Sh s)) (sd_flow D (out_prio Sh s) (flow_cells Sh s)) s F) as Q.
  destruct (flow_loop Sh _ _ s) as [[u s'|x s'|]|]; auto.
Qed.
End FlowTerms.
Lemma fine_any Sh b s : fine Sh true s -> fine Sh b s.
Proof. intros [A B]. split; [exact A|]. intros _. exact (B eq_refl). Qed.
Lemma update_total Sh D l s b : wf Sh -> relations_ok Sh -> sched_ok D -> (b = true -> terms_supply Sh) -> fine Sh false s ->
  match update Sh D l s with
  | None => False
  | Some RUB => b = false
  | Some (RThrow _ s') => fine Sh b s'
  | Some (ROk _ s') => fine Sh b s'
  end.
Proof.
  intros W OK HD Hb [St _]. unfold update.
  assert (F0 : fine Sh true (clear Sh s)) by (split; [exact St|discriminate]).
  pose proof (conditionals_defined Sh true W (rels Sh) 0 (clear Sh s) F0) as C.
  destruct (conditionals Sh (rels Sh) 0 (clear Sh s)) as [u s1|x s1|] eqn:Ec; cbn [defined] in C; [|exact (fine_any _ _ _ C)|discriminate].
  destruct (conditionals_undecided Sh s u s1 W Ec) as [Und _].
  pose proof (flow_result Sh D (w_cond (d_acc s1) s1) OK HD Und) as Fl. pose proof (flow_off Sh D (w_cond (d_acc s1) s1)) as Of.
  pose proof (flow_terms Sh b Hb D (w_cond (d_acc s1) s1) (proj2 (fine_any Sh b s1 C))) as Ft.
  assert (Keep : forall s2, off (w_cond (d_acc s1) s1) s2 -> terms_fine Sh b s2 -> fine Sh b s2).
  { intros s2 (_ & _ & _ & _ & _ & _ & _ & o8 & _) T. split; [|exact T]. exact (proj1 (fine_stack Sh s1 s2 o8 (fine_weaken _ _ _ C))). }
  destruct (flow Sh D (w_cond (d_acc s1) s1)) as [[pa s2|x s2|]|]; [|exact (Keep s2 Of Ft)|contradiction|contradiction]. cbv zeta.
  pose proof (evaluate_all_defined Sh b W (sd_iter D (map snd (output_index Sh))) s2 ltac:(intros d; apply (iter_In D _ d HD)) (Keep s2 Of Ft)) as E.
  destruct (evaluate_all Sh _ s2) as [v s3|x s3|]; cbn [defined] in E; [|exact E|exact E].
  destruct (poisoned (invariant_index Sh) 0%N s3); exact E.
Qed.

(** ** Histories *)
Lemma touch_kept Sh D ns s : kept s (touch Sh D ns s).
Proof.
  unfold touch. generalize (sd_touch D (d_prio s) (flat_map (fun n => match lookup n (input_index Sh) with Some c => [c] | None => [] end) ns)).
  intros l. revert s. induction l as [|c l IH]; intros s; cbn [fold_left]; [apply kept_refl|]. eapply kept_trans; [|apply IH]. now split.
Qed.
Lemma kept_fine Sh b s s' : kept s s' -> fine Sh b s -> fine Sh b s'.
Proof. intros [A B]. now apply fine_ext. Qed.
Lemma bigger_rels Sh Sh' x : bigger Sh Sh' -> In x (rels Sh) -> In x (rels Sh').
Proof. intros (_ & (rs & E) & _) H. rewrite E. apply in_or_app. now left. Qed.
Definition usual (Sh : sheet) : Prop := forall x, In x (rels Sh) -> relation_terms_ok (r_terms x).
Lemma reachable_fine b Sh s : reachable b Sh s -> usual Sh -> terms_supply Sh -> fine Sh true s.
Proof.
  induction 1 as [|b o Sh s Sh' s' R IH E|b Sh s n v u s' R IH E|b Sh s D ns R IH HD|b Sh s D l u s' R IH HD E|b Sh s D l x s' R IH HD E
    |b Sh s D u s' R IH HD E|b Sh s D x s' R IH HD E|b Sh s e v s' R IH E|b Sh s e x s' R IH E]; intros RT ST.
  - split; [constructor|]. intros _ c r j i H. discriminate.
  - pose proof (build_over o Sh s) as Q. rewrite E in Q. destruct Q as [B P]. apply (fine_bigger Sh Sh' true s s' B P). apply IH.
    + intros x Hx. apply RT. eapply bigger_rels; eauto.
    + intros x t Hx. apply ST. eapply bigger_rels; eauto.
  - unfold set_cell in E. destruct (lookup n (input_index Sh)) as [c|]; [|discriminate]. injection E as _ <-.
    apply (kept_fine Sh true s); [|exact (IH RT ST)]. destruct (spec_is Sh _ c); now split.
  - apply (kept_fine Sh true s); [apply touch_kept|exact (IH RT ST)].
  - pose proof (reachable_wf b Sh s R) as W. pose proof (update_total Sh D l s true W (wf_relations Sh W RT) HD (fun _ => ST) (fine_weaken _ _ _ (IH RT ST))) as Q.
    rewrite E in Q. exact Q.
  - pose proof (reachable_wf b Sh s R) as W. pose proof (update_total Sh D l s true W (wf_relations Sh W RT) HD (fun _ => ST) (fine_weaken _ _ _ (IH RT ST))) as Q.
    rewrite E in Q. exact Q.
  - pose proof (reinit_kept Sh (reachable_wf b Sh s R) (sd_iter D (map snd (output_index Sh))) s) as Q. unfold reinitialize in E. rewrite E in Q. exact (kept_fine Sh true s s' Q (IH RT ST)).
  - pose proof (reinit_kept Sh (reachable_wf b Sh s R) (sd_iter D (map snd (output_index Sh))) s) as Q. unfold reinitialize in E. rewrite E in Q. exact (kept_fine Sh true s s' Q (IH RT ST)).
  - pose proof (calc_expr_defined Sh true (reachable_wf b Sh s R) e s (IH RT ST)) as Q. rewrite E in Q. exact Q.
  - pose proof (calc_expr_defined Sh true (reachable_wf b Sh s R) e s (IH RT ST)) as Q. rewrite E in Q. exact Q.
Qed.
