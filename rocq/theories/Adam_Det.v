(** Two updates that decide the same conditions and see the same order of priorities take the same decisions. *)
From Coq Require Import String Permutation Sorted.
From Verif Require Import Prelude Vm_Value Adam_Model Adam_Spec Adam_Flow Adam_Build Adam_Frame Adam_Eval Adam_Quiet Adam_Update Adam_Calm Adam_Solve AdamFlow_Props.
From Coq Require Import List.
Import ListNotations.
Local Open Scope nat_scope.
Ltac Zify.zify_post_hook ::= idtac.

(** *** sorting without ties has one result *)
Lemma sorted_unique (lt : nat -> nat -> Prop) : forall l l', (forall a b, In a l -> In b l -> lt a b -> lt b a -> False) ->
  Permutation l l' -> NoDup l -> StronglySorted lt l -> StronglySorted lt l' -> l = l'.
Proof.
  induction l as [|a l IH]; intros l' As P N S S'.
  - apply Permutation_nil in P. now subst.
  - destruct l' as [|b l']; [now apply Permutation_sym, Permutation_nil in P|].
    inversion S as [|? ? Sl F]; subst. inversion S' as [|? ? Sl' F']; subst. rewrite Forall_forall in F, F'.
    assert (E : a = b).
    { destruct (Nat.eq_dec a b) as [|Ne]; auto. exfalso.
      assert (Ib : In b l). { assert (H : In b (a :: l)) by (apply (Permutation_in _ (Permutation_sym P)); now left). destruct H; [congruence|auto]. }
      assert (Ia : In a l'). { assert (H : In a (b :: l')) by (apply (Permutation_in _ P); now left). destruct H; [congruence|auto]. }
      apply (As a b); [now left|now right|auto|auto]. }
    subst b. f_equal. apply IH; auto.
    + intros x y Hx Hy. apply As; now right.
    + now apply Permutation_cons_inv in P.
    + now inversion N.
Qed.
Lemma sorted_strict (p : nat -> Z) (lt : nat -> nat -> Prop) l : NoDup l -> (forall a b, In a l -> In b l -> a <> b -> (p b <= p a)%Z -> lt a b) ->
  StronglySorted (fun a b => (p b <= p a)%Z) l -> StronglySorted lt l.
Proof.
  intros N H S. induction S as [|a l S IH F]; [constructor|]. inversion N as [|? ? Na Nl]; subst. constructor.
  - apply IH; auto. intros x y Hx Hy. apply H; now right.
  - rewrite Forall_forall in *. intros b Hb. apply H; [now left|now right| |auto]. intros ->. contradiction.
Qed.

(** *** flow *)
Lemma run_ext_all L L' e : (forall x, L x = L' x) -> run L e = run L' e.
Proof. intros H. induction e as [w| |n k IH]; cbn [run]; auto. rewrite H. destruct (L' n); auto. Qed.
Section Det.
Variable Sh : sheet.
(** what flow() reads *)
Definition alike (s t : dyn) : Prop := (forall c, d_term s c = d_term t c) /\ (forall c, d_count s c = d_count t c) /\
  (forall c, d_resolved s c = d_resolved t c) /\ (forall r, d_rres s r = d_rres t r).
Definition alikes {A} (x y : res A) : Prop :=
  match x, y with
  | ROk a s, ROk b t => a = b /\ alike s t
  | RThrow e s, RThrow f t => e = f /\ alike s t
  | RUB, RUB => True
  | _, _ => False
  end.
Lemma alike_dec c s t : alike s t -> alike (dec_count c s) (dec_count c t).
Proof.
  intros (a & b & d & e). unfold alike, dec_count. cbn [d_term d_count d_resolved d_rres w_count]. split; [auto|]. split; [|auto].
  intros x. rewrite !fset_eq, !b. reflexivity.
Qed.
Lemma alike_resolved c v s t : alike s t -> alike (w_resolved (fset (d_resolved s) c v) s) (w_resolved (fset (d_resolved t) c v) t).
Proof.
  intros (a & b & d & e). unfold alike. cbn [d_term d_count d_resolved d_rres w_resolved]. split; [auto|]. split; [auto|]. split; [|auto].
  intros x. rewrite !fset_eq, d. reflexivity.
Qed.
Lemma alike_rres r s t : alike s t -> alike (w_rres (fset (d_rres s) r true) s) (w_rres (fset (d_rres t) r true) t).
Proof.
  intros (a & b & d & e). unfold alike. cbn [d_term d_count d_resolved d_rres w_rres]. split; [auto|]. split; [auto|]. split; [auto|].
  intros x. rewrite !fset_eq, e. reflexivity.
Qed.
Lemma flow_out_det r j : forall ns i stk s t, alike s t -> alikes (flow_out Sh r j ns i stk s) (flow_out Sh r j ns i stk t).
Proof.
  induction ns as [|n ns IH]; intros i stk s t A; cbn [flow_out alikes]; [auto|].
  destruct (output_cell Sh n) as [c|]; [|exact I]. assert (At := A). destruct At as (a & _). rewrite <- a.
  destruct (d_term s c); [cbn [alikes]; auto|]. destruct (input_of Sh c) as [ci|]; [|exact I]. cbv zeta.
  set (s1 := dec_count c (w_term _ s)). set (t1 := dec_count c (w_term _ t)).
  assert (A1 : alike s1 t1).
  { apply alike_dec. destruct A as (b1 & b2 & b3 & b4). unfold alike. cbn [d_term d_count d_resolved d_rres w_term]. split; [|auto].
    intros x. rewrite !fset_eq, b1. reflexivity. }
  set (s2 := if linked Sh ci then _ else s1). set (t2 := if linked Sh ci then _ else t1).
  assert (A2 : alike s2 t2) by (unfold s2, t2; destruct (linked Sh ci); exact A1).
  clearbody s2 t2. assert (Ac := A2). destruct Ac as (_ & ac & _). rewrite <- ac. destruct (d_count s2 c =? 0)%N; apply IH; auto. now apply alike_resolved.
Qed.
Lemma detach_det : forall ns s t, alike s t -> alikes (detach Sh ns s) (detach Sh ns t).
Proof.
  induction ns as [|n ns IH]; intros s t A; cbn [detach alikes]; [auto|].
  destruct (output_cell Sh n) as [c|]; [|exact I]. apply IH. assert (Ar := A). destruct Ar as (_ & _ & ar & _). rewrite <- ar.
  destruct (d_resolved s c); auto. now apply alike_dec.
Qed.
Lemma unresolved_det s t ts : alike s t -> unresolved_terms Sh s ts = unresolved_terms Sh t ts.
Proof.
  intros (_ & _ & a & _). unfold unresolved_terms. apply filter_ext. intros j. destruct (nth_error ts j) as [[ns e]|]; auto. f_equal.
  unfold term_resolved. induction ns as [|n ns IH]; cbn [existsb]; auto. rewrite IH. f_equal. destruct (output_cell Sh n); auto.
Qed.
Lemma flow_rels_det c : forall rs stk s t, alike s t -> alikes (flow_rels Sh c rs stk s) (flow_rels Sh c rs stk t).
Proof.
  induction rs as [|r rs IH]; intros stk s t A; cbn [flow_rels alikes]; [auto|].
  assert (Ar := A). destruct Ar as (_ & _ & _ & ar). rewrite <- ar. destruct (d_rres s r); [auto|]. cbv zeta.
  pose proof (alike_dec c s t A) as A1. rewrite <- (unresolved_det _ _ (terms_of Sh r) A1).
  destruct (unresolved_terms Sh (dec_count c s) (terms_of Sh r)) as [|j [|j' l]]; [cbn [alikes]; auto| |auto].
  destruct (nth_error (terms_of Sh r) j) as [[ns e]|]; [|exact I].
  pose proof (flow_out_det r j ns 0 stk _ _ (alike_rres r _ _ A1)) as F.
  destruct (flow_out Sh r j ns 0 stk _) as [k1 s1|x s1|]; destruct (flow_out Sh r j ns 0 stk (w_rres _ (dec_count c t))) as [k2 t1|y t1|]; cbn [alikes] in F |- *; try contradiction; auto.
  destruct F as [<- F]. pose proof (detach_det (nodup string_dec (others j 0 (terms_of Sh r))) s1 t1 F) as G.
  destruct (detach Sh _ s1) as [[] s2|x s2|]; destruct (detach Sh _ t1) as [[] t2|y t2|]; cbn [alikes] in G |- *; try contradiction; auto.
  destruct G as [_ G]. auto.
Qed.
Lemma flow_loop_det : forall f stk s t, alike s t ->
  match flow_loop Sh f stk s, flow_loop Sh f stk t with Some x, Some y => alikes x y | None, None => True | _, _ => False end.
Proof.
  induction f as [|f IH]; intros [|c stk] s t A; cbn [flow_loop]; try exact I; try (split; [reflexivity|exact A]).
  assert (Ac := A). destruct Ac as (_ & ac & _). rewrite <- ac. destruct (d_count s c =? 0)%N; [apply IH; exact A|].
  pose proof (flow_rels_det c (rindex Sh c) stk _ _ (alike_resolved c true s t A)) as F.
  destruct (flow_rels Sh c (rindex Sh c) stk _) as [k1 s1|x s1|]; destruct (flow_rels Sh c (rindex Sh c) stk (w_resolved _ t)) as [k2 t1|y t1|]; cbn [alikes] in F; try contradiction; try exact F.
  destruct F as [<- F]. apply IH; exact F.
Qed.
Lemma flow_cells_det s t : alike s t -> flow_cells Sh s = flow_cells Sh t.
Proof.
  intros (_ & _ & _ & a). unfold flow_cells. f_equal. induction (seq 0 (length (rels Sh))) as [|r l IH]; cbn [flat_map]; auto. now rewrite IH, a.
Qed.
(** the relations order the same cells in the same way, without ties *)
Definition same_order (s t : dyn) : Prop :=
  forall c d i k, attached Sh c i -> attached Sh d k -> c <> d ->
    ((out_prio Sh s c < out_prio Sh s d)%Z /\ (out_prio Sh t c < out_prio Sh t d)%Z) \/
    ((out_prio Sh s d < out_prio Sh s c)%Z /\ (out_prio Sh t d < out_prio Sh t c)%Z).
Lemma flow_cells_att s c : In c (flow_cells Sh s) -> exists r, attached Sh c r.
Proof.
  unfold flow_cells. rewrite nodup_In, in_flat_map. intros (r & _ & H). exists r. apply att_attached. unfold Adam_Flow2.att.
  destruct (d_rres s r); [destruct H|exact H].
Qed.
Lemma flow_det D D' s t a s' b t' : sched_ok D -> sched_ok D' -> alike s t -> same_order s t ->
  flow Sh D s = Some (ROk a s') -> flow Sh D' t = Some (ROk b t') -> a = b /\ alike s' t'.
Proof.
  intros HD HD' A SO. unfold flow. cbv zeta. rewrite <- (flow_cells_det s t A). set (l := flow_cells Sh s).
  assert (E : sd_flow D (out_prio Sh s) l = sd_flow D' (out_prio Sh t) l).
  { destruct HD as (_ & HD & _). destruct HD' as (_ & HD' & _). destruct (HD (out_prio Sh s) l) as [P1 S1]. destruct (HD' (out_prio Sh t) l) as [P2 S2].
    assert (N : NoDup l) by apply NoDup_nodup.
    assert (N1 : NoDup (sd_flow D (out_prio Sh s) l)) by (apply (Permutation_NoDup (Permutation_sym P1)); exact N).
    assert (N2 : NoDup (sd_flow D' (out_prio Sh t) l)) by (apply (Permutation_NoDup (Permutation_sym P2)); exact N).
    apply (sorted_unique (fun x y => (out_prio Sh s y < out_prio Sh s x)%Z)).
    - intros x y _ _ H1 H2. lia.
    - rewrite P1. now symmetry.
    - exact N1.
    - apply (sorted_strict (out_prio Sh s)); [exact N1| |exact S1]. intros x y Hx Hy Hxy H.
      apply (Permutation_in _ P1) in Hx, Hy. destruct (flow_cells_att s x Hx) as (r & Ax). destruct (flow_cells_att s y Hy) as (q & Ay).
      destruct (SO x y r q Ax Ay Hxy) as [[B _]|[B _]]; lia.
    - apply (sorted_strict (out_prio Sh t)); [exact N2| |exact S2]. intros x y Hx Hy Hxy H.
      apply (Permutation_in _ P2) in Hx, Hy. destruct (flow_cells_att s x Hx) as (r & Ax). destruct (flow_cells_att s y Hy) as (q & Ay).
      destruct (SO x y r q Ax Ay Hxy) as [[B1 B2]|[B1 B2]]; lia. }
  rewrite <- E. pose proof (flow_loop_det (flow_fuel Sh l) (sd_flow D (out_prio Sh s) l) s t A) as F.
  destruct (flow_loop Sh (flow_fuel Sh l) (sd_flow D (out_prio Sh s) l) s) as [[u s1|x s1|]|]; try discriminate.
  destruct (flow_loop Sh (flow_fuel Sh l) (sd_flow D (out_prio Sh s) l) t) as [[v t1|x t1|]|]; try discriminate.
  cbn [alikes] in F. destruct F as [_ F]. intros [= <- <-] [= <- <-]. auto.
Qed.

(** *** the conditions *)
Definition T0 (_ : nat) : option (nat * nat * nat) := None.
Lemma acyclic_T0 T rank : acyclic_by Sh T rank -> acyclic_by Sh T0 rank.
Proof.
  intros AC n c m L H. apply (AC n c m L). destruct H as [H|(r & j & i & x & ms & e & Ht & _)]; [now left|discriminate].
Qed.
Lemma once_T0 : self_once Sh T0. Proof. intros c k e _ _ H. now destruct H. Qed.
Lemma waits_T0 s : waits Sh T0 s. Proof. intros c t H. discriminate. Qed.
Lemma conditionals_out : forall rs r s u s1, conditionals Sh rs r s = ROk u s1 ->
  forall q, r + length rs <= q -> d_rres s1 q = d_rres s q.
Proof.
  induction rs as [|x rs IH]; intros r s u s1; cbn [conditionals length]; [intros [= _ <-]; auto|].
  destruct (r_cond x) as [e|]; [|intros H q Hq; apply (IH _ _ _ _ H); lia].
  pose proof (calc_expr_frame Sh e s) as F. destruct (calc_expr Sh e s) as [v s2|y s2|]; try discriminate. cbn [keeps] in F.
  destruct F as (_ & _ & _ & _ & _ & _ & F & _).
  destruct v as [|[|]| | | | | | |]; try discriminate.
  - intros H q Hq. rewrite <- F. apply (IH _ _ _ _ H q). lia.
  - cbv zeta. intros H q Hq. rewrite (IH _ _ _ _ H q) by lia. cbn [d_rres w_rres].
    pose proof (fold_dec_other (r_edges x) s2) as Fo. cbv zeta in Fo. rewrite Fo. cbn [d_rres w_count]. rewrite F, fset_other by lia. reflexivity.
Qed.
Lemma conditions_forced rank s u s1 : wf Sh -> calm Sh s -> acyclic_by Sh T0 rank -> conditionals Sh (rels Sh) 0 (clear Sh s) = ROk u s1 ->
  solves Sh T0 (d_state s) (value_of Sh s1) /\ decided Sh T0 (d_state s) (rels Sh) 0 s1.
Proof.
  intros W [St B] AC E.
  pose proof (clear_cons Sh T0 (d_state s) s s1 eq_refl B (waits_T0 s1)) as C0.
  destruct (conditionals_ok Sh W T0 (d_state s) rank AC once_T0 _ (conditions_top Sh rank) (rels Sh) 0 (clear Sh s) u s1 (fun i => eq_refl) (clear_pending Sh s) C0 St E (waits_T0 s1))
    as (C1 & _ & _ & De & _).
  split; [|exact De]. intros n v H. unfold value_of in H. destruct (lookup n (name_index Sh)) as [c|] eqn:L; [|discriminate].
  destruct (d_evaluated s1 c) eqn:Ev; [|discriminate]. injection H as <-. exists c. split; [reflexivity|]. exact (C_def _ _ _ _ _ C1 n c L Ev).
Qed.
(** the inputs of [t] are those of [s] wherever [b] says so, and those that are not interface cells *)
Definition same_inputs (b : N) (s t : dyn) : Prop :=
  (forall c, is_leaf Sh c = true -> d_state t c = d_state s c) /\ (forall i, testb b i = true -> d_state t i = d_state s i).
Lemma same_conditions rank s t s1 t1 : wf Sh -> calm Sh s -> calm Sh t -> acyclic_by Sh T0 rank ->
  conditionals Sh (rels Sh) 0 (clear Sh s) = ROk tt s1 -> conditionals Sh (rels Sh) 0 (clear Sh t) = ROk tt t1 ->
  same_inputs (d_acc s1) s t -> forall r, d_rres s1 r = d_rres t1 r.
Proof.
  intros W Cs Ct AC Es Et A r. destruct (conditions_forced rank s tt s1 W Cs AC Es) as [_ Ds]. destruct (conditions_forced rank t tt t1 W Ct AC Et) as [St Dt].
  destruct (nth_error (rels Sh) r) as [x|] eqn:Hx.
  - specialize (Ds r x Hx). specialize (Dt r x Hx). cbn [Nat.add] in Ds, Dt. destruct (r_cond x) as [e|]; [|congruence].
    destruct Ds as (b & _ & D2 & D3), Dt as (b' & E1 & E2 & _). specialize (D3 (d_state t) (value_of Sh t1) A St (VBool b') E1). congruence.
  - apply nth_error_None in Hx. rewrite (conditionals_out _ _ _ _ _ Es r), (conditionals_out _ _ _ _ _ Et r) by lia. reflexivity.
Qed.
Lemma def_value_T T T' inp val c : (forall c, T c = T' c) -> def_value Sh T inp val c = def_value Sh T' inp val c.
Proof.
  intros E. unfold def_value. destruct (nth_error (cells Sh) c) as [k|]; auto.
  assert (Eo : forall n i, own_value Sh T inp val n c i = own_value Sh T' inp val n c i) by (intros; unfold own_value; now rewrite E).
  destruct (c_spec k); auto. destruct (c_in k) as [i|]; auto. destruct (c_calc k); auto.
  apply run_ext_all. intros x. now rewrite Eo.
Qed.
End Det.
