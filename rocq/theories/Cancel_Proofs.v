From Verif Require Import Prelude Cancel_Model Cancel_Spec.
From Coq Require Import List Arith Lia Permutation Bool.
Import ListNotations.
Ltac Zify.zify_post_hook ::= idtac.

Lemma runs_app a b : runs (a ++ b) = runs a ++ runs b. Proof. apply flat_map_app. Qed.
Lemma registered_app a b : registered (a ++ b) = registered a ++ registered b. Proof. apply flat_map_app. Qed.
Lemma deregistered_app a b : deregistered (a ++ b) = deregistered a ++ deregistered b. Proof. apply flat_map_app. Qed.
Lemma view_snoc l e : view_of (l ++ [e]) = v_step (view_of l) e. Proof. unfold view_of. now rewrite fold_left_app. Qed.

Definition owing (k : call) : list cb := match k with KCalling l => map snd l | KCallNow _ c => [c] | _ => [] end.
Definition asking (k : call) : list cb := match k with KRegister _ c => [c] | _ => [] end.
Definition call_ok (s : st) (k : call) : Prop :=
  match k with
  | KCalling _ | KCallNow _ _ => canceled s = true
  | KDeregister c tok => In (ERegister c tok) (log s)
  | _ => True
  end.
Record inv (s : st) : Prop := {
  i_flag : canceled s = v_canceled (view_of (log s));
  i_empty : canceled s = true -> cbs s = [];
  i_new : NoDup (registered (log s) ++ flat_map asking (calls s));
  i_next : forall c, In c (registered (log s) ++ flat_map asking (calls s)) -> c < next s;
  i_all : exists dropped, Permutation (registered (log s)) (runs (log s) ++ map snd (cbs s) ++ flat_map owing (calls s) ++ dropped);
  i_addr : NoDup (in_use s);
  i_calls : Forall (call_ok s) (calls s) }.

Lemma flag_iff l : v_canceled (view_of l) = true <-> In ECancel l.
Proof.
  induction l as [|e l IH] using rev_ind; [cbn; split; [discriminate|contradiction]|]. rewrite view_snoc, in_app_iff. destruct e; cbn [v_step].
  - assert (X : v_canceled (if v_canceled (view_of l) then mk_view true (v_live (view_of l)) (v_owed (view_of l) ++ [c]) else mk_view false (c :: v_live (view_of l)) (v_owed (view_of l))) = v_canceled (view_of l)) by (destruct (v_canceled (view_of l)); reflexivity).
    rewrite X. cbn. intuition discriminate.
  - cbn. intuition discriminate.
  - split; [cbn; tauto|]. destruct (v_canceled (view_of l)) eqn:E; auto.
  - cbn. intuition discriminate.
  - cbn. intuition discriminate.
Qed.

Lemma flat_mid {A} (f : call -> list A) x k y : flat_map f (x ++ k :: y) = flat_map f x ++ f k ++ flat_map f y.
Proof. rewrite flat_map_app. reflexivity. Qed.
Lemma perm_mid {A} (f : call -> list A) x k y : Permutation (flat_map f (x ++ k :: y)) (f k ++ flat_map f (x ++ y)).
Proof. rewrite flat_mid, flat_map_app, !app_assoc. apply Permutation_app_tail, Permutation_app_comm. Qed.
Lemma Forall_mid {A} (P : A -> Prop) x k y : Forall P (x ++ k :: y) <-> P k /\ Forall P (x ++ y).
Proof. rewrite !Forall_app, Forall_cons_iff. tauto. Qed.
Lemma call_ok_mono s s' k : call_ok s k -> (canceled s = true -> canceled s' = true) -> (forall e, In e (log s) -> In e (log s')) -> call_ok s' k.
Proof. destruct k; cbn; auto. Qed.
Lemma calls_ok_mono s s' l : Forall (call_ok s) l -> (canceled s = true -> canceled s' = true) -> (forall e, In e (log s) -> In e (log s')) -> Forall (call_ok s') l.
Proof. intros H A B. eapply Forall_impl; [|exact H]. intros k K. eapply call_ok_mono; eauto. Qed.

Lemma deregister_perm t l : Permutation l (deregister_section t l) \/ exists a c, Permutation l ((a, c) :: deregister_section t l).
Proof.
  induction l as [|[a c] l IH]; cbn; [now left|]. destruct (a =? t); [right; exists a, c; reflexivity|].
  destruct IH as [IH|(a' & c' & IH)]; [left; now rewrite <- IH|]. right. exists a', c'. rewrite IH at 1. apply perm_swap.
Qed.
Lemma deregister_gone t l : NoDup (map fst l) -> forall c, In (t, c) l -> NoDup (map snd l) ->
  map snd (deregister_section t l) = remove Nat.eq_dec c (map snd l) /\ forall a' c', c' <> c -> In (a', c') l -> In (a', c') (deregister_section t l).
Proof.
  induction l as [|[a d] l IH]; intros N c H M; [destruct H|]. cbn in N, M |- *. apply NoDup_cons_iff in N as [N1 N2]. apply NoDup_cons_iff in M as [M1 M2]. destruct H as [E|H].
  - injection E as -> ->. rewrite Nat.eqb_refl. destruct (Nat.eq_dec c c); [|contradiction]. split; [symmetry; now apply notin_remove|]. intros a' c' X [Y|Y]; [congruence|exact Y].
  - destruct (Nat.eqb_spec a t) as [-> |Na]; [destruct N1; apply in_map_iff; exists (t, c); auto|]. destruct (IH N2 c H M2) as [A B].
    destruct (Nat.eq_dec c d) as [<- |Nd]; [destruct M1; apply in_map_iff; exists (t, c); auto|]. cbn. rewrite A. split; [reflexivity|]. intros a' c' X [Y|Y]; [now left|right; auto].
Qed.
Lemma deregister_incl t l x : In x (deregister_section t l) -> In x l.
Proof. induction l as [|[a c] l IH]; cbn; [auto|]. destruct (a =? t); [now right|]. intros [H|H]; auto. Qed.
Lemma NoDup_perm {A} (l l' : list A) : Permutation l l' -> NoDup l -> NoDup l'.
Proof. apply Permutation_NoDup. Qed.
Lemma NoDup_app_r {A} (a b : list A) : NoDup (a ++ b) -> NoDup b.
Proof. induction a; cbn; [auto|]. intros H. apply NoDup_cons_iff in H as [_ H]. auto. Qed.
Lemma NoDup_app_l {A} (a b : list A) : NoDup (a ++ b) -> NoDup a.
Proof. intros H. eapply NoDup_app_r, Permutation_NoDup; [apply Permutation_app_comm|exact H]. Qed.

Lemma inv_start : inv start.
Proof. split; cbn; try constructor; auto; try contradiction. exists []. constructor. Qed.

Ltac perm_tac := cbn [app] in *; repeat rewrite ?app_nil_r, <- ?app_assoc in *; cbn [app] in *.
Lemma inv_step m s s' : inv s -> step m s s' -> inv s'.
Proof.
  intros I H. destruct I as [If Ie In_ Ix (dr & Ia) Id Ic].
  destruct H as [s|s|s a N|s c tok HR|s x y E C|s x y E C|s x y a c l E|s x y E|s x y a c E C|s x y a c E C|s x y a c b E|s x y c tok E|s x y E|s x y a c l E].
  - split; cbn [canceled cbs calls next log flat_map asking owing]; eauto. constructor; [exact I|]. eapply calls_ok_mono; eauto.
  - split; cbn [canceled cbs calls next log flat_map asking owing]; eauto. constructor; [exact I|]. eapply calls_ok_mono; eauto.
  - split; cbn [canceled cbs calls next log flat_map asking owing]; eauto.
    + apply (NoDup_perm (next s :: registered (log s) ++ flat_map asking (calls s))); [apply Permutation_middle|]. constructor; [|exact In_]. intros X. apply Ix in X. lia.
    + intros c H. apply in_app_iff in H as [H|[<- |H]]; [|lia|]; (assert (c < next s) by (apply Ix, in_app_iff; auto)); lia.
    + unfold in_use in *. cbn [cbs calls flat_map held]. cbn [app].
      apply (NoDup_perm (a :: map fst (cbs s ++ flat_map held (calls s)))); [|now constructor]. rewrite !map_app. cbn [map fst]. apply Permutation_middle.
    + constructor; [exact I|]. eapply calls_ok_mono; eauto.
  - split; cbn [canceled cbs calls next log flat_map asking owing]; eauto; (constructor; [exact HR|eapply calls_ok_mono; eauto]).
  - rewrite E in *. rewrite Forall_mid in Ic. split; cbn [canceled cbs calls next log]; auto.
    + rewrite view_snoc. cbn [v_step]. rewrite <- If, C. reflexivity.
    + rewrite registered_app. cbn. rewrite app_nil_r. rewrite flat_mid in *. exact In_.
    + rewrite registered_app. cbn. rewrite app_nil_r. rewrite flat_mid in *. exact Ix.
    + exists dr. rewrite registered_app, runs_app. cbn. rewrite !app_nil_r. rewrite Ia. apply Permutation_app_head. rewrite (perm_mid owing), (perm_mid owing). cbn [owing app]. now rewrite <- !app_assoc.
    + unfold in_use in *. cbn [cbs calls]. rewrite E in Id. apply (NoDup_perm (map fst (cbs s ++ flat_map held (x ++ KCancel :: y)))); [|exact Id]. apply Permutation_map. rewrite (perm_mid held), (perm_mid held). cbn. reflexivity.
    + rewrite Forall_mid. split; [reflexivity|]. eapply calls_ok_mono; [apply Ic|reflexivity|]. cbn. intros e He. apply in_app_iff. auto.
  - rewrite E in *. rewrite Forall_mid in Ic. split; cbn [canceled cbs calls next log]; auto.
    + rewrite view_snoc. cbn [v_step]. rewrite C in If. rewrite <- If. exact If.
    + rewrite registered_app. cbn. rewrite app_nil_r. rewrite flat_mid in In_. now rewrite flat_map_app.
    + rewrite registered_app. cbn. rewrite app_nil_r. rewrite flat_mid in Ix. now rewrite flat_map_app.
    + exists dr. rewrite registered_app, runs_app. cbn. rewrite !app_nil_r. rewrite Ia. apply Permutation_app_head. rewrite (perm_mid owing). reflexivity.
    + unfold in_use in *. cbn [cbs calls]. rewrite E in Id. apply (NoDup_perm (map fst (cbs s ++ flat_map held (x ++ KCancel :: y)))); [|exact Id]. apply Permutation_map. rewrite (perm_mid held). cbn. reflexivity.
    + eapply calls_ok_mono; [apply Ic|reflexivity|]. cbn. intros e He. apply in_app_iff. auto.
  - rewrite E in *. rewrite Forall_mid in Ic. split; cbn [canceled cbs calls next log]; auto.
    + rewrite view_snoc. exact If.
    + rewrite registered_app. cbn. rewrite app_nil_r. rewrite flat_mid in *. exact In_.
    + rewrite registered_app. cbn. rewrite app_nil_r. rewrite flat_mid in *. exact Ix.
    + exists dr. rewrite registered_app, runs_app. cbn. rewrite !app_nil_r. rewrite Ia, <- !app_assoc. apply Permutation_app_head. rewrite (perm_mid owing), (perm_mid owing). cbn [owing map snd app]. symmetry. apply Permutation_middle.
    + unfold in_use in *. cbn [cbs calls]. rewrite E in Id. apply (NoDup_app_r [a]). apply (NoDup_perm (map fst (cbs s ++ flat_map held (x ++ KCalling ((a, c) :: l) :: y)))); [|exact Id].
      cbn [app]. apply (Permutation_map fst (l := _) (l' := (a, c) :: cbs s ++ flat_map held (x ++ KCalling l :: y))). rewrite (perm_mid held), (perm_mid held). cbn [held app]. symmetry. apply Permutation_middle.
    + rewrite Forall_mid. split; [apply Ic|]. eapply calls_ok_mono; [apply Ic|auto|]. cbn. intros e He. apply in_app_iff. auto.
  - rewrite E in *. rewrite Forall_mid in Ic. split; cbn [canceled cbs calls next log]; auto.
    + rewrite flat_mid in In_. now rewrite flat_map_app.
    + rewrite flat_mid in Ix. now rewrite flat_map_app.
    + exists dr. rewrite Ia. apply Permutation_app_head. rewrite (perm_mid owing). reflexivity.
    + unfold in_use in *. cbn [cbs calls]. rewrite E in Id. rewrite flat_mid in Id. now rewrite flat_map_app.
    + eapply calls_ok_mono; [apply Ic|auto|auto].
  - rewrite E in *. rewrite Forall_mid in Ic. split; cbn [canceled cbs calls next log register_section fst snd]; auto.
    + rewrite view_snoc. cbn [v_step]. now rewrite <- If, C.
    + intros X; discriminate.
    + rewrite registered_app. cbn. apply (NoDup_perm (registered (log s) ++ flat_map asking (x ++ KRegister a c :: y))); [|exact In_]. rewrite <- app_assoc. apply Permutation_app_head. rewrite (perm_mid asking). reflexivity.
    + rewrite registered_app. cbn. intros d D. apply Ix. rewrite <- app_assoc in D. apply in_app_iff in D as [D|D]; apply in_app_iff; [now left|right]. rewrite (perm_mid asking). exact D.
    + exists dr. rewrite registered_app, runs_app. cbn. rewrite app_nil_r. rewrite Ia, (perm_mid owing). cbn [owing app]. rewrite <- Permutation_cons_append. apply Permutation_middle.
    + unfold in_use in *. cbn [cbs calls]. rewrite E in Id. apply (NoDup_perm (map fst (cbs s ++ flat_map held (x ++ KRegister a c :: y)))); [|exact Id]. apply Permutation_map. rewrite (perm_mid held). cbn [held app]. symmetry. apply Permutation_middle.
    + eapply calls_ok_mono; [apply Ic| |]; cbn; [rewrite C; discriminate|]. intros e He. apply in_app_iff. auto.
  - rewrite E in *. rewrite Forall_mid in Ic. split; cbn [canceled cbs calls next log]; auto.
    + rewrite view_snoc. cbn [v_step]. now rewrite <- If, C.
    + rewrite registered_app. cbn. apply (NoDup_perm (registered (log s) ++ flat_map asking (x ++ KRegister a c :: y))); [|exact In_]. rewrite <- app_assoc. apply Permutation_app_head. rewrite (perm_mid asking), (perm_mid asking). reflexivity.
    + rewrite registered_app. cbn. intros d D. apply Ix. rewrite <- app_assoc in D. apply in_app_iff in D as [D|D]; apply in_app_iff; [now left|right]. rewrite (perm_mid asking) in D |- *. exact D.
    + exists dr. rewrite registered_app, runs_app. cbn. rewrite app_nil_r. rewrite Ia, (perm_mid owing), (perm_mid owing). cbn [owing app]. rewrite <- Permutation_cons_append. rewrite Permutation_middle. apply Permutation_app_head. apply Permutation_middle.
    + unfold in_use in *. cbn [cbs calls]. rewrite E in Id. rewrite flat_mid in *. exact Id.
    + rewrite Forall_mid. split; [reflexivity|]. eapply calls_ok_mono; [apply Ic|reflexivity|]. cbn. intros e He. apply in_app_iff. auto.
  - rewrite E in *. rewrite Forall_mid in Ic. split; cbn [canceled cbs calls next log]; auto.
    + rewrite view_snoc. exact If.
    + rewrite registered_app. cbn. rewrite app_nil_r. rewrite flat_mid in In_. now rewrite flat_map_app.
    + rewrite registered_app. cbn. rewrite app_nil_r. rewrite flat_mid in Ix. now rewrite flat_map_app.
    + exists dr. rewrite registered_app, runs_app. cbn. rewrite !app_nil_r. rewrite Ia, <- !app_assoc. apply Permutation_app_head. rewrite (perm_mid owing). cbn [owing app]. symmetry. apply Permutation_middle.
    + unfold in_use in *. cbn [cbs calls]. rewrite E in Id. apply (NoDup_app_r [a]). apply (NoDup_perm (map fst (cbs s ++ flat_map held (x ++ KCallNow a c :: y)))); [|exact Id].
      cbn [app]. apply (Permutation_map fst (l := _) (l' := (a, c) :: cbs s ++ flat_map held (x ++ y))). rewrite (perm_mid held). cbn [held app]. symmetry. apply Permutation_middle.
    + eapply calls_ok_mono; [apply Ic|auto|]. cbn. intros e He. apply in_app_iff. auto.
  - rewrite E in *. rewrite Forall_mid in Ic. 
    assert (D : Permutation (cbs s) (match tok with Some t => deregister_section t (cbs s) | None => cbs s end) \/ exists a' c', Permutation (cbs s) ((a', c') :: match tok with Some t => deregister_section t (cbs s) | None => cbs s end)) by (destruct tok; [apply deregister_perm|left; reflexivity]).
    set (cbs' := match tok with Some t => deregister_section t (cbs s) | None => cbs s end) in *.
    split; cbn [canceled cbs calls next log]; auto.
    + rewrite view_snoc. exact If.
    + intros T. specialize (Ie T). rewrite Ie in D. destruct D as [D|(a' & c' & D)]; [now apply Permutation_nil in D|]. apply Permutation_nil in D. discriminate.
    + rewrite registered_app. cbn. rewrite app_nil_r. rewrite flat_mid in In_. now rewrite flat_map_app.
    + rewrite registered_app. cbn. rewrite app_nil_r. rewrite flat_mid in Ix. now rewrite flat_map_app.
    + rewrite registered_app, runs_app. cbn. rewrite !app_nil_r. rewrite (perm_mid owing) in Ia. cbn [owing app] in Ia. destruct D as [D|(a' & c' & D)].
      * exists dr. rewrite Ia. apply Permutation_app_head. apply Permutation_app_tail. now apply Permutation_map.
      * exists (c' :: dr). rewrite Ia. apply Permutation_app_head. rewrite (Permutation_map snd D). cbn [map snd app]. rewrite <- Permutation_middle. rewrite <- Permutation_middle. reflexivity.
    + unfold in_use in *. cbn [cbs calls]. rewrite E in Id. rewrite flat_mid in Id. cbn [held app] in Id. rewrite <- flat_map_app in Id. destruct D as [D|(a' & c' & D)].
      * eapply NoDup_perm; [|exact Id]. apply Permutation_map. now apply Permutation_app_tail.
      * apply (NoDup_app_r [a']). eapply NoDup_perm; [|exact Id]. cbn [app]. apply (Permutation_map fst (l' := (a', c') :: cbs' ++ flat_map held (x ++ y))). rewrite D. reflexivity.
    + eapply calls_ok_mono; [apply Ic|auto|]. cbn. intros e He. apply in_app_iff. auto.
  - rewrite E in *. rewrite Forall_mid in Ic. split; cbn [canceled cbs calls next log]; auto.
    + rewrite view_snoc. exact If.
    + rewrite registered_app. cbn. rewrite app_nil_r. rewrite flat_mid in In_. now rewrite flat_map_app.
    + rewrite registered_app. cbn. rewrite app_nil_r. rewrite flat_mid in Ix. now rewrite flat_map_app.
    + exists dr. rewrite registered_app, runs_app. cbn. rewrite !app_nil_r. rewrite Ia. apply Permutation_app_head. rewrite (perm_mid owing). reflexivity.
    + unfold in_use in *. cbn [cbs calls]. rewrite E in Id. rewrite flat_mid in Id. now rewrite flat_map_app.
    + eapply calls_ok_mono; [apply Ic|auto|]. cbn. intros e He. apply in_app_iff. auto.
  - rewrite E in *. rewrite Forall_mid in Ic. split; cbn [canceled cbs calls next log]; auto.
    + rewrite view_snoc. exact If.
    + rewrite registered_app. cbn. rewrite app_nil_r. rewrite flat_mid in In_. now rewrite flat_map_app.
    + rewrite registered_app. cbn. rewrite app_nil_r. rewrite flat_mid in Ix. now rewrite flat_map_app.
    + exists (map snd l ++ dr). rewrite registered_app, runs_app. cbn. rewrite !app_nil_r. rewrite Ia, <- !app_assoc. apply Permutation_app_head. rewrite (perm_mid owing). cbn [owing map snd app].
      rewrite <- Permutation_middle. apply perm_skip. rewrite !app_assoc. apply Permutation_app_tail. rewrite <- !app_assoc. apply Permutation_app_head. apply Permutation_app_comm.
    + unfold in_use in *. cbn [cbs calls]. rewrite E in Id. apply (NoDup_app_r (map fst ((a, c) :: l))). apply (NoDup_perm (map fst (cbs s ++ flat_map held (x ++ KCalling ((a, c) :: l) :: y)))); [|exact Id].
      rewrite <- map_app. apply Permutation_map. rewrite (perm_mid held). cbn [held]. rewrite !app_assoc. apply Permutation_app_tail. apply Permutation_app_comm.
    + eapply calls_ok_mono; [apply Ic|auto|]. cbn. intros e He. apply in_app_iff. auto.
Qed.
Lemma inv_reachable s : reachable s -> inv s.
Proof. induction 1; [apply inv_start|eapply inv_step; eauto]. Qed.

(** ** the second invariant, while every deregistration is of a callback registered alone *)
Definition alone_at (c : cb) (tok : option addr) (l : list event) : Prop := exists l1 l2, l = l1 ++ ERegister c tok :: l2 /\ live l1 = [].
Record inv2 (s : st) : Prop := {
  j_live : map snd (cbs s) = live (log s);
  j_owed : Permutation (owed (log s)) (runs (log s) ++ flat_map owing (calls s));
  j_tok : forall c tok, alone_at c tok (log s) -> ~ In c (deregistered (log s)) -> canceled s = false -> exists a, tok = Some a /\ In (a, c) (cbs s) }.

Lemma snoc_split {A} (l l1 l2 : list A) e x : l ++ [e] = l1 ++ x :: l2 -> (l2 = [] /\ e = x /\ l = l1) \/ exists l3, l2 = l3 ++ [e] /\ l = l1 ++ x :: l3.
Proof.
  intros E. destruct l2 as [|y l2].
  - left. apply app_inj_tail in E as [-> ->]. auto.
  - right. destruct (@exists_last _ (y :: l2) ltac:(discriminate)) as (l3 & z & E2). rewrite E2 in *. rewrite app_comm_cons, app_assoc in E. apply app_inj_tail in E as [-> ->]. exists l3. auto.
Qed.
Lemma alone_snoc c tok l e : alone_at c tok (l ++ [e]) -> (e = ERegister c tok /\ live l = []) \/ alone_at c tok l.
Proof.
  intros (l1 & l2 & E & L). apply snoc_split in E as [(-> & -> & ->)|(l3 & -> & ->)]; [left; auto|right]. exists l1, l3. auto.
Qed.
Lemma deregistered_registered s : reachable s -> forall c, (In c (deregistered (log s)) -> In c (registered (log s))).
Proof.
  intros R. assert (I := inv_reachable s R). revert I. induction R as [|m s s' R IH H]; intros I c; [intros []|]. assert (I0 := inv_reachable s R). specialize (IH I0).
  destruct H as [s|s|s a N|s d tok HR|s x y E C|s x y E C|s x y a d l E|s x y E|s x y a d E C|s x y a d E C|s x y a d b E|s x y d tok E|s x y E|s x y a d l E]; cbn [log]; auto;
    rewrite deregistered_app, registered_app, !in_app_iff; cbn; intros [X|X]; try (left; now apply IH); try tauto.
  destruct X as [<- |[]]. left. assert (K := i_calls _ I0). rewrite E, Forall_mid in K. destruct K as [K _]. cbn in K. apply in_flat_map. exists (ERegister d tok). split; [exact K|now left].
Qed.
Lemma register_in c tok l : In (ERegister c tok) l -> In c (registered l).
Proof. intros H. apply in_flat_map. exists (ERegister c tok). split; [exact H|now left]. Qed.
Lemma register_once l c t1 t2 : NoDup (registered l) -> In (ERegister c t1) l -> In (ERegister c t2) l -> t1 = t2.
Proof.
  induction l as [|e l IH]; [contradiction|]. intros N [A|A] [B|B].
  - congruence.
  - subst e. cbn in N. apply NoDup_cons_iff in N as [N _]. destruct N. eapply register_in, B.
  - subst e. cbn in N. apply NoDup_cons_iff in N as [N _]. destruct N. eapply register_in, A.
  - apply IH; auto. change (e :: l) with ([e] ++ l) in N. rewrite registered_app in N. eapply NoDup_app_r, N.
Qed.
Lemma alone_prefix l e : deregistered_alone (l ++ [e]) -> (forall c, In c (deregistered l) -> In c (registered l)) -> NoDup (registered (l ++ [e])) -> deregistered_alone l.
Proof.
  intros [N H] R M. rewrite deregistered_app in N, H. split; [eapply NoDup_app_l, N|]. intros c D. destruct (H c) as (l1 & tok & l2 & E & L); [apply in_app_iff; auto|].
  apply snoc_split in E as [(-> & -> & ->)|(l3 & -> & ->)]; [|exists l1, tok, l3; auto].
  exfalso. rewrite registered_app in M. cbn in M. apply NoDup_remove_2 in M. apply M. rewrite app_nil_r. auto.
Qed.

Lemma inv2_step m s s' : reachable s -> inv2 s -> step m s s' -> deregistered_alone (log s') -> nothing_thrown (log s') -> inv2 s'.
Proof.
  intros R [Jl Jo Jt] H F NT. assert (I := inv_reachable s R). assert (I' := inv_step m s s' I H).
  assert (DR := deregistered_registered s R).
  destruct H as [s|s|s a N|s c tok HR|s x y E C|s x y E C|s x y a c l E|s x y E|s x y a c E C|s x y a c E C|s x y a c b E|s x y c tok E|s x y E|s x y a c l E].
  - split; cbn [canceled cbs calls next log flat_map owing]; auto.
  - split; cbn [canceled cbs calls next log flat_map owing]; auto.
  - split; cbn [canceled cbs calls next log flat_map owing]; auto.
  - split; cbn [canceled cbs calls next log flat_map owing]; auto.
  - assert (V : view_of (log s ++ [ECancel]) = mk_view true [] (v_owed (view_of (log s)) ++ v_live (view_of (log s)))) by (rewrite view_snoc; cbn [v_step]; rewrite <- (i_flag _ I), C; reflexivity).
    split; cbn [canceled cbs calls next log]; [unfold live; now rewrite V| |discriminate].
    unfold owed. rewrite V. cbn [v_owed]. fold (owed (log s)) (live (log s)). rewrite Jo, <- Jl, E, runs_app. cbn [runs flat_map]. rewrite app_nil_r, <- app_assoc. apply Permutation_app_head. rewrite (perm_mid owing), (perm_mid owing). cbn [owing app]. apply Permutation_app_comm.
  - assert (V : view_of (log s ++ [ECancel]) = view_of (log s)) by (rewrite view_snoc; cbn [v_step]; rewrite <- (i_flag _ I), C; reflexivity).
    split; cbn [canceled cbs calls next log]; [unfold live; now rewrite V| |discriminate].
    unfold owed. rewrite V. fold (owed (log s)). rewrite Jo, E, runs_app. cbn [runs flat_map]. rewrite app_nil_r. apply Permutation_app_head. now rewrite (perm_mid owing).
  - assert (V : view_of (log s ++ [ERun c false]) = view_of (log s)) by (now rewrite view_snoc).
    assert (T := i_calls _ I). rewrite E, Forall_mid in T. destruct T as [T _]. cbn in T.
    split; cbn [canceled cbs calls next log]; [unfold live; now rewrite V| |rewrite T; discriminate].
    unfold owed. rewrite V. fold (owed (log s)). rewrite Jo, E, runs_app. cbn [runs flat_map]. rewrite <- app_assoc. apply Permutation_app_head. rewrite (perm_mid owing), (perm_mid owing). reflexivity.
  - assert (T := i_calls _ I). rewrite E, Forall_mid in T. destruct T as [T _]. cbn in T.
    split; cbn [canceled cbs calls next log]; [auto| |rewrite T; discriminate].
    rewrite Jo, E. apply Permutation_app_head. now rewrite (perm_mid owing).
  - assert (V : view_of (log s ++ [ERegister c (snd (register_section s a c))]) = mk_view false (c :: v_live (view_of (log s))) (v_owed (view_of (log s)))) by (rewrite view_snoc; cbn [v_step]; rewrite <- (i_flag _ I), C; reflexivity).
    split; cbn [canceled cbs calls next log].
    + unfold live. rewrite V. cbn [v_live]. fold (live (log s)). rewrite <- Jl. reflexivity.
    + unfold owed. rewrite V. cbn [v_owed]. fold (owed (log s)). rewrite Jo, E, runs_app. cbn [runs flat_map]. rewrite app_nil_r. apply Permutation_app_head. now rewrite (perm_mid owing).
    + intros c' tok' A D _. rewrite deregistered_app in D. cbn [deregistered flat_map] in D. rewrite app_nil_r in D. apply alone_snoc in A as [[A L]|A].
      * injection A as <- <-. rewrite <- Jl in L. apply map_eq_nil in L. cbn [register_section fst snd]. rewrite L. cbn. eauto.
      * destruct (Jt c' tok' A D C) as (a' & -> & X). exists a'. split; [reflexivity|]. cbn. auto.
  - assert (V : view_of (log s ++ [ERegister c None]) = mk_view true (v_live (view_of (log s))) (v_owed (view_of (log s)) ++ [c])) by (rewrite view_snoc; cbn [v_step]; rewrite <- (i_flag _ I), C; reflexivity).
    split; cbn [canceled cbs calls next log]; [unfold live; now rewrite V| |discriminate].
    unfold owed. rewrite V. cbn [v_owed]. fold (owed (log s)). rewrite Jo, E, runs_app. cbn [runs flat_map]. rewrite app_nil_r, <- app_assoc. apply Permutation_app_head. rewrite (perm_mid owing), (perm_mid owing). cbn [owing app]. symmetry. apply Permutation_cons_append.
  - assert (V : view_of (log s ++ [ERun c b]) = view_of (log s)) by (now rewrite view_snoc).
    assert (T := i_calls _ I). rewrite E, Forall_mid in T. destruct T as [T _]. cbn in T.
    split; cbn [canceled cbs calls next log]; [unfold live; now rewrite V| |rewrite T; discriminate].
    unfold owed. rewrite V. fold (owed (log s)). rewrite Jo, E, runs_app. cbn [runs flat_map]. rewrite <- app_assoc. apply Permutation_app_head. rewrite (perm_mid owing). reflexivity.
  - assert (V : view_of (log s ++ [EDeregister c]) = mk_view (v_canceled (view_of (log s))) (remove Nat.eq_dec c (live (log s))) (v_owed (view_of (log s)))) by (now rewrite view_snoc).
    assert (T := i_calls _ I). rewrite E, Forall_mid in T. destruct T as [T _]. cbn in T. cbn [log] in F.
    assert (O : Permutation (owed (log s ++ [EDeregister c])) (runs (log s ++ [EDeregister c]) ++ flat_map owing (x ++ y))).
    { unfold owed. rewrite V. cbn [v_owed]. fold (owed (log s)). rewrite Jo, E, runs_app. cbn [runs flat_map]. rewrite app_nil_r. apply Permutation_app_head. now rewrite (perm_mid owing). }
    assert (ND : ~ In c (deregistered (log s))).
    { destruct F as [F _]. rewrite deregistered_app in F. cbn in F. apply NoDup_remove_2 in F. now rewrite app_nil_r in F. }
    destruct (canceled s) eqn:C.
    + assert (Z := i_empty _ I C). split; cbn [canceled cbs calls next log]; [|exact O|discriminate]. unfold live. rewrite V. cbn [v_live]. rewrite <- Jl, Z. destruct tok; reflexivity.
    + assert (NR : NoDup (registered (log s))) by (eapply NoDup_app_l, (i_new _ I)).
      assert (A : alone_at c tok (log s)).
      { destruct F as [_ F]. destruct (F c) as (l1 & tok0 & l2 & E2 & L); [rewrite deregistered_app; apply in_app_iff; right; now left|].
        apply snoc_split in E2 as [(_ & E2 & _)|(l3 & -> & E2)]; [discriminate|]. assert (X : tok0 = tok).
        { apply (register_once (log s) c); auto. rewrite E2. apply in_app_iff. right. now left. }
        subst tok0. exists l1, l3. auto. }
      destruct (Jt c tok A ND eq_refl) as (a & -> & Y).
      assert (U1 : NoDup (map fst (cbs s))) by (assert (U := i_addr _ I); unfold in_use in U; rewrite map_app in U; eapply NoDup_app_l, U).
      assert (U2 : NoDup (map snd (cbs s))) by (destruct (i_all _ I) as (dr & P); assert (U := Permutation_NoDup P NR); apply NoDup_app_r, NoDup_app_l in U; exact U).
      destruct (deregister_gone a (cbs s) U1 c Y U2) as [G1 G2].
      split; cbn [canceled cbs calls next log]; [|exact O|].
      * unfold live. rewrite V. cbn [v_live]. rewrite <- Jl. exact G1.
      * intros c' tok' A' D' _. rewrite deregistered_app, in_app_iff in D'. cbn in D'. apply alone_snoc in A' as [[A' _]|A']; [discriminate|].
        destruct (Jt c' tok' A') as (a' & -> & Y'); [tauto|reflexivity|]. exists a'. split; [reflexivity|]. apply G2; [intros ->; apply D'; auto|exact Y'].
  - assert (V : view_of (log s ++ [EAnswer (canceled s)]) = view_of (log s)) by (now rewrite view_snoc).
    split; cbn [canceled cbs calls next log].
    + unfold live. now rewrite V.
    + unfold owed. rewrite V. fold (owed (log s)). rewrite Jo, E, runs_app. cbn [runs flat_map]. rewrite app_nil_r. apply Permutation_app_head. now rewrite (perm_mid owing).
    + intros c' tok' A' D' C. rewrite deregistered_app in D'. cbn in D'. rewrite app_nil_r in D'. apply alone_snoc in A' as [[A' _]|A']; [discriminate|]. auto.
  - exfalso. apply (NT c). cbn [log]. apply in_app_iff. right. now left.
Qed.
Lemma log_grows m s s' : step m s s' -> log s' = log s \/ exists e, log s' = log s ++ [e].
Proof. intros H. destruct H; cbn [log]; eauto. Qed.
Lemma inv2_reachable s : reachable s -> deregistered_alone (log s) -> nothing_thrown (log s) -> inv2 s.
Proof.
  induction 1 as [|m s s' R IH H]; intros F NT; [split; cbn; auto; try (intros; discriminate)|].
  - intros c tok (l1 & l2 & E & _). destruct l1; discriminate.
  - eapply inv2_step; eauto. assert (I' := inv_step m s s' (inv_reachable s R) H). destruct (log_grows m s s' H) as [E|(e & E)]; [rewrite E in F, NT; auto|].
    rewrite E in F, NT. apply IH; [|intros d D; apply (NT d), in_app_iff; auto]. apply (alone_prefix _ e F); [apply deregistered_registered, R|]. rewrite <- E. eapply NoDup_app_l, (i_new _ I').
Qed.

(** ** what runs, when, and that it ends *)
Lemma run_after_cancel s : reachable s -> forall l1 c b l2, log s = l1 ++ ERun c b :: l2 -> In ECancel l1 /\ exists tok, In (ERegister c tok) l1.
Proof.
  induction 1 as [|m s s' R IH H]; intros l1 c b l2 E; [destruct l1; discriminate|].
  destruct (log_grows m s s' H) as [X|(e & X)]; [rewrite X in E; eauto|]. rewrite X in E. apply snoc_split in E as [(-> & -> & <-)|(l3 & -> & E)]; [|eauto].
  assert (I := inv_reachable s R). assert (G : canceled s = true /\ In c (flat_map owing (calls s))).
  { destruct H as [s|s|s a N|s d tok HR|s x y E C|s x y E C|s x y a d l E|s x y E|s x y a d E C|s x y a d E C|s x y a d b' E|s x y d tok E|s x y E|s x y a d l E]; cbn [log] in X; try (apply app_inj_tail in X as [_ X]; discriminate); try (exfalso; apply (f_equal (@length _)) in X; rewrite app_length in X; cbn in X; lia).
    - apply app_inj_tail in X as [_ X]. injection X as <- _. assert (T := i_calls _ I). rewrite E, Forall_mid in T. destruct T as [T _]. split; [exact T|]. rewrite E, flat_mid, !in_app_iff. cbn. auto.
    - apply app_inj_tail in X as [_ X]. injection X as <- _. assert (T := i_calls _ I). rewrite E, Forall_mid in T. destruct T as [T _]. split; [exact T|]. rewrite E, flat_mid, !in_app_iff. cbn. auto.
    - apply app_inj_tail in X as [_ X]. injection X as <- _. assert (T := i_calls _ I). rewrite E, Forall_mid in T. destruct T as [T _]. split; [exact T|]. rewrite E, flat_mid, !in_app_iff. cbn. auto. }
  destruct G as [G1 G2]. split; [apply flag_iff; now rewrite <- (i_flag _ I)|]. destruct (i_all _ I) as (dr & P).
  assert (Q : In c (registered (log s))) by (rewrite P, !in_app_iff; auto). apply in_flat_map in Q as ([d tok| | | |] & Q1 & Q2); cbn in Q2; try contradiction. destruct Q2 as [-> |[]]. eauto.
Qed.
Lemma answer_ok s : reachable s -> forall l1 b l2, log s = l1 ++ EAnswer b :: l2 -> (b = true <-> In ECancel l1).
Proof.
  induction 1 as [|m s s' R IH H]; intros l1 b l2 E; [destruct l1; discriminate|].
  destruct (log_grows m s s' H) as [X|(e & X)]; [rewrite X in E; eauto|]. rewrite X in E. apply snoc_split in E as [(-> & -> & <-)|(l3 & -> & E)]; [|eauto].
  assert (I := inv_reachable s R).
  destruct H as [s|s|s a N|s d tok HR|s x y E C|s x y E C|s x y a d l E|s x y E|s x y a d E C|s x y a d E C|s x y a d b' E|s x y d tok E|s x y E|s x y a d l E]; cbn [log] in X; try (apply app_inj_tail in X as [_ X]; discriminate); try (exfalso; apply (f_equal (@length _)) in X; rewrite app_length in X; cbn in X; lia).
  apply app_inj_tail in X as [_ X]. injection X as <-. rewrite (i_flag _ I). apply flag_iff.
Qed.
Lemma idle_calls s : idle s -> calls s = [].
Proof.
  intros H. destruct (calls s) as [|k y] eqn:E; [reflexivity|]. exfalso. destruct k as [|[|[a c] l]|a c|a c|c tok|].
  - destruct (canceled s) eqn:C; [exact (H _ (s_cancel_again s [] y E C))|exact (H _ (s_cancel s [] y E C))].
  - exact (H _ (s_ran s [] y E)).
  - exact (H _ (s_run s [] y a c l E)).
  - destruct (canceled s) eqn:C; [exact (H _ (s_register_late s [] y a c E C))|exact (H _ (s_register s [] y a c E C))].
  - exact (H _ (s_run_now s [] y a c false E)).
  - exact (H _ (s_deregister s [] y c tok E)).
  - exact (H _ (s_ask s [] y E)).
Qed.
Definition owing_now (k : call) : list cb := match k with KCallNow _ c => [c] | _ => [] end.
(** after a cancel, registration gives no token and the callback is called *)
Lemma late_register s : reachable s -> forall l1 c tok l2, log s = l1 ++ ERegister c tok :: l2 -> In ECancel l1 -> tok = None /\ (In c (runs l2) \/ In c (flat_map owing_now (calls s))).
Proof.
  induction 1 as [|m s s' R IH H]; intros l1 c tok l2 E C; [destruct l1; discriminate|]. assert (I := inv_reachable s R).
  assert (G : forall l3, log s = l1 ++ ERegister c tok :: l3 -> (exists l4, l2 = l3 ++ l4 /\ (forall d, In d (flat_map owing_now (calls s)) -> In d (runs l4) \/ In d (flat_map owing_now (calls s')))) -> tok = None /\ (In c (runs l2) \/ In c (flat_map owing_now (calls s')))).
  { intros l3 E3 (l4 & -> & M). destruct (IH l1 c tok l3 E3 C) as [T [X|X]]; (split; [exact T|]); rewrite runs_app, in_app_iff; [auto|]. destruct (M c X); auto. }
  destruct H as [s|s|s a N|s d tk HR|s x y E0 C0|s x y E0 C0|s x y a d l E0|s x y E0|s x y a d E0 C0|s x y a d E0 C0|s x y a d b E0|s x y d tk E0|s x y E0|s x y a d l E0]; cbn [log calls flat_map owing_now app] in *;
   try (apply (G l2 E); exists []; rewrite app_nil_r; split; [reflexivity|]; try rewrite E0, flat_mid, flat_map_app; auto; fail);
   try (apply snoc_split in E as [(-> & E & <-)|(l3 & -> & E)]; [try discriminate|apply (G l3 E); eexists; split; [reflexivity|]; rewrite ?E0, ?flat_mid, ?flat_map_app; cbn; intros d'; rewrite ?in_app_iff; cbn; rewrite ?in_app_iff; tauto]).
  - exfalso. injection E as <- <-. apply flag_iff in C. rewrite <- (i_flag _ I) in C. congruence.
  - injection E as <- <-. split; [reflexivity|]. right. rewrite flat_mid, !in_app_iff. cbn. auto.
Qed.
Definition w_call (k : call) : nat := match k with KCancel => 2 | KCalling l => S (length l) | KRegister _ _ => 3 | _ => 1 end.
Definition wsum (l : list call) : nat := list_sum (map w_call l).
Definition work (s : st) : nat := wsum (calls s) + length (cbs s).
Lemma wsum_mid a c b : wsum (a ++ c :: b) = w_call c + wsum (a ++ b).
Proof. unfold wsum. rewrite !map_app. cbn [map]. rewrite !list_sum_app. cbn [list_sum fold_right]. unfold list_sum. lia. Qed.
Lemma work_own s s' : step Own s s' -> work s' < work s.
Proof.
  intros H. inversion H as [| | | |s0 x y E C|s0 x y E C|s0 x y a d l E|s0 x y E|s0 x y a d E C|s0 x y a d E C|s0 x y a d b E|s0 x y d tok E|s0 x y E|s0 x y a d l E]; subst; unfold work; cbn [calls cbs register_section fst snd length]; rewrite E, ?wsum_mid; cbn [w_call length]; try lia.
  assert (X : length (match tok with Some t => deregister_section t (cbs s) | None => cbs s end) <= length (cbs s)); [|lia]. destruct tok as [t|]; [|auto].
  destruct (deregister_perm t (cbs s)) as [P|(a & c & P)]; apply Permutation_length in P; cbn in P; unfold cb, addr in *; lia.
Qed.
Lemma running_work k s s' : running k s s' -> work s' + k <= work s.
Proof. induction 1 as [s|k s s1 s2 H IH X]; [lia|]. apply work_own in X. lia. Qed.
