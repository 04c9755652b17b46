From Verif Require Import Prelude Cqueue_Model Cqueue_Spec.
From Coq Require Import List Arith Lia Permutation Bool.
Import ListNotations.
Ltac Zify.zify_post_hook ::= idtac.
Section Q.
Context {T : Type}.
Notation st := (st T). Notation call := (call T).
Definition ids (o : list (nat * op T * res T)) : list nat := map (fun x => fst (fst x)) o.
Definition hist (o : list (nat * op T * res T)) : list (op T * res T) := map (fun x => (snd (fst x), snd x)) o.
Lemma seq_app (c : list T) h1 c1 h2 c2 : sequential c h1 c1 -> sequential c1 h2 c2 -> sequential c (h1 ++ h2) c2.
Proof. induction 1; cbn; intros; try constructor; auto. Qed.
Definition waits (k : call) : list nat := match k with Before i _ => [i] | _ => [] end.
Definition call_ok (s : st) (k : call) : Prop := match k with Before i o => In (EInvoke i o) (log s) | After i r => exists p, In (i, p, r) (order s) end.
Record inv (s : st) : Prop := {
  i_seq : sequential [] (hist (order s)) (q s);
  i_ids : NoDup (ids (order s) ++ flat_map waits (calls s));
  i_next : forall i, In i (ids (order s) ++ flat_map waits (calls s)) -> i < next s;
  i_inv : forall i p, In (EInvoke i p) (log s) -> i < next s;
  i_calls : Forall (call_ok s) (calls s);
  i_ret : forall i r, In (EReturn i r) (log s) -> exists p, In (i, p, r) (order s);
  i_in : forall i p r, In (i, p, r) (order s) -> In (EInvoke i p) (log s);
  i_time : forall l1 i r l2 l3 j p p' r', log s = l1 ++ EReturn i r :: l2 ++ EInvoke j p :: l3 -> In (j, p', r') (order s) ->
     exists a b c pi ri, order s = a ++ (i, pi, ri) :: b ++ (j, p', r') :: c }.
Lemma perm_mid {A} (f : call -> list A) x k y : Permutation (flat_map f (x ++ k :: y)) (f k ++ flat_map f (x ++ y)).
Proof. rewrite !flat_map_app. cbn [flat_map]. rewrite !app_assoc. apply Permutation_app_tail, Permutation_app_comm. Qed.
Lemma Forall_mid {A} (P : A -> Prop) x k y : Forall P (x ++ k :: y) <-> P k /\ Forall P (x ++ y).
Proof. rewrite !Forall_app, Forall_cons_iff. tauto. Qed.
Lemma ids_snoc o i p r : ids (o ++ [(i, p, r)]) = ids o ++ [i]. Proof. unfold ids. now rewrite map_app. Qed.
Lemma hist_snoc o i p r : hist (o ++ [(i, p, r)]) = hist o ++ [(p, r)]. Proof. unfold hist. now rewrite map_app. Qed.
Lemma in_ids o i p r : In (i, p, r) o -> In i (ids o).
Proof. intros H. unfold ids. apply in_map_iff. exists (i, p, r). auto. Qed.
Lemma NoDup_app_l {A} (a b : list A) : NoDup (a ++ b) -> NoDup a.
Proof. induction a as [|x a IH]; cbn; [constructor|]. rewrite !NoDup_cons_iff, in_app_iff. tauto. Qed.
Lemma inv_start : inv start.
Proof. split; cbn; try constructor; auto; try contradiction. all: intros; try contradiction; destruct l1; discriminate. Qed.
Lemma snoc_split {A} (l l1 l2 : list A) e x : l ++ [e] = l1 ++ x :: l2 -> (l2 = [] /\ e = x /\ l = l1) \/ exists l3, l2 = l3 ++ [e] /\ l = l1 ++ x :: l3.
Proof.
  intros E. destruct l2 as [|y l2].
  - left. apply app_inj_tail in E as [-> ->]. auto.
  - right. destruct (@exists_last _ (y :: l2) ltac:(discriminate)) as (l3 & z & E2). rewrite E2 in *. rewrite app_comm_cons, app_assoc in E. apply app_inj_tail in E as [-> ->]. exists l3. auto.
Qed.

(** the three critical sections at once *)
Lemma section_step s a b i o r c' : inv s -> calls s = a ++ Before i o :: b -> sequential (q s) [(o, r)] c' ->
  inv (mk_st c' (a ++ After i r :: b) (next s) (log s) (order s ++ [(i, o, r)])).
Proof.
  intros [Is Ii In_ Iv Ic Ir Io It] E S. rewrite E in *. rewrite Forall_mid in Ic. destruct Ic as [Ic1 Ic2]. cbn in Ic1.
  assert (P : Permutation (ids (order s ++ [(i, o, r)]) ++ flat_map waits (a ++ After i r :: b)) (ids (order s) ++ flat_map waits (a ++ Before i o :: b))).
  { rewrite ids_snoc, <- app_assoc. apply Permutation_app_head. rewrite (perm_mid waits), (perm_mid waits). reflexivity. }
  split; cbn [q calls next log order]; auto.
  - rewrite hist_snoc. eapply seq_app; eauto.
  - eapply Permutation_NoDup; [symmetry; exact P|exact Ii].
  - intros j J. apply In_. rewrite <- P. exact J.
  - rewrite Forall_mid. split; [exists o; cbn; apply in_app_iff; right; now left|]. eapply Forall_impl; [|exact Ic2]. intros [j p|j p]; cbn; [auto|]. intros (p' & H). exists p'. apply in_app_iff. auto.
  - intros j r' H. destruct (Ir j r' H) as (p & X). exists p. apply in_app_iff. auto.
  - intros j p r' H. apply in_app_iff in H as [H|[H|[]]]; [eauto|]. injection H as <- <- <-. exact Ic1.
  - intros l1 j r0 l2 l3 k p p' r' EL H. apply in_app_iff in H as [H|[H|[]]].
    + destruct (It _ _ _ _ _ _ _ _ _ EL H) as (x & y & z & pi & ri & ->). exists x, y, (z ++ [(i, o, r)]), pi, ri. rewrite <- app_assoc. cbn. rewrite <- app_assoc. reflexivity.
    + injection H as <- <- <-. destruct (Ir j r0) as (pj & X); [rewrite EL; apply in_app_iff; right; now left|]. apply in_split in X as (x & y & ->). exists x, y, [], pj, r0. now rewrite <- app_assoc.
Qed.
Lemma inv_step m s s' : inv s -> step m s s' -> inv s'.
Proof.
  intros I H. destruct H as [s o|s a b i x E|s a b i x r E Eq|s a b i E Eq|s a b i r E].
  - destruct I as [Is Ii In_ Iv Ic Ir Io It]. split; cbn [q calls next log order flat_map waits app]; auto.
    + apply (Permutation_NoDup (l := next s :: ids (order s) ++ flat_map waits (calls s))); [apply Permutation_middle|]. constructor; [|exact Ii]. intros X. apply In_ in X. lia.
    + intros i H. rewrite <- Permutation_middle in H. destruct H as [<- |H]; [lia|]. apply In_ in H. lia.
    + intros i p H. apply in_app_iff in H as [H|[H|[]]]; [apply Iv in H; lia|]. injection H as <- <-. lia.
    + constructor; [cbn; apply in_app_iff; right; now left|]. eapply Forall_impl; [|exact Ic]. intros [j p|j p]; cbn; auto. intros H. apply in_app_iff. auto.
    + intros i r H. apply in_app_iff in H as [H|[H|[]]]; [eauto|discriminate].
    + intros i p r H. apply in_app_iff. eauto.
    + intros l1 i r l2 l3 j p p' r' EL H. rewrite app_comm_cons, app_assoc in EL. apply snoc_split in EL as [(_ & EL & _)|(l4 & -> & EL)].
      * injection EL as <- <-. exfalso. apply in_ids in H. assert (X := In_ (next s)). rewrite in_app_iff in X. specialize (X (or_introl H)). lia.
      * rewrite <- app_assoc in EL. eapply It; eauto.
  - apply section_step; auto. constructor. constructor.
  - apply section_step; auto. rewrite Eq. constructor. constructor.
  - apply section_step; auto. rewrite Eq. constructor. constructor.
  - destruct I as [Is Ii In_ Iv Ic Ir Io It]. rewrite E in *. rewrite Forall_mid in Ic. destruct Ic as [Ic1 Ic2]. cbn in Ic1.
    assert (P : Permutation (flat_map waits (a ++ b)) (flat_map waits (a ++ After i r :: b))) by (rewrite (perm_mid waits); reflexivity).
    split; cbn [q calls next log order]; auto.
    + rewrite P. exact Ii.
    + intros j J. apply In_. rewrite <- P. exact J.
    + intros j p H. apply in_app_iff in H as [H|[H|[]]]; [eauto|discriminate].
    + eapply Forall_impl; [|exact Ic2]. intros [j p|j p]; cbn; auto. intros H. apply in_app_iff. auto.
    + intros j r' H. apply in_app_iff in H as [H|[H|[]]]; [eauto|]. injection H as <- <-. exact Ic1.
    + intros j p r' H. apply in_app_iff. eauto.
    + intros l1 j r0 l2 l3 k p p' r' EL H. rewrite app_comm_cons, app_assoc in EL. apply snoc_split in EL as [(_ & EL & _)|(l4 & -> & EL)]; [discriminate|]. rewrite <- app_assoc in EL. eapply It; eauto.
Qed.
Lemma inv_reachable s : reachable s -> inv s.
Proof. induction 1; [apply inv_start|eapply inv_step; eauto]. Qed.
Lemma idle_calls (s : st) : idle s -> calls s = [].
Proof.
  intros H. destruct (calls s) as [|[i [x|]|i r] y] eqn:E; [reflexivity| | |]; exfalso.
  - exact (H _ (s_push s [] y i x E)).
  - destruct (q s) as [|x r] eqn:Eq; [exact (H _ (s_pop_none s [] y i E Eq))|exact (H _ (s_pop s [] y i x r E Eq))].
  - exact (H _ (s_return s [] y i r E)).
Qed.
Definition work (s : st) : nat := list_sum (map (fun k : call => match k with Before _ _ => 2 | After _ _ => 1 end) (calls s)).
Lemma work_own s s' : step Own s s' -> work s' < work s.
Proof.
  intros H. inversion H as [|s0 a b i x E|s0 a b i x r E Eq|s0 a b i E Eq|s0 a b i r E]; subst; unfold work; cbn [calls]; rewrite E, !map_app; cbn [map]; rewrite !list_sum_app; cbn [list_sum fold_right]; unfold list_sum; lia.
Qed.
Lemma running_work k s s' : running k s s' -> work s' + k <= work s.
Proof. induction 1 as [s|k s s1 s2 H IH X]; [lia|]. apply work_own in X. lia. Qed.
(** every call made returns *)
Definition name_of (k : call) : nat := match k with Before i _ | After i _ => i end.
Lemma made_or_pending s : reachable s -> forall i o, In (EInvoke i o) (log s) -> (exists r, In (EReturn i r) (log s)) \/ In i (map name_of (calls s)).
Proof.
  induction 1 as [|m s s' R IH H]; intros i o L; [destruct L|].
  destruct H as [s o'|s a b j x E|s a b j x r E Eq|s a b j E Eq|s a b j r E]; cbn [log calls] in *.
  - apply in_app_iff in L as [L|[L|[]]].
    + destruct (IH i o L) as [(r & X)|X]; [left; exists r; apply in_app_iff; auto|right; now right].
    + injection L as -> ->. right. now left.
  - destruct (IH i o L) as [X|X]; [auto|right]. rewrite E in X. rewrite map_app in *. exact X.
  - destruct (IH i o L) as [X|X]; [auto|right]. rewrite E in X. rewrite map_app in *. exact X.
  - destruct (IH i o L) as [X|X]; [auto|right]. rewrite E in X. rewrite map_app in *. exact X.
  - apply in_app_iff in L as [L|[L|[]]]; [|discriminate]. destruct (IH i o L) as [(r' & X)|X]; [left; exists r'; apply in_app_iff; auto|].
    rewrite E, map_app in X. cbn in X. apply in_app_iff in X as [X|[X|X]].
    + right. rewrite map_app. apply in_app_iff. auto.
    + subst i. left. exists r. apply in_app_iff. right. now left.
    + right. rewrite map_app. apply in_app_iff. auto.
Qed.
End Q.
