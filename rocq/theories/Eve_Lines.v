(** Guides line up when the solver has settled. *)
From Verif Require Import Prelude Eve_Model Eve_Spec Eve_Base Eve_Adjust Eve_Solve Eve_Layout Eve_Place Eve_Run Eve_Guides.
From Coq Require Import List ZArith Lia Bool.
Import ListNotations.
Open Scope Z_scope.
Ltac Zify.zify_post_hook ::= idtac.

(** ** A second pass up changes nothing *)
Lemma push_fixed b m : forall gs z, ((length gs < length m)%nat -> z = []) -> push b m (firstn (length m) (push b m gs) ++ z) = firstn (length m) (push b m gs) ++ z.
Proof.
  induction m as [|g m IH]; intros [|x gs] z H; cbn; auto.
  - rewrite H by (cbn; lia). reflexivity.
  - rewrite IH by (intros L; apply H; cbn in *; lia). f_equal. lia.
Qed.
Lemma firstn_fixed {A} n (p z : list A) : ((length p < n)%nat -> z = []) -> firstn n (firstn n p ++ z) = firstn n p /\ skipn n (firstn n p ++ z) = z.
Proof.
  revert p z. induction n as [|n IH]; intros [|x p] z H; cbn; auto.
  - rewrite H by (cbn; lia). auto.
  - destruct (IH p z) as [-> ->]; auto. intros L. apply H. cbn in *. lia.
Qed.
Lemma up_forward_twice d cs : forall gs l, up_forward d cs (fst (up_forward d cs gs l)) l = up_forward d cs gs l.
Proof.
  induction cs as [|c cs IH]; intros gs l; auto. cbn [up_forward]. set (mine := fwd_of d c). set (pushed := push (l + v_space_before c) mine gs). 
  set (l' := match mine, pushed with g :: _, x :: _ => if is_leaf c then x - g else l + v_space_before c | _, _ => l + v_space_before c end).
  set (r := up_forward d cs (skipn (length mine) pushed) (l' + clen d c)). cbn [fst snd].
  assert (Z : (length pushed < length mine)%nat -> fst r = []).
  { intros H. apply length_zero_iff_nil. subst r. rewrite up_forward_length, skipn_length. lia. }
  assert (Z' : (length gs < length mine)%nat -> fst r = []) by (intros H; apply Z; unfold pushed; rewrite push_length; auto).
  replace (push (l + v_space_before c) mine (firstn (length mine) pushed ++ fst r)) with (firstn (length mine) pushed ++ fst r) by (symmetry; apply push_fixed; auto).
  destruct (firstn_fixed (length mine) pushed (fst r) Z) as [F S]. rewrite F, S.
  replace (match mine, firstn (length mine) pushed ++ fst r with g :: _, x :: _ => if is_leaf c then x - g else l + v_space_before c | _, _ => l + v_space_before c end) with l'
    by (unfold l'; clearbody pushed; clear - Z; destruct mine as [|g m]; auto; destruct pushed as [|x p]; [cbn [firstn app length]; rewrite Z by (cbn; lia); reflexivity | reflexivity]).
  subst r. rewrite IH. reflexivity.
Qed.
Lemma up_reverse_twice d cs : forall gs r a, up_reverse d cs (fst (up_reverse d cs gs r a)) r a = up_reverse d cs gs r a.
Proof.
  induction cs as [|c cs IH]; intros gs l a; auto. cbn [up_reverse]. set (mine := rev_of d c). set (pushed := push l mine gs). 
  set (l' := match mine, pushed with g :: _, x :: _ => if is_leaf c then x - g else l | _, _ => l end).
  set (r := up_reverse d cs (skipn (length mine) pushed) (l' + clen d c + v_space_before c) (a + (l' - l))). cbn [fst snd].
  assert (Z : (length pushed < length mine)%nat -> fst r = []).
  { intros H. apply length_zero_iff_nil. subst r. rewrite up_reverse_length, skipn_length. lia. }
  assert (Z' : (length gs < length mine)%nat -> fst r = []) by (intros H; apply Z; unfold pushed; rewrite push_length; auto).
  replace (push l mine (firstn (length mine) pushed ++ fst r)) with (firstn (length mine) pushed ++ fst r) by (symmetry; apply push_fixed; auto).
  destruct (firstn_fixed (length mine) pushed (fst r) Z) as [F S]. rewrite F, S.
  replace (match mine, firstn (length mine) pushed ++ fst r with g :: _, x :: _ => if is_leaf c then x - g else l | _, _ => l end) with l'
    by (unfold l'; clearbody pushed; clear - Z; destruct mine as [|g m]; auto; destruct pushed as [|x p]; [cbn [firstn app length]; rewrite Z by (cbn; lia); reflexivity | reflexivity]).
  subst r. rewrite IH. reflexivity.
Qed.
(** pushed far enough *)
Fixpoint dom (b : Z) (m gs : list Z) : Prop := match m, gs with g :: m', x :: gs' => g + b <= x /\ dom b m' gs' | _, _ => True end.
Lemma dom_fixed b m : forall gs, dom b m gs -> push b m gs = gs.
Proof. induction m as [|g m IH]; intros [|x gs] H; cbn in *; auto. destruct H as [H1 H2]. rewrite IH by auto. f_equal. lia. Qed.
Lemma push_dom b m : forall gs, dom b m (push b m gs).
Proof. induction m as [|g m IH]; intros [|x gs]; cbn; auto. split; [lia | auto]. Qed.
Lemma push_keeps_dom b m b' m' : forall gs, dom b m gs -> dom b m (push b' m' gs).
Proof.
  revert m'. induction m as [|g m IH]; intros m' [|x gs] H; cbn in *; auto; [destruct m'; cbn; auto|]. destruct m' as [|g' m']; cbn; auto. destruct H as [H1 H2]. split; [lia | apply IH; auto].
Qed.
Lemma fold_push_dom (f : view -> Z) (h : view -> list Z) cs : forall gs, (forall b m, dom b m gs -> dom b m (fold_left (fun gs c => push (f c) (h c) gs) cs gs)) /\ Forall (fun c => dom (f c) (h c) (fold_left (fun gs c => push (f c) (h c) gs) cs gs)) cs.
Proof.
  induction cs as [|c cs IH]; intros gs; cbn; auto. destruct (IH (push (f c) (h c) gs)) as [I1 I2]. split; [intros; apply I1, push_keeps_dom; auto|]. constructor; auto. apply I1, push_dom.
Qed.
Lemma fold_push_fixed (f : view -> Z) (h : view -> list Z) cs gs : Forall (fun c => dom (f c) (h c) gs) cs -> fold_left (fun gs c => push (f c) (h c) gs) cs gs = gs.
Proof. induction 1 as [|c cs H F IH]; cbn; auto. rewrite dom_fixed; auto. Qed.
Lemma fold_push_twice (f : view -> Z) (h : view -> list Z) cs gs : let r := fold_left (fun gs c => push (f c) (h c) gs) cs gs in fold_left (fun gs c => push (f c) (h c) gs) cs r = r.
Proof. cbv zeta. apply fold_push_fixed, fold_push_dom. Qed.

Lemma fold_left_ext' {A B} (f g : A -> B -> A) l : (forall a b, f a b = g a b) -> forall a, fold_left f l a = fold_left g l a.
Proof. intros H. induction l; intros; cbn; auto. rewrite H. auto. Qed.
Lemma upd_upd d f g v : upd d f (upd d g v) = upd d (fun s => f (g s)) v.
Proof. destruct d; reflexivity. Qed.
Lemma upd_ext d f g v : f (slc d v) = g (slc d v) -> upd d f v = upd d g v.
Proof. destruct d; cbn; intros ->; reflexivity. Qed.
Lemma near_upd d f v : (forall s, s_extents (f s) = s_extents s /\ s_margin (f s) = s_margin s) -> near d (upd d f v) = near d v /\ far d (upd d f v) = far d v.
Proof. intros H. unfold near, far, frame, margin. rewrite !slc_upd. destruct (H (slc d v)) as [-> ->]. auto. Qed.
Lemma solve_up_twice d v cs : unbalanced d v -> fst (solve_up d (fst (solve_up d v cs)) cs) = fst (solve_up d v cs).
Proof.
  intros U. unfold solve_up. cbn [fst]. destruct (is_leaf v) eqn:LF; [rewrite LF; reflexivity|]. destruct (is_with (v_placement v) d) eqn:W.
  - pose proof (up_reverse_twice d (rev cs) (rev_g d v) (far d v) (far d v)) as R. destruct (up_reverse d (rev cs) (rev_g d v) (far d v) (far d v)) as [rg ad] eqn:ER.
    pose proof (up_forward_twice d cs (fwd d v) (near d v)) as F. destruct (up_forward d cs (fwd d v) (near d v)) as [fg len] eqn:EF. cbn [fst] in *. unfold unbalanced in U.
    assert (X : solve_up_with d v cs = upd d (fun s => set_lengths (Z.max (len + ad) (s_container_length s)) (len + ad) (set_guides fg rg s)) v) by (unfold solve_up_with; rewrite ER, EF, U; reflexivity).
    rewrite X. rewrite is_leaf_upd, LF, placement_upd, W. unfold solve_up_with. destruct (near_upd d (fun s => set_lengths (Z.max (len + ad) (s_container_length s)) (len + ad) (set_guides fg rg s)) v) as [-> ->]; [auto|].
    unfold rev_g, fwd. rewrite !slc_upd. cbn [s_forward s_reverse set_lengths set_guides s_balance]. rewrite R, F. rewrite U. cbn [andb]. rewrite upd_upd. apply upd_ext. unfold set_lengths, set_guides. cbn. f_equal. lia.
  - set (fg := fold_left (fun gs c => push (near_of d v c) (fwd_of d c) gs) cs (fwd d v)). set (rg := fold_left (fun gs c => push (far_of d v c) (rev_of d c) gs) cs (rev_g d v)).
    set (len := fold_left (fun l c => Z.max l (clen d c + near_leaf d v c fg + far_leaf d v c rg)) cs (near d v + far d v)).
    set (v' := upd d (fun s => set_lengths (Z.max len (s_container_length s)) len (set_guides fg rg s)) v).
    assert (X : solve_up_cross d v cs = v') by reflexivity. rewrite X. replace (is_leaf v') with false by (unfold v'; rewrite is_leaf_upd; auto). replace (is_with (v_placement v') d) with false by (unfold v'; rewrite placement_upd; auto). clear X.
    destruct (near_upd d (fun s => set_lengths (Z.max len (s_container_length s)) len (set_guides fg rg s)) v) as [N1 N2]; [auto|]. fold v' in N1, N2.
    assert (NO : forall c, near_of d v' c = near_of d v c) by (intros c; unfold near_of; rewrite N1; reflexivity). assert (FO : forall c, far_of d v' c = far_of d v c) by (intros c; unfold far_of; rewrite N2; reflexivity).
    assert (E1 : fold_left (fun gs c => push (near_of d v' c) (fwd_of d c) gs) cs (fwd d v') = fg).
    { replace (fwd d v') with fg by (unfold v', fwd; rewrite slc_upd; reflexivity). rewrite (fold_left_ext' _ (fun gs c => push (near_of d v c) (fwd_of d c) gs)) by (intros; rewrite NO; reflexivity). apply (fold_push_twice (near_of d v) (fwd_of d) cs (fwd d v)). }
    assert (E2 : fold_left (fun gs c => push (far_of d v' c) (rev_of d c) gs) cs (rev_g d v') = rg).
    { replace (rev_g d v') with rg by (unfold v', rev_g; rewrite slc_upd; reflexivity). rewrite (fold_left_ext' _ (fun gs c => push (far_of d v c) (rev_of d c) gs)) by (intros; rewrite FO; reflexivity). apply (fold_push_twice (far_of d v) (rev_of d) cs (rev_g d v)). }
    unfold solve_up_cross. rewrite E1, E2, N1, N2.
    assert (E3 : fold_left (fun l c => Z.max l (clen d c + near_leaf d v' c fg + far_leaf d v' c rg)) cs (near d v + far d v) = len).
    { unfold len. apply fold_left_ext'. intros a c. unfold near_leaf, far_leaf. rewrite NO, FO. reflexivity. }
    rewrite E3. unfold v'. rewrite upd_upd. apply upd_ext. unfold set_lengths, set_guides. cbn. f_equal. lia.
Qed.
Lemma up_pass_twice d t : every (fun v _ => unbalanced d v) t -> up_pass d (up_pass d t) = up_pass d t.
Proof.
  unfold up_pass. induction t as [v ts IH] using tree_ind'. rewrite every_node. intros [U US]. cbn [postorder].
  assert (E : map (postorder (solve_up d)) (map (postorder (solve_up d)) ts) = map (postorder (solve_up d)) ts).
  { clear - IH US. induction ts as [|t ts IHts]; cbn [map]; auto. apply Forall_inv in IH as H1. apply Forall_inv_tail in IH. apply Forall_inv in US as U1. apply Forall_inv_tail in US. rewrite H1 by auto. f_equal. auto. }
  set (us := map (postorder (solve_up d)) ts) in *. change (snd (solve_up d v (map root us))) with (map root us). rewrite set_roots_same. cbn [postorder]. rewrite E.
  change (snd (solve_up d (fst (solve_up d v (map root us))) (map root us))) with (map root us). rewrite set_roots_same, solve_up_twice by auto. reflexivity.
Qed.

(** ** The solver *)
Lemma unbalanced_key d t t' : alike (gkey d) t t' -> every (fun v _ => unbalanced d v) t -> every (fun v _ => unbalanced d v) t'.
Proof. apply every_alike. intros v ts v' ts' G _ U. apply gkey_inv in G as (K&_). apply key_inv in K as (C&_). unfold unbalanced in *. unfold core in C. injection C as ????????? ?. congruence. Qed.
Lemma solve_loop_settled d lim : forall s t', every (fun v _ => unbalanced d v) s -> solve_loop d lim (up_pass d s) = (t', false) -> every (fun v ts => calm d v (map root ts)) t' /\ alike (gkey d) t' s.
Proof.
  assert (Q : forall s r, snd (down_pass d (up_pass d s)) = false -> every (fun v _ => unbalanced d v) s -> r = up_pass d (fst (down_pass d (up_pass d s))) -> every (fun v ts => calm d v (map root ts)) r /\ alike (gkey d) r s).
  { intros s r H U ->. unfold down_pass in *. destruct (down_from_calm d _ H) as [-> C]. rewrite up_pass_twice by auto. split; auto. apply up_pass_gkey. }
  induction lim as [|lim IH]; intros s t' U E; cbn [solve_loop] in E; destruct (snd (down_pass d (up_pass d s))) eqn:P; try discriminate.
  - injection E as <-. apply Q; auto.
  - assert (A : alike (gkey d) (fst (down_pass d (up_pass d s))) s) by (eapply alike_trans; [apply down_from_gkey; reflexivity | apply up_pass_gkey]).
    apply IH in E as [E1 E2]; [|eapply unbalanced_key; [apply alike_sym; exact A | exact U]]. split; auto. eapply alike_trans; eauto.
  - injection E as <-. apply Q; auto.
Qed.
Theorem solve_settled d lim t t' : every (fun v _ => unbalanced d v) t -> solve d lim t = (t', false) -> every (fun v ts => calm d v (map root ts)) t' /\ alike (gkey d) t' t.
Proof. intros U E. unfold solve in E. apply solve_loop_settled in E; auto. Qed.
