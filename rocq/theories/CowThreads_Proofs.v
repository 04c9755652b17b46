(** Invariant of the concurrent copy_on_write model. *)
From Verif Require Import Prelude CopyOnWrite_Model CopyOnWrite_Proofs CowThreads_Model CowThreads_Spec.
Ltac Zify.zify_post_hook ::= idtac.

Section C.
Context {T : Type}.
Notation heapt := (list (cell T)).
Notation thread := (thread (T := T)).

Definition sumf {A} (f : A -> nat) (l : list A) : nat := list_sum (map f l).

Lemma sumf_cons {A} (f : A -> nat) x l : sumf f (x :: l) = f x + sumf f l.
Proof. reflexivity. Qed.

Lemma sumf_app {A} (f : A -> nat) l m : sumf f (l ++ m) = sumf f l + sumf f m.
Proof. unfold sumf. now rewrite map_app, list_sum_app. Qed.

Lemma sumf_upd {A} (f : A -> nat) l i x y : nth_error l i = Some x ->
  sumf f (upd l i y) + f x = sumf f l + f y.
Proof.
  revert i; induction l as [|z l IH]; intros [|i] E; simpl in E; try discriminate.
  - injection E as ->. cbn [upd]. rewrite !sumf_cons. lia.
  - cbn [upd]. rewrite !sumf_cons. specialize (IH i E). lia.
Qed.

Lemma sumf_ge {A} (f : A -> nat) l i x : nth_error l i = Some x -> f x <= sumf f l.
Proof.
  revert i; induction l as [|z l IH]; intros [|i] E; simpl in E; try discriminate; rewrite sumf_cons.
  - injection E as ->. lia.
  - specialize (IH i E). lia.
Qed.

Lemma sumf_ge2 {A} (f : A -> nat) l i j x y : i <> j -> nth_error l i = Some x -> nth_error l j = Some y ->
  f x + f y <= sumf f l.
Proof.
  revert i j; induction l as [|z l IH]; intros [|i] [|j] N E F; simpl in E, F; try discriminate; try congruence;
    rewrite sumf_cons.
  - injection E as ->. pose proof (sumf_ge f l j y F). lia.
  - injection F as ->. pose proof (sumf_ge f l i x E). lia.
  - assert (i <> j) by congruence. specialize (IH i j H E F). lia.
Qed.

Definition srefs (sl : list (option nat)) (a : nat) : nat := sumf (fun x => hd x a) sl.
Definition mrel (m : micro (T := T)) (a : nat) : nat := match m with Rel b => d1 b a | _ => 0 end.
Definition mfree (m : micro (T := T)) (a : nat) : nat := match m with Free b => d1 b a | _ => 0 end.
Definition qrefs (q : list micro) (a : nat) : nat := sumf (fun m => mrel m a) q.
Definition qfrees (q : list micro) (a : nat) : nat := sumf (fun m => mfree m a) q.
Definition trefs (t : thread) (a : nat) : nat := srefs (tslots t) a + qrefs (todo t) a.
Definition tfrees (t : thread) (a : nat) : nat := qfrees (todo t) a.

Definition InvW (hp : heapt) (n fr : nat -> nat) : Prop :=
  forall a, match nth_error hp a with
            | Some (Live c _) => c = n a /\ fr a = (if c =? 0 then 1 else 0)
            | _ => n a = 0 /\ fr a = 0
            end.

Lemma InvW_ext hp n m fr fr' : (forall a, n a = m a) -> (forall a, fr a = fr' a) -> InvW hp n fr -> InvW hp m fr'.
Proof. intros E E' H a. specialize (H a). rewrite <- (E a), <- (E' a). exact H. Qed.

Lemma InvW_live hp n fr a : InvW hp n fr -> 0 < n a -> exists v, nth_error hp a = Some (Live (n a) v).
Proof.
  intros H L. specialize (H a). destruct (nth_error hp a) as [[c v|]|]; try lia.
  destruct H as [-> _]. eauto.
Qed.

Lemma InvW_lt hp n fr a : InvW hp n fr -> 0 < n a -> a < length hp.
Proof. intros H L. destruct (InvW_live _ _ _ a H L) as [v E]. apply nth_error_Some. congruence. Qed.

Lemma InvW_fresh hp n fr a : InvW hp n fr -> length hp <= a -> n a = 0 /\ fr a = 0.
Proof. intros H L. specialize (H a). now rewrite (proj2 (nth_error_None hp a)) in H. Qed.

Lemma c_inc hp n fr a : InvW hp n fr -> 0 < n a ->
  exists hp', increment hp a = Some hp' /\ InvW hp' (fun b => n b + d1 a b) fr /\
    (forall b, value_of hp' b = value_of hp b).
Proof.
  intros H L. destruct (InvW_live hp n fr a H L) as [v E]. pose proof (InvW_lt hp n fr a H L) as Lt.
  unfold increment. rewrite E. eexists; split; [reflexivity|]. split.
  - intros b. rewrite nth_error_upd. unfold d1. destruct (Nat.eqb_spec a b) as [<-|N].
    + apply Nat.ltb_lt in Lt. rewrite Lt. specialize (H a). rewrite E in H. destruct H as [H1 H2].
      split; [lia|]. rewrite H2. destruct (Nat.eqb_spec (n a) 0); [lia|]. reflexivity.
    + rewrite Nat.add_0_r. apply H.
  - intros b. rewrite value_of_upd by auto. destruct (Nat.eqb_spec a b) as [<-|N]; auto.
    symmetry. eapply value_of_live; eauto.
Qed.

Lemma c_dec hp n fr a : InvW hp n fr -> 0 < n a ->
  exists c v, nth_error hp a = Some (Live (S c) v) /\ n a = S c /\
    InvW (upd hp a (Live c v)) (fun b => n b - d1 a b) (fun b => fr b + (if c =? 0 then d1 a b else 0)) /\
    (forall b, value_of (upd hp a (Live c v)) b = value_of hp b).
Proof.
  intros H L. destruct (InvW_live hp n fr a H L) as [v E]. pose proof (InvW_lt hp n fr a H L) as Lt.
  destruct (n a) as [|c] eqn:En; [lia|]. exists c, v. split; auto. split; auto. split.
  - intros b. rewrite nth_error_upd. unfold d1. destruct (Nat.eqb_spec a b) as [<-|N].
    + apply Nat.ltb_lt in Lt. rewrite Lt. specialize (H a). rewrite E in H. cbn in H.
      split; [lia|]. destruct H as [_ ->]. destruct (c =? 0); lia.
    + rewrite Nat.sub_0_r. replace (fr b + _) with (fr b) by (destruct (c =? 0); lia). apply H.
  - intros b. rewrite value_of_upd by auto. destruct (Nat.eqb_spec a b) as [<-|N]; auto.
    symmetry. eapply value_of_live; eauto.
Qed.

Lemma c_free hp n fr a : InvW hp n fr -> 0 < fr a ->
  exists v, nth_error hp a = Some (Live 0 v) /\ n a = 0 /\ fr a = 1 /\
    InvW (upd hp a Freed) n (fun b => fr b - d1 a b) /\
    (forall b, b <> a -> value_of (upd hp a Freed) b = value_of hp b).
Proof.
  intros H L. pose proof (H a) as Ha. destruct (nth_error hp a) as [[c v|]|] eqn:E; try lia.
  destruct (Nat.eqb_spec c 0) as [->|]; [|lia].
  exists v. split; auto. split; [lia|]. split; [lia|].
  assert (Lt : a < length hp) by (apply nth_error_Some; congruence). split.
  - intros b. rewrite nth_error_upd. unfold d1. destruct (Nat.eqb_spec a b) as [<-|N].
    + apply Nat.ltb_lt in Lt. rewrite Lt. lia.
    + rewrite Nat.sub_0_r. apply H.
  - intros b N. unfold value_of. rewrite nth_error_upd_other; auto.
Qed.

Lemma c_alloc hp n fr (v : T) : InvW hp n fr ->
  n (length hp) = 0 /\ fr (length hp) = 0 /\
  InvW (hp ++ [Live 1 v]) (fun b => n b + d1 (length hp) b) fr /\
  (forall b, value_of (hp ++ [Live 1 v]) b = if length hp =? b then Some v else value_of hp b).
Proof.
  intros H. destruct (InvW_fresh _ _ _ (length hp) H) as [Z Z']; auto.
  split; auto. split; auto. split.
  - intros b. unfold d1. destruct (Nat.eqb_spec (length hp) b) as [<-|N].
    + rewrite nth_error_app2, Nat.sub_diag by auto. simpl. lia.
    + rewrite Nat.add_0_r. specialize (H b). destruct (Nat.lt_ge_cases b (length hp)).
      * now rewrite nth_error_app1.
      * rewrite (proj2 (nth_error_None hp b)) in H by auto.
        rewrite (proj2 (nth_error_None (hp ++ [Live 1 v]) b)); auto.
        rewrite app_length; simpl; lia.
  - intros b. unfold value_of. destruct (Nat.eqb_spec (length hp) b) as [<-|N].
    + now rewrite nth_error_app2, Nat.sub_diag by auto.
    + destruct (Nat.lt_ge_cases b (length hp)).
      * now rewrite nth_error_app1.
      * rewrite (proj2 (nth_error_None hp b)) by auto.
        rewrite (proj2 (nth_error_None (hp ++ [Live 1 v]) b)); auto.
        rewrite app_length; simpl; lia.
Qed.

Lemma c_store hp n fr a v : InvW hp n fr -> 0 < n a ->
  exists hp', store hp a v = Some hp' /\ InvW hp' n fr /\
    (forall b, value_of hp' b = if a =? b then Some v else value_of hp b).
Proof.
  intros H L. destruct (InvW_live hp n fr a H L) as [w E]. pose proof (InvW_lt hp n fr a H L) as Lt.
  unfold store. rewrite E. eexists; split; [reflexivity|]. split.
  - intros b. rewrite nth_error_upd. destruct (Nat.eqb_spec a b) as [<-|N].
    + apply Nat.ltb_lt in Lt. rewrite Lt. specialize (H a). now rewrite E in H.
    + apply H.
  - intros b. now rewrite value_of_upd.
Qed.

Lemma c_is_one hp n fr a : InvW hp n fr -> 0 < n a -> is_one hp a = Some (n a =? 1).
Proof. intros H L. destruct (InvW_live hp n fr a H L) as [w E]. unfold is_one. now rewrite E. Qed.

Lemma c_value hp n fr a : InvW hp n fr -> 0 < n a -> exists v, value_of hp a = Some v.
Proof.
  intros H L. destruct (InvW_live hp n fr a H L) as [w E]. exists w. eapply value_of_live; eauto.
Qed.

Lemma srefs_upd sl d x y a : nth_error sl d = Some x -> srefs (upd sl d y) a + hd x a = srefs sl a + hd y a.
Proof. apply (sumf_upd (fun x => hd x a)). Qed.

Lemma srefs_pos sl d a : nth_error sl d = Some (Some a) -> 0 < srefs sl a.
Proof. intros E. pose proof (sumf_ge (fun x => hd x a) _ _ _ E) as H. cbn in H. rewrite d1_same in H. exact H. Qed.

Lemma srefs_two sl d e a : d <> e -> nth_error sl d = Some (Some a) -> nth_error sl e = Some (Some a) -> 2 <= srefs sl a.
Proof.
  intros N E F. pose proof (sumf_ge2 (fun x => hd x a) _ _ _ _ _ N E F) as H. cbn in H. rewrite d1_same in H. exact H.
Qed.

Lemma qrefs_relq x a : qrefs (relq x) a = hd x a.
Proof. destruct x; cbn; auto. Qed.
Lemma qfrees_relq x a : qfrees (relq x) a = 0.
Proof. destruct x; cbn; auto. Qed.

(** Abstract values of a thread's slots. *)
Definition absv (hp : heapt) (x : option nat) : option T :=
  match x with Some a => value_of hp a | None => None end.

Lemma absv_step hp hp' sl d x :
  (forall e a, e <> d -> nth_error sl e = Some (Some a) -> value_of hp' a = value_of hp a) ->
  map (absv hp') (upd sl d x) = upd (map (absv hp) sl) d (absv hp' x).
Proof.
  intros H. apply nth_error_ext. intros k. rewrite nth_error_map, !nth_error_upd, map_length, nth_error_map.
  destruct (Nat.eqb_spec d k) as [<-|N].
  - destruct (d <? length sl); auto.
  - destruct (nth_error sl k) as [[a|]|] eqn:E; simpl; auto. rewrite (H k a); auto.
Qed.

Lemma absv_same hp hp' sl : (forall d a, nth_error sl d = Some (Some a) -> value_of hp' a = value_of hp a) ->
  map (absv hp') sl = map (absv hp) sl.
Proof.
  intros H. apply map_ext_in. intros [a|] I; auto. apply In_nth_error in I. destruct I as [d E]. cbn. eauto.
Qed.

(** The abstract operation still to be performed by the queue. *)
Definition pend (m : micro (T := T)) : list top :=
  match m with Mut d f => [TWrite d f] | Cpy d f => [TWrite d f] | Dfl d => [TDefault d] | _ => [] end.
Definition pending (q : list micro) : list top := concat (map pend q).

Lemma pending_relq x : pending (relq x) = [].
Proof. destruct x; reflexivity. Qed.
Lemma pending_app q r : pending (q ++ r) = pending q ++ pending r.
Proof. unfold pending. now rewrite map_app, concat_app. Qed.

(** Queue shapes that occur: releases then at most one action. *)
Inductive shape : list (micro (T := T)) -> Prop :=
| sh_nil : shape []
| sh_rel a : shape [Rel a]
| sh_free a : shape [Free a]
| sh_mut d f : shape [Mut d f]
| sh_cpy d f : shape [Cpy d f]
| sh_dfl d : shape [Dfl d]
| sh_rel_mut a d f : shape [Rel a; Mut d f]
| sh_free_mut a d f : shape [Free a; Mut d f].

Variable dflt : T.
Variable eqb : T -> T -> bool.
Hypothesis eqb_refl : forall v, eqb v v = true.

Definition dok (hp : heapt) (dv : option nat) : Prop := forall a, dv = Some a -> value_of hp a = Some dflt.

Definition tinv (hp : heapt) (n : nat -> nat) (dv : option nat) (total : list (tout (T := T))) (t : thread) : Prop :=
  shape (todo t) /\
  (forall d f, In (Mut d f) (todo t) -> exists a, nth_error (tslots t) d = Some (Some a) /\ n a = 1) /\
  (forall d, In (Dfl d) (todo t) -> dv <> None) /\
  exists rest, alone dflt eqb (pending (todo t) ++ prog t) (map (absv hp) (tslots t)) = Some rest /\
               total = outs t ++ rest.

(** Own invariant maintenance when another thread moves. *)
Lemma tinv_other hp hp' n n' dv dv' total t :
  tinv hp n dv total t ->
  (forall a, 0 < trefs t a -> value_of hp' a = value_of hp a) ->
  (forall a, 0 < trefs t a -> n a = 1 -> n' a = 1) ->
  (dv <> None -> dv' <> None) ->
  tinv hp' n' dv' total t.
Proof.
  intros (Sh & M & Df & rest & A & Tt) V N D. split; [|split; [|split]]; auto.
  - intros d f I. destruct (M d f I) as (a & E & O). exists a. split; auto. apply N; auto.
    unfold trefs. apply srefs_pos in E. lia.
  - intros d I. apply D. eauto.
  - exists rest. split; auto. rewrite (absv_same hp hp'); auto.
    intros d a E. apply V. unfold trefs. apply srefs_pos in E. lia.
Qed.

Definition plus3 (no : nat -> nat) (t : thread) (dv : option nat) (a : nat) : nat := no a + trefs t a + hd dv a.

Definition tpost hp dv t no fo total (hp' : heapt) dv' t' : Prop :=
  InvW hp' (plus3 no t' dv') (fun a => fo a + tfrees t' a) /\
  dok hp' dv' /\ tinv hp' (plus3 no t' dv') dv' total t' /\
  (forall a, 0 < no a -> value_of hp' a = value_of hp a) /\
  (forall a, 0 < no a -> plus3 no t dv a = 1 -> plus3 no t' dv' a = 1) /\
  (dv <> None -> dv' = dv).

Lemma alone_cons o p s rest : alone dflt eqb (o :: p) s = Some rest ->
  exists s' xs ys, alone_step dflt eqb o s = Some (s', xs) /\ alone dflt eqb p s' = Some ys /\ rest = xs ++ ys.
Proof.
  cbn [alone]. destruct (alone_step dflt eqb o s) as [[s' xs]|]; [|discriminate].
  destruct (alone dflt eqb p s') as [ys|] eqn:E; [|discriminate]. intros [= <-]. eauto 7.
Qed.

Ltac nthinv H Ex :=
  rewrite nth_error_map in H;
  match type of H with option_map _ (nth_error ?l ?d) = _ =>
    destruct (nth_error l d) as [?x|] eqn:Ex; cbn [option_map] in H; [|discriminate H] end;
  injection H as H.

Ltac unf := unfold plus3, trefs, tfrees in *; cbn [tslots todo prog outs] in *.
Ltac finI I := refine (InvW_ext _ _ _ _ _ _ _ I); intros b; unf.

Lemma single_owner (no : nat -> nat) sl q dv d a : nth_error sl d = Some (Some a) ->
  no a + (srefs sl a + qrefs q a) + hd dv a = 1 ->
  no a = 0 /\ dv <> Some a /\ (forall e, e <> d -> nth_error sl e <> Some (Some a)) /\ qrefs q a = 0 /\ srefs sl a = 1.
Proof.
  intros E O. pose proof (srefs_pos _ _ _ E). repeat split; try lia.
  - intros ->. cbn in O. rewrite d1_same in O. lia.
  - intros e N F. pose proof (srefs_two sl d e a ltac:(auto) E F). lia.
Qed.

Lemma tstep_ok hp dv t no fo total :
  InvW hp (plus3 no t dv) (fun a => fo a + tfrees t a) -> dok hp dv -> tinv hp (plus3 no t dv) dv total t ->
  (tstep dflt eqb hp dv t = Finished /\ prog t = [] /\ todo t = []) \/
  exists hp' dv' t', tstep dflt eqb hp dv t = Step hp' dv' t' /\ tpost hp dv t no fo total hp' dv' t'.
Proof using eqb_refl.
  intros I D (Sh & M & Df & rest & A & Tt). destruct t as [sl p q o]. unf.
  assert (SP : forall d a, nth_error sl d = Some (Some a) -> 0 < no a + (srefs sl a + qrefs q a) + hd dv a).
  { intros d a E. apply srefs_pos in E. lia. }
  assert (DP : forall a, dv = Some a -> 0 < no a + (srefs sl a + qrefs q a) + hd dv a).
  { intros a ->. cbn. rewrite d1_same. lia. }
  unfold tstep. cbn [tslots todo prog outs].
  assert (RelCase : forall a rest', q = Rel a :: rest' -> (rest' = [] \/ exists d f, rest' = [Mut d f]) ->
    exists hp' dv' t', match nth_error hp a with
      | Some (Live (S c) v) => Step (upd hp a (Live c v)) dv (Th sl p (if c =? 0 then Free a :: rest' else rest') o)
      | _ => Bad end = Step hp' dv' t' /\ tpost hp dv (Th sl p q o) no fo total hp' dv' t').
  { intros a q' Eq Sh'. subst q.
    destruct (c_dec hp _ _ a I) as (c & v & E1 & E2 & I1 & V1).
    { cbn. rewrite d1_same. lia. }
    rewrite E1. eexists _, _, _; split; [reflexivity|].
    assert (R : forall b, no b + (srefs sl b + qrefs (Rel a :: q') b) + hd dv b - d1 a b =
                no b + (srefs sl b + qrefs (if c =? 0 then Free a :: q' else q') b) + hd dv b).
    { intros b. replace (qrefs (if c =? 0 then Free a :: q' else q') b) with (qrefs q' b) by (destruct (c =? 0); reflexivity).
      unfold qrefs at 1. rewrite sumf_cons. cbn [mrel]. fold (qrefs q' b). lia. }
    split; [|split; [|split; [|split; [|split]]]]; unf.
    - refine (InvW_ext _ _ _ _ _ _ _ I1); intros b.
      + apply R.
      + destruct (c =? 0); unfold qfrees; rewrite ?sumf_cons; cbn [mfree]; lia.
    - intros b Eb. rewrite V1. auto.
    - split; [|split; [|split]]; cbn [tslots todo prog outs].
      + destruct Sh' as [->|(d & f & ->)]; destruct (c =? 0); constructor.
      + intros d f Im.
        assert (Im' : In (Mut d f) q') by (destruct (c =? 0); [destruct Im as [Hm|Hm]; [discriminate Hm|]|]; auto).
        destruct (M d f) as (b & Eb & O); [now right|]. exists b. split; auto. unf. rewrite <- R.
        destruct (single_owner no sl _ dv d b Eb O) as (_ & _ & _ & Q & _).
        destruct (Nat.eqb_spec a b) as [->|N].
        * exfalso. unfold qrefs in Q. rewrite sumf_cons in Q. cbn in Q. rewrite d1_same in Q. lia.
        * rewrite d1_other by auto. lia.
      + intros d Id. destruct Sh' as [->|(d' & f & ->)]; destruct (c =? 0); cbn in Id; intuition discriminate.
      + exists rest. split; auto. rewrite (absv_same hp) by (intros; apply V1).
        rewrite <- A. f_equal. destruct (c =? 0); reflexivity.
    - auto.
    - intros b Pb O. rewrite <- R.
      destruct (Nat.eqb_spec a b) as [->|N].
      + exfalso. cbn in O. rewrite d1_same in O. lia.
      + rewrite d1_other by auto. lia.
    - auto. }
  assert (FreeCase : forall a rest', q = Free a :: rest' -> (rest' = [] \/ exists d f, rest' = [Mut d f]) ->
    exists hp' dv' t', match nth_error hp a with
      | Some (Live _ _) => Step (upd hp a Freed) dv (Th sl p rest' o)
      | _ => Bad end = Step hp' dv' t' /\ tpost hp dv (Th sl p q o) no fo total hp' dv' t').
  { intros a q' Eq Sh'. subst q.
    destruct (c_free hp _ _ a I) as (v & E1 & E2 & E3 & I1 & V1).
    { cbn. rewrite d1_same. lia. }
    rewrite E1. eexists _, _, _; split; [reflexivity|].
    assert (NE : forall b, 0 < no b + (srefs sl b + qrefs (Free a :: q') b) + hd dv b -> b <> a).
    { intros b Pb ->. lia. }
    split; [|split; [|split; [|split; [|split]]]]; unf.
    - refine (InvW_ext _ _ _ _ _ _ _ I1); intros b.
      + reflexivity.
      + unfold qfrees; rewrite ?sumf_cons; cbn [mfree]. lia.
    - intros b Eb. rewrite V1; auto.
    - split; [|split; [|split]]; cbn [tslots todo prog outs].
      + destruct Sh' as [->|(d & f & ->)]; constructor.
      + intros d f Im. destruct (M d f) as (b & Eb & O); [now right|]. eauto.
      + intros d Id. apply (Df d). now right.
      + exists rest. split; auto. rewrite (absv_same hp); auto.
        intros e b Eb. apply V1. eauto.
    - intros b Pb. apply V1. apply NE. lia.
    - intros b Pb O. exact O.
    - auto. }
  assert (MutCase : forall d f, q = [Mut d f] ->
    exists hp' dv' t', match nth_error sl d with
      | Some (Some a) =>
          match value_of hp a with
          | Some v => match store hp a (f v) with
                      | Some hp' => Step hp' dv (Th sl p [] o)
                      | None => Bad end
          | None => Bad
          end
      | _ => Bad end = Step hp' dv' t' /\ tpost hp dv (Th sl p q o) no fo total hp' dv' t').
  { intros d f Eq. subst q. destruct (M d f) as (a & Ea & O); [now left|]. rewrite Ea.
    destruct (c_value hp _ _ a I) as [v Ev]; [unf; lia|]. rewrite Ev.
    destruct (c_store hp _ _ a (f v) I) as (hp1 & E1 & I1 & V1); [unf; lia|]. rewrite E1.
    destruct (single_owner no sl _ dv d a Ea O) as (O1 & O2 & O3 & _ & _).
    eexists _, _, _; split; [reflexivity|].
    split; [|split; [|split; [|split; [|split]]]]; unf.
    - refine (InvW_ext _ _ _ _ _ _ _ I1); intros b; reflexivity.
    - intros b Eb. rewrite V1. destruct (Nat.eqb_spec a b) as [<-|]; [congruence|auto].
    - split; [|split; [|split]]; cbn [tslots todo prog outs].
      + constructor.
      + intros ? ? [].
      + intros ? [].
      + change (pending [Mut d f] ++ p) with (TWrite d f :: p) in A.
        apply alone_cons in A. destruct A as (s' & xs & ys & As & Ap & ->).
        cbn [alone_step] in As. rewrite nth_error_map, Ea in As. cbn in As. rewrite Ev in As. injection As as <- <-.
        exists ys. split; auto. cbn [pending map concat app].
        rewrite <- (upd_same sl d (Some a) Ea) at 1. rewrite (absv_step hp).
        * cbn. rewrite V1, Nat.eqb_refl. exact Ap.
        * intros e b N Eb. rewrite V1. destruct (Nat.eqb_spec a b) as [<-|]; auto.
          exfalso. apply (O3 e); auto.
    - intros b Pb. rewrite V1. destruct (Nat.eqb_spec a b) as [<-|]; auto. lia.
    - intros b Pb Ob. exact Ob.
    - auto. }
  destruct Sh as [|a|a|d f|d f|d|a d f|a d f].
  - (* idle *)
    cbn [pending map concat app] in A.
    destruct p as [|op p]; [left; auto|right].
    apply alone_cons in A. destruct A as (s' & xs & ys & As & Ap & ->).
    (* releasing the old pointer of slot d after installing x with one extra reference *)
    assert (Install : forall hp1 d old x, nth_error sl d = Some old -> xs = [] ->
      InvW hp1 (fun b => no b + (srefs sl b + qrefs [] b) + hd dv b + hd x b) (fun a => fo a + qfrees [] a) ->
      (forall b, 0 < no b + (srefs sl b + qrefs [] b) + hd dv b -> value_of hp1 b = value_of hp b) ->
      (forall b, x = Some b -> 0 < no b -> 0 < srefs sl b) ->
      upd (map (absv hp) sl) d (absv hp1 x) = s' ->
      tpost hp dv (Th sl (op :: p) [] o) no fo total hp1 dv (Th (upd sl d x) p (relq old) o)).
    { intros hp1 d old x Ed -> I1 V1 X Es.
      assert (R : forall b, no b + (srefs sl b + qrefs [] b) + hd dv b + hd x b =
                no b + (srefs (upd sl d x) b + qrefs (relq old) b) + hd dv b).
      { intros b. rewrite qrefs_relq. pose proof (srefs_upd sl d old x b Ed). cbn. lia. }
      split; [|split; [|split; [|split; [|split]]]]; unf.
      - refine (InvW_ext _ _ _ _ _ _ _ I1); intros b; [apply R|]. now rewrite qfrees_relq.
      - intros b Eb. rewrite V1; auto.
      - split; [|split; [|split]]; cbn [tslots todo prog outs].
        + destruct old; constructor.
        + intros ? ? Im. destruct old; cbn in Im; intuition discriminate.
        + intros ? Im. destruct old; cbn in Im; intuition discriminate.
        + exists ys. rewrite pending_relq. split; auto. cbn [app].
          rewrite (absv_step hp). { rewrite Es. exact Ap. } intros e b N Eb. apply V1. eauto.
      - intros b Pb. apply V1. lia.
      - intros b Pb O. rewrite <- R. destruct x as [c|]; cbn [hd] in *; [|lia].
        destruct (Nat.eqb_spec c b) as [->|N]; [|rewrite d1_other by auto; lia].
        specialize (X b eq_refl Pb). cbn in O. lia.
      - auto. }
    destruct op as [d s|d s|d|d v|d f|d|d s|d]; cbn [alone_step] in As.
    + (* copy *)
      destruct (nth_error _ d) as [u|] eqn:Eu in As; [|discriminate].
      destruct (nth_error _ s) as [w|] eqn:Ew in As; [|discriminate]. injection As as <- <-.
      nthinv Eu Ed. nthinv Ew Es. rewrite ?Ed, ?Es.
      destruct x0 as [a|].
      * destruct (c_inc hp _ _ a I) as (hp1 & E1 & I1 & V1); [eauto|]. rewrite E1.
        eexists _, _, _; split; [reflexivity|]. apply Install; auto.
        -- intros b [= <-] _. eapply srefs_pos; eauto.
        -- rewrite <- Ew. cbn. now rewrite V1.
      * eexists _, _, _; split; [reflexivity|]. apply Install; auto.
        -- refine (InvW_ext _ _ _ _ _ _ _ I); intros b; cbn; lia.
        -- intros b [=].
        -- rewrite <- Ew. reflexivity.
    + (* move *)
      destruct (nth_error _ d) as [u|] eqn:Eu in As; [|discriminate].
      destruct (nth_error _ s) as [w|] eqn:Ew in As; [|discriminate]. injection As as <- <-.
      nthinv Eu Ed. nthinv Ew Es. rewrite ?Ed, ?Es.
      set (sl1 := upd sl s None).
      assert (E1 : exists old, nth_error sl1 d = Some old).
      { unfold sl1. rewrite nth_error_upd. destruct (Nat.eqb_spec s d) as [->|]; eauto.
        assert (L : d < length sl) by (apply nth_error_Some; congruence). apply Nat.ltb_lt in L. rewrite L. eauto. }
      destruct E1 as [old E1]. cbv zeta. rewrite E1. eexists _, _, _; split; [reflexivity|].
      assert (R : forall b, srefs sl b = srefs (upd sl1 d x0) b + qrefs (relq old) b).
      { intros b. rewrite qrefs_relq. pose proof (srefs_upd sl1 d old x0 b E1).
        pose proof (srefs_upd sl s x0 None b Es). fold sl1 in H0. cbn in H0. lia. }
      split; [|split; [|split; [|split; [|split]]]]; unf.
      * refine (InvW_ext _ _ _ _ _ _ _ I); intros b; [rewrite R; cbn; lia|]. now rewrite qfrees_relq.
      * auto.
      * split; [|split; [|split]]; cbn [tslots todo prog outs].
        -- destruct old; constructor.
        -- intros ? ? Im. destruct old; cbn in Im; intuition discriminate.
        -- intros ? Im. destruct old; cbn in Im; intuition discriminate.
        -- exists ys. rewrite pending_relq. split; auto. cbn [app].
           unfold sl1. rewrite !map_upd, Ew. exact Ap.
      * auto.
      * intros b Pb O. rewrite <- R. cbn in O. lia.
      * auto.
    + (* drop *)
      destruct (nth_error _ d) as [u|] eqn:Eu in As; [|discriminate]. injection As as <- <-.
      nthinv Eu Ed. rewrite ?Ed.
      eexists _, _, _; split; [reflexivity|]. apply Install; auto.
      * refine (InvW_ext _ _ _ _ _ _ _ I); intros b; cbn; lia.
      * intros b [=].
    + (* set *)
      destruct (nth_error _ d) as [u|] eqn:Eu in As; [|discriminate]. injection As as <- <-.
      nthinv Eu Ed. rewrite ?Ed.
      destruct (c_alloc hp _ _ v I) as (Z & Z' & I0 & V0).
      assert (V0' : forall b, 0 < no b + (srefs sl b + qrefs [] b) + hd dv b -> value_of (hp ++ [Live 1 v]) b = value_of hp b).
      { intros b Pb. rewrite V0. destruct (Nat.eqb_spec (length hp) b) as [<-|]; auto. lia. }
      assert (Inst : tpost hp dv (Th sl (TSet d v :: p) [] o) no fo total (hp ++ [Live 1 v]) dv
                       (Th (upd sl d (Some (length hp))) p (relq x) o)).
      { apply Install; auto.
        - intros b [= <-] Pb. lia.
        - cbn. now rewrite V0, Nat.eqb_refl. }
      destruct x as [a|].
      * rewrite (c_is_one hp _ _ a I) by eauto.
        destruct (Nat.eqb_spec (no a + (srefs sl a + qrefs [] a) + hd dv a) 1) as [O|O].
        -- eexists _, _, _; split; [reflexivity|].
           split; [|split; [|split; [|split; [|split]]]]; unf.
           ++ refine (InvW_ext _ _ _ _ _ _ _ I); intros b; reflexivity.
           ++ auto.
           ++ split; [|split; [|split]]; cbn [tslots todo prog outs].
              ** constructor.
              ** intros d' f' [[= <- <-]|[]]. exists a. split; auto.
              ** intros ? [Hm|[]]; discriminate Hm.
              ** exists ys. split; auto. change (pending [Mut d (fun _ => v)] ++ p) with (TWrite d (fun _ => v) :: p).
                 cbn [alone alone_step]. rewrite nth_error_map, Ed. cbn.
                 destruct (c_value hp _ _ a I) as [w Ew]; [eauto|]. rewrite Ew. cbn in Ap. rewrite Ap. reflexivity.
           ++ auto.
           ++ intros b Pb Ob. exact Ob.
           ++ auto.
        -- eexists _, _, _; split; [reflexivity|]. exact Inst.
      * eexists _, _, _; split; [reflexivity|]. exact Inst.
    + (* write *)
      destruct (nth_error _ d) as [[u|]|] eqn:Eu in As; try discriminate. injection As as <- <-.
      nthinv Eu Ed. rewrite ?Ed. destruct x as [a|]; [|discriminate]. cbn in Eu.
      rewrite (c_is_one hp _ _ a I) by eauto.
      assert (AA : alone dflt eqb (TWrite d f :: p) (map (absv hp) sl) = Some ys).
      { cbn [alone alone_step]. rewrite nth_error_map, Ed. cbn. rewrite Eu, Ap. reflexivity. }
      destruct (Nat.eqb_spec (no a + (srefs sl a + qrefs [] a) + hd dv a) 1) as [O|O];
        (eexists _, _, _; split; [reflexivity|]);
        (split; [|split; [|split; [|split; [|split]]]]; unf); auto.
      * split; [|split; [|split]]; cbn [tslots todo prog outs].
        -- constructor.
        -- intros d' f' [[= <- <-]|[]]. exists a. split; auto.
        -- intros ? [Hm|[]]; discriminate Hm.
        -- exists ys. split; auto.
      * split; [|split; [|split]]; cbn [tslots todo prog outs].
        -- constructor.
        -- intros d' f' [Hm|[]]; discriminate Hm.
        -- intros ? [Hm|[]]; discriminate Hm.
        -- exists ys. split; auto.
    + (* read *)
      destruct (nth_error _ d) as [[u|]|] eqn:Eu in As; try discriminate. injection As as <- <-.
      nthinv Eu Ed. rewrite ?Ed. destruct x as [a|]; [|discriminate]. cbn in Eu. rewrite Eu.
      eexists _, _, _; split; [reflexivity|].
      split; [|split; [|split; [|split; [|split]]]]; unf; auto.
      split; [|split; [|split]]; cbn [tslots todo prog outs].
      * constructor.
      * intros ? ? [].
      * intros ? [].
      * exists ys. split; auto. rewrite Tt, <- app_assoc. reflexivity.
    + (* eq *)
      destruct (nth_error (map (absv hp) sl) d) as [u|] eqn:Eu; [|discriminate].
      destruct (nth_error (map (absv hp) sl) s) as [w|] eqn:Ew; [|destruct u; discriminate].
      nthinv Eu Ed. nthinv Ew Es. rewrite ?Ed, ?Es.
      assert (Fin : forall r, xs = [TBool r] -> s' = map (absv hp) sl ->
         tpost hp dv (Th sl (TEq d s :: p) [] o) no fo total hp dv (Th sl p [] (o ++ [TBool r]))).
      { intros r -> ->. split; [|split; [|split; [|split; [|split]]]]; unf; auto.
        split; [|split; [|split]]; cbn [tslots todo prog outs].
        - constructor.
        - intros ? ? [].
        - intros ? [].
        - exists ys. split; auto. rewrite Tt, <- app_assoc. reflexivity. }
      unfold identity.
      destruct x as [a|], x0 as [b|]; cbn [ptr_eqb absv] in *.
      * destruct (c_value hp _ _ a I) as [va Va]; [eauto|]. destruct (c_value hp _ _ b I) as [vb Vb]; [eauto|].
        rewrite Va, Vb in *. subst u w. injection As as As1 As2.
        destruct (Nat.eqb_spec a b) as [<-|N].
        -- eexists _, _, _; split; [reflexivity|]. apply Fin; auto. rewrite <- As2. rewrite Va in Vb. injection Vb as <-.
           now rewrite eqb_refl.
        -- eexists _, _, _; split; [reflexivity|]. apply Fin; auto.
      * destruct (c_value hp _ _ a I) as [va Va]; [eauto|]. rewrite Va in *. subst u w. injection As as As1 As2.
        eexists _, _, _; split; [reflexivity|]. apply Fin; auto.
      * destruct (c_value hp _ _ b I) as [vb Vb]; [eauto|]. rewrite Vb in *. subst u w. injection As as As1 As2.
        eexists _, _, _; split; [reflexivity|]. apply Fin; auto.
      * subst u w. injection As as As1 As2.
        eexists _, _, _; split; [reflexivity|]. apply Fin; auto.
    + (* default *)
      destruct (nth_error _ d) as [u|] eqn:Eu in As; [|discriminate]. injection As as <- <-.
      nthinv Eu Ed. rewrite ?Ed.
      destruct dv as [a|].
      * eexists _, _, _; split; [reflexivity|].
        split; [|split; [|split; [|split; [|split]]]]; unf; auto.
        split; [|split; [|split]]; cbn [tslots todo prog outs].
        -- constructor.
        -- intros d' f' [Hm|[]]; discriminate Hm.
        -- intros ? _. discriminate.
        -- exists ys. split; auto. change (pending [Dfl d] ++ p) with (TDefault d :: p).
           cbn [alone alone_step]. rewrite nth_error_map, Ed. cbn. rewrite Ap. reflexivity.
      * destruct (c_alloc hp _ _ dflt I) as (Z & Z' & I0 & V0).
        assert (V0' : forall b, 0 < no b + (srefs sl b + qrefs [] b) -> value_of (hp ++ [Live 1 dflt]) b = value_of hp b).
        { intros b Pb. rewrite V0. destruct (Nat.eqb_spec (length hp) b) as [<-|]; auto. cbn in Z. cbn in Pb. lia. }
        eexists _, _, _; split; [reflexivity|].
        split; [|split; [|split; [|split; [|split]]]]; unf.
        -- refine (InvW_ext _ _ _ _ _ _ _ I0); intros b; cbn; lia.
        -- intros b [= <-]. now rewrite V0, Nat.eqb_refl.
        -- split; [|split; [|split]]; cbn [tslots todo prog outs].
           ++ constructor.
           ++ intros d' f' [Hm|[]]; discriminate Hm.
           ++ intros ? _. discriminate.
           ++ exists ys. split; auto. change (pending [Dfl d] ++ p) with (TDefault d :: p).
              rewrite (absv_same hp).
              ** cbn [alone alone_step]. rewrite nth_error_map, Ed. cbn. rewrite Ap. reflexivity.
              ** intros e b Eb. apply V0'. apply srefs_pos in Eb. lia.
        -- intros b Pb. apply V0'. lia.
        -- intros b Pb Ob. cbn in Ob |- *. destruct (Nat.eqb_spec (length hp) b) as [<-|N].
           ++ cbn in Z. lia.
           ++ rewrite d1_other by auto. lia.
        -- congruence.
  - right. apply (RelCase a []); auto.
  - right. apply (FreeCase a []); auto.
  - right. apply (MutCase d f); auto.
  - (* copy *)
    right. change (pending [Cpy d f] ++ p) with (TWrite d f :: p) in A.
    pose proof A as A0. apply alone_cons in A. destruct A as (s' & xs & ys & As & Ap & ->).
    cbn [alone_step] in As.
    destruct (nth_error _ d) as [[u|]|] eqn:Eu in As; try discriminate. injection As as <- <-.
    nthinv Eu Ed. rewrite ?Ed. destruct x as [a|]; [|discriminate]. cbn in Eu. rewrite Eu.
    destruct (c_alloc hp _ _ u I) as (Z & Z' & I0 & V0).
    assert (V0' : forall b, 0 < no b + (srefs sl b + qrefs [Cpy d f] b) + hd dv b -> value_of (hp ++ [Live 1 u]) b = value_of hp b).
    { intros b Pb. rewrite V0. destruct (Nat.eqb_spec (length hp) b) as [<-|]; auto. lia. }
    eexists _, _, _; split; [reflexivity|].
    assert (R : forall b, srefs (upd sl d (Some (length hp))) b + d1 a b = srefs sl b + d1 (length hp) b).
    { intros b. exact (srefs_upd sl d (Some a) (Some (length hp)) b Ed). }
    split; [|split; [|split; [|split; [|split]]]]; unf.
    + refine (InvW_ext _ _ _ _ _ _ _ I0); intros b; [|reflexivity].
      specialize (R b). cbn. lia.
    + intros b Eb. rewrite V0'; auto.
    + split; [|split; [|split]]; cbn [tslots todo prog outs].
      * constructor.
      * intros d' f' [Hm|[[= <- <-]|[]]]; [discriminate Hm|]. exists (length hp). split.
        { apply nth_error_upd_same. apply nth_error_Some. congruence. }
        pose proof (R (length hp)) as R1.
        assert (a <> length hp).
        { intros ->. apply SP in Ed. lia. }
        rewrite d1_same in R1. rewrite d1_other in R1 by auto. cbn in Z |- *. rewrite d1_other by auto. lia.
      * intros ? [Hm|[Hm|[]]]; discriminate Hm.
      * exists ys. split; auto. change (pending [Rel a; Mut d f] ++ p) with (TWrite d f :: p).
        rewrite (absv_step hp).
        -- cbn [absv]. rewrite V0, Nat.eqb_refl. rewrite upd_same. { exact A0. } rewrite nth_error_map, Ed. cbn. now rewrite Eu.
        -- intros e b N Eb. apply V0'. eauto.
    + intros b Pb. apply V0'. lia.
    + intros b Pb O. specialize (R b). cbn in O |- *.
      destruct (Nat.eqb_spec (length hp) b) as [<-|N].
      * lia.
      * rewrite (d1_other (length hp)) in R by auto. lia.
    + auto.
  - (* default, second half *)
    right. change (pending [Dfl d] ++ p) with (TDefault d :: p) in A.
    apply alone_cons in A. destruct A as (s' & xs & ys & As & Ap & ->).
    cbn [alone_step] in As.
    destruct (nth_error _ d) as [u|] eqn:Eu in As; [|discriminate]. injection As as <- <-.
    nthinv Eu Ed. rewrite ?Ed.
    destruct dv as [a|]; [|exfalso; apply (Df d); [now left|reflexivity]].
    destruct (c_inc hp _ _ a I) as (hp1 & E1 & I1 & V1); [eauto|]. rewrite E1.
    eexists _, _, _; split; [reflexivity|].
    assert (R : forall b, srefs (upd sl d (Some a)) b + hd x b = srefs sl b + d1 a b).
    { intros b. exact (srefs_upd sl d x (Some a) b Ed). }
    rewrite app_nil_r.
    split; [|split; [|split; [|split; [|split]]]]; unf.
    + refine (InvW_ext _ _ _ _ _ _ _ I1); intros b.
      * rewrite qrefs_relq. specialize (R b). cbn. lia.
      * now rewrite qfrees_relq.
    + intros b Eb. rewrite V1; auto.
    + split; [|split; [|split]]; cbn [tslots todo prog outs].
      * destruct x; constructor.
      * intros ? ? Im. destruct x; cbn in Im; intuition discriminate.
      * intros ? Im. destruct x; cbn in Im; intuition discriminate.
      * exists ys. rewrite pending_relq. split; auto. cbn [app].
        rewrite (absv_step hp) by (intros; apply V1). cbn. rewrite V1, (D a) by auto. exact Ap.
    + auto.
    + intros b Pb O. rewrite qrefs_relq. specialize (R b). cbn in O |- *.
      destruct (Nat.eqb_spec a b) as [->|N].
      * rewrite d1_same in O. lia.
      * rewrite d1_other in * by auto. lia.
    + auto.
  - right. apply (RelCase a [Mut d f]); eauto.
  - right. apply (FreeCase a [Mut d f]); eauto.
Qed.

(** The whole world. *)
Definition wrefs (w : world (T := T)) (a : nat) : nat :=
  sumf (fun t => trefs t a) (threads w) + hd (wdefault w) a.
Definition wfrees (w : world (T := T)) (a : nat) : nat := sumf (fun t => tfrees t a) (threads w).

Definition winv (totals : list (list tout)) (w : world (T := T)) : Prop :=
  InvW (wheap w) (wrefs w) (wfrees w) /\ dok (wheap w) (wdefault w) /\
  length totals = length (threads w) /\
  (forall i t total, nth_error (threads w) i = Some t -> nth_error totals i = Some total ->
     tinv (wheap w) (wrefs w) (wdefault w) total t).

Lemma wstep_ok totals w i : winv totals w ->
  exists w', wstep dflt eqb i w = Some w' /\ winv totals w'.
Proof using eqb_refl.
  intros (I & D & L & TI). unfold wstep.
  destruct (nth_error (threads w) i) as [t|] eqn:Et; [|exists w; split; [reflexivity|exact (conj I (conj D (conj L TI)))]].
  assert (exists total, nth_error totals i = Some total) as [total Etot].
  { destruct (nth_error totals i) eqn:E; eauto. apply nth_error_None in E.
    assert (i < length (threads w)) by (apply nth_error_Some; congruence). lia. }
  destruct w as [hp ths dv]. unfold wrefs, wfrees in *. cbn [wheap threads wdefault] in *.
  set (no := fun a => sumf (fun t => trefs t a) ths - trefs t a).
  set (fo := fun a => sumf (fun t => tfrees t a) ths - tfrees t a).
  assert (NO : forall a, sumf (fun t => trefs t a) ths = no a + trefs t a).
  { intros a. unfold no. pose proof (sumf_ge (fun t => trefs t a) ths i t Et). cbn in H. lia. }
  assert (FO : forall a, sumf (fun t => tfrees t a) ths = fo a + tfrees t a).
  { intros a. unfold fo. pose proof (sumf_ge (fun t => tfrees t a) ths i t Et). cbn in H. lia. }
  destruct (tstep_ok hp dv t no fo total) as [(E & _ & _)|(hp' & dv' & t' & E & P)].
  - refine (InvW_ext _ _ _ _ _ _ _ I); intros a; unfold plus3; [rewrite NO|rewrite FO]; lia.
  - exact D.
  - destruct (TI i t total Et Etot) as (Sh & M & Df & rest & A & Tt).
    split; [|split; [|split]]; auto. 2: eauto.
    intros d f Im. destruct (M d f Im) as (a & Ea & O). exists a. split; auto. unfold plus3. rewrite NO in O. lia.
  - rewrite E. eexists; split; [reflexivity|]. split; [|split; [|split]]; auto.
  - rewrite E. eexists; split; [reflexivity|].
    destruct P as (I' & D' & TI' & V' & N' & DV').
    assert (NO' : forall a, sumf (fun t => trefs t a) (upd ths i t') = no a + trefs t' a).
    { intros a. pose proof (sumf_upd (fun t => trefs t a) ths i t t' Et). cbn in H. rewrite NO in H. lia. }
    assert (FO' : forall a, sumf (fun t => tfrees t a) (upd ths i t') = fo a + tfrees t' a).
    { intros a. pose proof (sumf_upd (fun t => tfrees t a) ths i t t' Et). cbn in H. rewrite FO in H. lia. }
    split; [|split; [|split]]; unfold wrefs, wfrees; cbn [wheap threads wdefault].
    + refine (InvW_ext _ _ _ _ _ _ _ I'); intros a; unfold plus3; [rewrite NO'|rewrite FO']; lia.
    + exact D'.
    + now rewrite upd_length.
    + intros j tj totj Ej Etj. rewrite nth_error_upd in Ej. destruct (Nat.eqb_spec i j) as [<-|N].
      * destruct (i <? length ths); [|discriminate]. injection Ej as <-.
        rewrite Etot in Etj. injection Etj as <-.
        destruct TI' as (Sh & M & Df & rest & A & Tt).
        split; [|split; [|split]]; auto. 2: eauto.
        intros d f Im. destruct (M d f Im) as (a & Ea & O). exists a. split; auto. unfold plus3 in O. rewrite NO'. lia.
      * assert (OJ : forall a, trefs tj a <= no a).
        { intros a. pose proof (sumf_ge2 (fun t => trefs t a) ths i j t tj N Et Ej). cbn in H. rewrite NO in H. lia. }
        eapply tinv_other; [apply (TI j tj totj Ej Etj)| | |].
        -- intros a Pa. apply V'. specialize (OJ a). lia.
        -- intros a Pa O. cbv beta in O. rewrite NO'. rewrite NO in O. specialize (OJ a). specialize (N' a). unfold plus3 in N'.
           lia.
        -- intros Hd. rewrite DV'; auto.
Qed.

Lemma wrun_ok totals sched : forall w, winv totals w ->
  exists w', wrun dflt eqb sched w = Some w' /\ winv totals w'.
Proof using eqb_refl.
  induction sched as [|i s IH]; intros w H; cbn [wrun]; eauto.
  destruct (wstep_ok totals w i H) as (w1 & E & H1). rewrite E. auto.
Qed.

Lemma winv_no_race totals w : winv totals w -> ~ race w.
Proof using eqb_refl.
  intros (I & D & L & TI) (i & j & ti & tj & a & bi & bj & N & Ei & Ej & Ai & Aj & B).
  assert (G : forall i t, nth_error (threads w) i = Some t -> exists total, tinv (wheap w) (wrefs w) (wdefault w) total t).
  { intros k t E. destruct (nth_error totals k) eqn:Ek; [eauto|]. apply nth_error_None in Ek.
    assert (k < length (threads w)) by (apply nth_error_Some; congruence). lia. }
  (* reading or writing through a slot means owning a reference *)
  assert (Acc : forall t b, In (a, b) (next_accesses t) ->
     tfrees t a >= 1 /\ b = true \/ 0 < trefs t a).
  { intros t b H. unfold next_accesses in H.
    assert (SA : forall d bb, In (a, b) (map (fun a => (a, bb)) (slot_addr t d)) -> 0 < trefs t a).
    { intros d bb Hd. unfold slot_addr in Hd. destruct (nth_error (tslots t) d) as [[x|]|] eqn:Ex; cbn in Hd; try tauto.
      destruct Hd as [[= -> _]|[]]. apply srefs_pos in Ex. unfold trefs. lia. }
    destruct (todo t) as [|[x|x|d f|d f|d] q] eqn:Eq; cbn in H; try tauto; eauto.
    - destruct (prog t) as [|[]]; cbn in H; try tauto; eauto.
      rewrite map_app in H. apply in_app_or in H. destruct H; eauto.
    - destruct H as [[= -> <-]|[]]. left. split; auto. unfold tfrees. rewrite Eq. cbn. rewrite d1_same. lia. }
  assert (W : forall t, In (a, true) (next_accesses t) -> (exists total, tinv (wheap w) (wrefs w) (wdefault w) total t) ->
     tfrees t a >= 1 \/ 0 < trefs t a /\ wrefs w a = 1).
  { intros t H [total (Sh & M & Df & _)]. unfold next_accesses in H.
    destruct (todo t) as [|[x|x|d f|d f|d] q] eqn:Eq; cbn in H; try tauto.
    - destruct (prog t) as [|[]]; cbn in H; try tauto;
        apply in_map_iff in H; destruct H as (? & Hh & _); discriminate Hh.
    - destruct H as [[= ->]|[]]. left. unfold tfrees. rewrite Eq. cbn. rewrite d1_same. lia.
    - right. destruct (M d f) as (b & Eb & O); [now left|].
      unfold slot_addr in H. rewrite Eb in H. cbn in H. destruct H as [[= ->]|[]].
      split; auto. apply srefs_pos in Eb. unfold trefs. lia.
    - apply in_map_iff in H. destruct H as (? & Hh & _). discriminate Hh. }
  pose proof (sumf_ge2 (fun t => trefs t a) _ _ _ _ _ N Ei Ej) as R2. cbn in R2.
  pose proof (sumf_ge2 (fun t => tfrees t a) _ _ _ _ _ N Ei Ej) as F2. cbn in F2.
  assert (RW : sumf (fun t => trefs t a) (threads w) <= wrefs w a) by (unfold wrefs; lia).
  specialize (I a). unfold wfrees in I.
  assert (Fin : forall t u b, trefs t a + trefs u a <= wrefs w a ->
      tfrees t a + tfrees u a <= sumf (fun t => tfrees t a) (threads w) ->
      In (a, true) (next_accesses t) -> (exists total, tinv (wheap w) (wrefs w) (wdefault w) total t) ->
      In (a, b) (next_accesses u) -> False).
  { intros t u b R F Ht Gt Hu. destruct (W t Ht Gt) as [X|[X Y]]; destruct (Acc u b Hu) as [[Z _]|Z].
    - destruct (nth_error (wheap w) a) as [[c v|]|]; try lia. destruct I as [-> I2]. destruct (wrefs w a =? 0); lia.
    - destruct (nth_error (wheap w) a) as [[c v|]|]; try lia. destruct I as [-> I2].
      destruct (Nat.eqb_spec (wrefs w a) 0); lia.
    - destruct (nth_error (wheap w) a) as [[c v|]|]; try lia. destruct I as [-> I2].
      destruct (Nat.eqb_spec (wrefs w a) 0); lia.
    - lia. }
  destruct bi; [|destruct bj; [|discriminate]].
  - apply (Fin ti tj bj); auto; try lia. eauto.
  - apply (Fin tj ti false); auto; try lia. eauto.
Qed.

(** Initial states satisfy the invariant. *)
Lemma count_sumf (k : nat) (l : list (option nat)) :
  length (filter (fun x => match x with Some a => a =? k | None => false end) l) = sumf (fun x => hd x k) l.
Proof. induction l as [|[a|] l IH]; cbn; auto. unfold d1. destruct (a =? k); cbn; rewrite IH; reflexivity. Qed.

Lemma init_cells_nth ts k (vs : list T) a : nth_error (init_cells ts k vs) a =
  match nth_error vs a with
  | Some v => Some (if initial_count ts (k + a) =? 0 then Freed (T := T) else Live (initial_count ts (k + a)) v)
  | None => None
  end.
Proof.
  revert k a; induction vs as [|v vs IH]; intros k [|a]; cbn [init_cells nth_error]; auto.
  - now rewrite Nat.add_0_r.
  - rewrite IH. now replace (S k + a) with (k + S a) by lia.
Qed.

Lemma winv_init (vs : list T) ts totals :
  (forall hs p, In (hs, p) ts -> handles_exist vs hs) ->
  length totals = length ts ->
  (forall i hs p total, nth_error ts i = Some (hs, p) -> nth_error totals i = Some total ->
     alone dflt eqb p (initial_values vs hs) = Some total) ->
  winv totals (init vs ts).
Proof using eqb_refl.
  intros HE L A.
  assert (IC : forall a, initial_count ts a = sumf (fun t => trefs t a) (threads (init vs ts))).
  { intros a. unfold initial_count. rewrite count_sumf. unfold init. cbn [threads]. clear.
    induction ts as [|[hs p] ts IH]; cbn [map concat]; auto. rewrite sumf_app, sumf_cons, IH. cbn [fst].
    unfold trefs at 2. cbn [tslots todo]. change (qrefs [] a) with 0. unfold srefs. lia. }
  assert (FZ : forall a, wfrees (init vs ts) a = 0).
  { intros a. unfold wfrees, init. cbn [threads]. clear. induction ts as [|x ts IH]; cbn [map]; auto. }
  assert (Ex : forall a, 0 < initial_count ts a -> a < length vs).
  { intros a P. unfold initial_count in P.
    destruct (filter _ (concat (map fst ts))) as [|z l] eqn:Ef; [cbn in P; lia|].
    assert (Iz : In z (z :: l)) by now left. rewrite <- Ef in Iz. apply filter_In in Iz. destruct Iz as [Iz Pz].
    destruct z as [b|]; [|discriminate]. apply Nat.eqb_eq in Pz. subst b.
    apply in_concat in Iz. destruct Iz as (hs & Ih & Iz). apply in_map_iff in Ih. destruct Ih as ([hs' p] & <- & Ih).
    exact (HE hs' p Ih a Iz). }
  assert (WR : forall a, wrefs (init vs ts) a = initial_count ts a).
  { intros a. unfold wrefs. rewrite <- IC. cbn. lia. }
  split; [|split; [|split]].
  - intros a. rewrite FZ, WR. cbn [wheap init]. rewrite init_cells_nth. cbn [Nat.add].
    destruct (nth_error vs a) as [v|] eqn:Ev.
    + destruct (Nat.eqb_spec (initial_count ts a) 0) as [Z|Z]; [auto|].
      split; auto. apply Nat.eqb_neq in Z. now rewrite Z.
    + apply nth_error_None in Ev. split; auto.
      destruct (Nat.eq_dec (initial_count ts a) 0); auto. specialize (Ex a ltac:(lia)). lia.
  - intros a [=].
  - unfold init. cbn [threads]. now rewrite map_length.
  - intros i t total Et Etot. unfold init in Et. cbn [threads] in Et. rewrite nth_error_map in Et.
    destruct (nth_error ts i) as [[hs p]|] eqn:Ei; [|discriminate]. injection Et as <-.
    split; [|split; [|split]]; cbn [todo tslots prog outs].
    + constructor.
    + intros ? ? [].
    + intros ? [].
    + exists total. split; auto. cbn [pending map concat app].
      rewrite <- (A i hs p total Ei Etot). f_equal. unfold initial_values.
      apply map_ext_in. intros [k|] Ik; auto. cbn [absv]. unfold value_of. cbn [wheap init].
      rewrite init_cells_nth. cbn [Nat.add].
      assert (P : 0 < initial_count ts k).
      { rewrite IC. assert (nth_error (threads (init vs ts)) i = Some (Th hs p [] [])).
        { unfold init. cbn [threads]. rewrite nth_error_map, Ei. reflexivity. }
        pose proof (sumf_ge (fun t => trefs t k) _ _ _ H) as G. cbv beta in G.
        apply In_nth_error in Ik. destruct Ik as [d Ed]. apply srefs_pos in Ed.
        unfold trefs at 1 in G. cbn [tslots todo] in G. lia. }
      destruct (nth_error vs k) eqn:Ev; auto.
      destruct (Nat.eqb_spec (initial_count ts k) 0); [lia|]. reflexivity.
Qed.

(** Every step of a thread brings it closer to its end. *)
Definition msize (m : micro (T := T)) : nat :=
  match m with Rel _ => 2 | Free _ => 1 | Mut _ _ => 1 | Cpy _ _ => 4 | Dfl _ => 3 end.
Definition tsize (t : thread) : nat := 5 * length (prog t) + sumf msize (todo t).

Lemma sumf_relq x : sumf msize (relq x) <= 2.
Proof using Type. destruct x; cbn; auto. Qed.

Lemma tstep_size hp dv t hp' dv' t' : tstep dflt eqb hp dv t = Step hp' dv' t' -> tsize t' < tsize t.
Proof using eqb_refl.
  unfold tstep, tsize. destruct t as [sl p q o]. cbn [tslots todo prog outs].
  destruct q as [|[a|a|d f|d f|d] q].
  - destruct p as [|[d s|d s|d|d v|d f|d|d s|d] p]; try discriminate; cbn [length];
      repeat (match goal with |- context [match ?x with _ => _ end] =>
                match x with context [match _ with _ => _ end] => fail 1 | _ => destruct x eqn:? end end;
              try discriminate);
      intros [= <- <- <-]; cbn [todo prog];
      try (pose proof (sumf_relq o0)); try (pose proof (sumf_relq o1)); try (pose proof (sumf_relq o2));
      cbn in *; try lia.
  - rewrite sumf_cons. cbn [msize].
    destruct (nth_error hp a) as [[[|c] v|]|]; try discriminate. intros [= <- <- <-]. cbn [todo prog].
    destruct (c =? 0); rewrite ?sumf_cons; cbn [msize]; lia.
  - rewrite sumf_cons. cbn [msize].
    destruct (nth_error hp a) as [[c v|]|]; try discriminate. intros [= <- <- <-]. cbn [todo prog]. lia.
  - rewrite sumf_cons. cbn [msize].
    destruct (nth_error sl d) as [[a|]|]; try discriminate. destruct (value_of hp a); try discriminate.
    destruct (store hp a _); try discriminate. intros [= <- <- <-]. cbn [todo prog]. lia.
  - rewrite sumf_cons. cbn [msize].
    destruct (nth_error sl d) as [[a|]|]; try discriminate. destruct (value_of hp a); try discriminate.
    intros [= <- <- <-]. cbn [todo prog]. rewrite !sumf_cons. cbn [msize]. lia.
  - rewrite sumf_cons. cbn [msize]. destruct dv as [a|]; try discriminate.
    destruct (nth_error sl d) as [x|]; try discriminate.
    destruct (increment hp a); try discriminate. intros [= <- <- <-]. cbn [todo prog].
    rewrite sumf_app. pose proof (sumf_relq x). lia.
Qed.

Lemma finished_shape hp dv t : tstep dflt eqb hp dv t = Finished -> todo t = [] /\ prog t = [].
Proof using eqb_refl.
  unfold tstep. destruct t as [sl p q o]. cbn [tslots todo prog outs].
  destruct q as [|[a|a|d f|d f|d] q].
  - destruct p as [|[d s|d s|d|d v|d f|d|d s|d] p]; auto;
      repeat (match goal with |- context [match ?x with _ => _ end] =>
                match x with context [match _ with _ => _ end] => fail 1 | _ => destruct x eqn:? end end;
              try discriminate).
  - destruct (nth_error hp a) as [[[|c] v|]|]; discriminate.
  - destruct (nth_error hp a) as [[c v|]|]; discriminate.
  - destruct (nth_error sl d) as [[a|]|]; try discriminate. destruct (value_of hp a); try discriminate.
    destruct (store hp a _); discriminate.
  - destruct (nth_error sl d) as [[a|]|]; try discriminate. destruct (value_of hp a); discriminate.
  - destruct dv as [a|]; try discriminate. destruct (nth_error sl d) as [x|]; try discriminate.
    destruct (increment hp a); discriminate.
Qed.

Lemma wrun_finishes i sched : forall w w' t, wrun dflt eqb sched w = Some w' ->
  nth_error (threads w) i = Some t -> tsize t <= count_occ Nat.eq_dec sched i ->
  exists t', nth_error (threads w') i = Some t' /\ todo t' = [] /\ prog t' = [].
Proof using eqb_refl.
  induction sched as [|j s IH]; intros w w' t R Et Sz; cbn [wrun count_occ] in *.
  - injection R as <-. exists t. split; auto. unfold tsize in Sz.
    destruct (prog t); cbn [length] in Sz; [|lia]. split; auto.
    destruct (todo t) as [|m q]; auto. rewrite sumf_cons in Sz. destruct m; cbn in Sz; lia.
  - unfold wstep in R. destruct (nth_error (threads w) j) as [tj|] eqn:Ej.
    + destruct (tstep dflt eqb (wheap w) (wdefault w) tj) as [hp dv t1| |] eqn:E1; [| |discriminate].
      * destruct (Nat.eq_dec j i) as [->|N].
        -- assert (tj = t) by congruence. subst tj. apply tstep_size in E1.
           eapply (IH _ _ t1 R). { cbn [threads]. apply nth_error_upd_same. apply nth_error_Some. congruence. } lia.
        -- eapply (IH _ _ t R); [|lia]. cbn [threads]. now rewrite nth_error_upd_other.
      * destruct (Nat.eq_dec j i) as [->|N].
        -- assert (tj = t) by congruence. subst tj. apply finished_shape in E1. destruct E1 as [Q P].
           eapply (IH _ _ t R); auto. unfold tsize. rewrite Q, P. cbn. lia.
        -- eapply (IH _ _ t R); auto.
    + destruct (Nat.eq_dec j i) as [->|N]; [congruence|]. eapply (IH _ _ t R); auto.
Qed.

End C.
