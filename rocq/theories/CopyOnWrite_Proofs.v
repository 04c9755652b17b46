(** Sequential copy_on_write: exact counts and refinement of plain values. *)
From Verif Require Import Prelude CopyOnWrite_Model CopyOnWrite_Spec.
Ltac Zify.zify_post_hook ::= idtac.

Section P.
Context {T : Type}.
Notation heapt := (list (cell T)).

Definition d1 (a b : nat) : nat := if a =? b then 1 else 0.
Definition hd (x : handle) (b : nat) : nat := match x with Some a => d1 a b | None => 0 end.
Definition hsl (x : option handle) (b : nat) : nat := match x with Some y => hd y b | None => 0 end.

Lemma d1_same a : d1 a a = 1.
Proof. unfold d1. now rewrite Nat.eqb_refl. Qed.
Lemma d1_other a b : a <> b -> d1 a b = 0.
Proof. unfold d1. intros H. apply Nat.eqb_neq in H. now rewrite H. Qed.

(** [n a] references to object [a] are accounted for. *)
Definition Inv (hp : heapt) (n : nat -> nat) : Prop :=
  forall a, match nth_error hp a with
            | Some (Live c _) => c = n a /\ 0 < c
            | _ => n a = 0
            end.

Lemma Inv_ext hp n m : (forall a, n a = m a) -> Inv hp n -> Inv hp m.
Proof. intros E H a. specialize (H a). rewrite <- (E a). exact H. Qed.

Lemma Inv_live hp n a : Inv hp n -> 0 < n a -> exists v, nth_error hp a = Some (Live (n a) v).
Proof.
  intros H L. specialize (H a). destruct (nth_error hp a) as [[c v|]|]; try lia.
  destruct H as [-> _]. eauto.
Qed.

Lemma Inv_lt hp n a : Inv hp n -> 0 < n a -> a < length hp.
Proof. intros H L. destruct (Inv_live hp n a H L) as [v E]. apply nth_error_Some. congruence. Qed.

Lemma value_of_live hp (a c : nat) (v : T) : nth_error hp a = Some (Live c v) -> value_of hp a = Some v.
Proof. unfold value_of. now intros ->. Qed.

Lemma value_of_upd hp a b c (v : T) : a < length hp ->
  value_of (upd hp a (Live c v)) b = if a =? b then Some v else value_of hp b.
Proof.
  intros L. unfold value_of. rewrite nth_error_upd.
  destruct (a =? b) eqn:E; auto. apply Nat.ltb_lt in L. now rewrite L.
Qed.

Lemma inc_ok hp n a : Inv hp n -> 0 < n a ->
  exists hp', increment hp a = Some hp' /\ Inv hp' (fun b => n b + d1 a b) /\
    (forall b, value_of hp' b = value_of hp b).
Proof.
  intros H L. destruct (Inv_live hp n a H L) as [v E]. pose proof (Inv_lt hp n a H L) as Lt.
  unfold increment. rewrite E. eexists; split; [reflexivity|]. split.
  - intros b. rewrite nth_error_upd. unfold d1. destruct (Nat.eqb_spec a b) as [<-|N].
    + apply Nat.ltb_lt in Lt. rewrite Lt. lia.
    + rewrite Nat.add_0_r. apply H.
  - intros b. rewrite value_of_upd by auto. destruct (Nat.eqb_spec a b) as [<-|N]; auto.
    symmetry. eapply value_of_live; eauto.
Qed.

Lemma rel_ok hp n a : Inv hp n -> 0 < n a ->
  exists hp', release hp (Some a) = Some hp' /\ Inv hp' (fun b => n b - d1 a b) /\
    (forall b, 0 < n b - d1 a b -> value_of hp' b = value_of hp b).
Proof.
  intros H L. destruct (Inv_live hp n a H L) as [v E]. pose proof (Inv_lt hp n a H L) as Lt.
  unfold release. rewrite E. eexists; split; [reflexivity|]. split.
  - intros b. rewrite nth_error_upd. unfold d1. destruct (Nat.eqb_spec a b) as [<-|N].
    + apply Nat.ltb_lt in Lt. rewrite Lt. destruct (Nat.eqb_spec (n a) 1); lia.
    + rewrite Nat.sub_0_r. apply H.
  - intros b Lb. destruct (Nat.eqb_spec a b) as [<-|N].
    + rewrite d1_same in Lb. destruct (Nat.eqb_spec (n a) 1); [lia|].
      rewrite value_of_upd, Nat.eqb_refl by auto. symmetry. eapply value_of_live; eauto.
    + unfold value_of. rewrite nth_error_upd_other; auto.
Qed.

Lemma relh_ok hp n x : Inv hp n -> (forall a, x = Some a -> 0 < n a) ->
  exists hp', release hp x = Some hp' /\ Inv hp' (fun b => n b - hd x b) /\
    (forall b, 0 < n b - hd x b -> value_of hp' b = value_of hp b).
Proof.
  destruct x as [a|]; intros H L.
  - apply rel_ok; auto.
  - exists hp. split; [reflexivity|]. split; auto.
    eapply Inv_ext; [|exact H]. intros b; simpl; lia.
Qed.

Lemma copyh_ok hp n x : Inv hp n -> (forall a, x = Some a -> 0 < n a) ->
  exists hp', copy_handle hp x = Some hp' /\ Inv hp' (fun b => n b + hd x b) /\
    (forall b, value_of hp' b = value_of hp b).
Proof.
  destruct x as [a|]; intros H L.
  - apply inc_ok; auto.
  - exists hp. split; [reflexivity|]. split; auto.
    eapply Inv_ext; [|exact H]. intros b; simpl; lia.
Qed.

Lemma alloc_Inv hp n (v : T) : Inv hp n ->
  n (length hp) = 0 /\ Inv (hp ++ [Live 1 v]) (fun b => n b + d1 (length hp) b) /\
  (forall b, value_of (hp ++ [Live 1 v]) b = if length hp =? b then Some v else value_of hp b).
Proof.
  intros H.
  assert (Z : n (length hp) = 0).
  { specialize (H (length hp)). rewrite (proj2 (nth_error_None hp (length hp))) in H; auto. }
  split; auto. split.
  - intros b. unfold d1. destruct (Nat.eqb_spec (length hp) b) as [<-|N].
    + rewrite nth_error_app2, Nat.sub_diag by auto. simpl. lia.
    + rewrite Nat.add_0_r. specialize (H b). destruct (Nat.lt_ge_cases b (length hp)).
      * now rewrite nth_error_app1.
      * rewrite (proj2 (nth_error_None hp b)) in H by auto.
        rewrite (proj2 (nth_error_None (hp ++ [Live 1 v]) b)); auto.
        rewrite app_length; simpl; lia.
  - intros b. unfold value_of. destruct (Nat.eqb_spec (length hp) b) as [<-|N].
    + now rewrite nth_error_app2, Nat.sub_diag by auto.
    + destruct (Nat.lt_ge_cases b (length hp)).
      * now rewrite nth_error_app1.
      * rewrite (proj2 (nth_error_None hp b)) by auto.
        rewrite (proj2 (nth_error_None (hp ++ [Live 1 v]) b)); auto.
        rewrite app_length; simpl; lia.
Qed.

Lemma store_ok hp n a v : Inv hp n -> 0 < n a ->
  exists hp', store hp a v = Some hp' /\ Inv hp' n /\
    (forall b, value_of hp' b = if a =? b then Some v else value_of hp b).
Proof.
  intros H L. destruct (Inv_live hp n a H L) as [w E]. pose proof (Inv_lt hp n a H L) as Lt.
  unfold store. rewrite E. eexists; split; [reflexivity|]. split.
  - intros b. rewrite nth_error_upd. destruct (Nat.eqb_spec a b) as [<-|N].
    + apply Nat.ltb_lt in Lt. rewrite Lt. lia.
    + apply H.
  - intros b. now rewrite value_of_upd.
Qed.

Lemma is_one_ok hp n a : Inv hp n -> 0 < n a -> is_one hp a = Some (n a =? 1).
Proof.
  intros H L. destruct (Inv_live hp n a H L) as [w E]. unfold is_one. now rewrite E.
Qed.

Lemma value_ok hp n a : Inv hp n -> 0 < n a -> exists v, value_of hp a = Some v.
Proof.
  intros H L. destruct (Inv_live hp n a H L) as [w E]. exists w. eapply value_of_live; eauto.
Qed.

(** Counting slots. *)
Lemma handles_upd a (sl : list (option handle)) h x y : nth_error sl h = Some x ->
  handles_of a (upd sl h y) + hsl x a = handles_of a sl + hsl y a.
Proof.
  unfold handles_of.
  assert (P : forall z, (if points_to a z then 1 else 0) = hsl z a).
  { intros [[b|]|]; reflexivity. }
  revert h; induction sl as [|z sl IH]; intros [|h] E; simpl in E; try discriminate.
  - injection E as ->. cbn [upd filter]. rewrite <- (P x), <- (P y).
    destruct (points_to a x), (points_to a y); simpl; lia.
  - cbn [upd filter]. specialize (IH h E). destruct (points_to a z); simpl; lia.
Qed.

Lemma handles_pos a (sl : list (option handle)) h : nth_error sl h = Some (Some (Some a)) -> 0 < handles_of a sl.
Proof.
  intros E. pose proof (handles_upd a sl h _ None E) as H. simpl in H. rewrite d1_same in H. lia.
Qed.

Lemma handles_two a (sl : list (option handle)) h k : h <> k ->
  nth_error sl h = Some (Some (Some a)) -> nth_error sl k = Some (Some (Some a)) -> 2 <= handles_of a sl.
Proof.
  intros N E E'. pose proof (handles_upd a sl h _ None E) as H. simpl in H. rewrite d1_same in H.
  assert (0 < handles_of a (upd sl h (@None handle))); [|lia].
  apply handles_pos with k. now rewrite nth_error_upd_other.
Qed.

Definition dref (d : option nat) (a : nat) : nat := hd d a.
Definition refs (sl : list (option handle)) (d : option nat) (a : nat) : nat := handles_of a sl + dref d a.

Definition absslot (hp : heapt) (x : option handle) : option (option T) :=
  match x with
  | None => None
  | Some None => Some None
  | Some (Some a) => Some (value_of hp a)
  end.
Definition vals (st : state (T := T)) : vslots := map (absslot (heap st)) (slots st).

Lemma map_upd {A B} (f : A -> B) l i x : map f (upd l i x) = upd (map f l) i (f x).
Proof. revert i; induction l as [|a l IH]; intros [|i]; simpl; auto. now rewrite IH. Qed.

Lemma vals_nth st h x : nth_error (vals st) h = Some x ->
  exists y, nth_error (slots st) h = Some y /\ x = absslot (heap st) y.
Proof.
  unfold vals. rewrite nth_error_map. destruct (nth_error (slots st) h) as [y|]; simpl; [|discriminate].
  intros [= <-]. eauto.
Qed.

Lemma vals_same hp hp' (sl : list (option handle)) :
  (forall a, 0 < handles_of a sl -> value_of hp' a = value_of hp a) ->
  map (absslot hp') sl = map (absslot hp) sl.
Proof.
  intros H. apply map_ext_in. intros [[a|]|] I; simpl; auto. rewrite H; auto.
  apply In_nth_error in I. destruct I as [h E]. eapply handles_pos; eauto.
Qed.

Lemma upd_same {A} (l : list A) i x : nth_error l i = Some x -> upd l i x = l.
Proof. revert i; induction l as [|a l IH]; intros [|i] E; simpl in *; try discriminate.
  - congruence. - now rewrite IH. Qed.

(** Changing slot [h] and the heap together. *)
Lemma vals_step hp hp' (sl : list (option handle)) h (x : option handle) :
  (forall a k, k <> h -> nth_error sl k = Some (Some (Some a)) -> value_of hp' a = value_of hp a) ->
  map (absslot hp') (upd sl h x) = upd (map (absslot hp) sl) h (absslot hp' x).
Proof.
  intros H. apply nth_error_ext. intros k. rewrite nth_error_map, !nth_error_upd, map_length, nth_error_map.
  destruct (Nat.eqb_spec h k) as [<-|N].
  - destruct (h <? length sl); auto.
  - destruct (nth_error sl k) as [[[a|]|]|] eqn:E; simpl; auto. rewrite (H a k); auto.
Qed.

Lemma slot_pos (st : state (T := T)) h a : nth_error (slots st) h = Some (Some (Some a)) ->
  0 < refs (slots st) (default_s st) a.
Proof. intros E. apply handles_pos in E. unfold refs. lia. Qed.

Ltac absinv H :=
  let y := fresh "y" in let E := fresh "E" in let A := fresh "A" in
  apply vals_nth in H; destruct H as (y & E & A).

Lemma refs_upd (sl : list (option handle)) d h x y a : nth_error sl h = Some x ->
  refs (upd sl h y) d a + hsl x a = refs sl d a + hsl y a.
Proof. intros E. unfold refs. pose proof (handles_upd a sl h x y E). lia. Qed.

Lemma handles_le sl d a : handles_of a sl <= refs sl d a.
Proof. unfold refs. lia. Qed.

Lemma pos_refs (sl : list (option handle)) d h k x y a : nth_error sl h = Some x -> k <> h ->
  nth_error sl k = Some (Some (Some a)) -> 0 < refs (upd sl h y) d a.
Proof.
  intros E N K. unfold refs. assert (0 < handles_of a (upd sl h y)); [|lia].
  apply handles_pos with k. now rewrite nth_error_upd_other by auto.
Qed.

Lemma vals_start n : vals (start n) = repeat None n.
Proof. unfold vals, start. simpl. induction n; simpl; congruence. Qed.

Variable dflt : T.
Variable eqb ltb : T -> T -> bool.
Definition good (st : state (T := T)) : Prop :=
  Inv (heap st) (refs (slots st) (default_s st)) /\
  (forall a, default_s st = Some a -> value_of (heap st) a = Some dflt).

Lemma good_start n : good (start n).
Proof using Type.
  split; [|intros a H; discriminate].
  intros a. unfold start. cbn [heap slots default_s]. unfold refs, handles_of.
  replace (filter _ _) with (@nil (option handle)); [now destruct a|].
  symmetry. induction n; simpl; auto.
Qed.

Hypothesis eqb_refl : forall v, eqb v v = true.
Hypothesis ltb_irrefl : forall v, ltb v v = false.

Ltac finst := eexists; split; [reflexivity|].

Lemma step_ok o st s' x : good st -> spec_op dflt eqb ltb o (vals st) = Some (s', x) ->
  exists st', do_op dflt eqb ltb o st = Done (st', x) /\ good st' /\ vals st' = s'.
Proof using eqb_refl ltb_irrefl.
  intros [I D] S.
  destruct st as [hp sl d]. unfold good, vals in *. cbn [heap slots default_s] in *.
  assert (SP : forall h a, nth_error sl h = Some (Some (Some a)) -> 0 < refs sl d a).
  { intros h a E. unfold refs. apply handles_pos in E. lia. }
  assert (AB : forall y, absslot hp y = None -> y = None) by (intros [[?|]|]; simpl; congruence).
  destruct o as [h flt|h v flt|h k|h k|h|h k|h k|h v flt|h f flt|h k|h|h k|h k]; cbn [spec_op do_op] in *.
  - (* default *)
    destruct flt; try discriminate.
    destruct (nth_error _ h) as [[?|]|] eqn:E in S; try discriminate. injection S as <- <-.
    rewrite nth_error_map in E. destruct (nth_error sl h) as [y|] eqn:Eh; [|discriminate].
    injection E as E. apply AB in E. subst y.
    unfold op_default, slot, init_default. cbn [heap slots default_s]. rewrite Eh.
    destruct d as [a|].
    + destruct (inc_ok hp (refs sl (Some a)) a I) as (hp' & E1 & I1 & V1).
      { unfold refs. simpl. rewrite d1_same. lia. }
      cbn [heap slots default_s]. rewrite E1. cbn. finst. cbn [heap slots default_s]. split; [split|].
      * eapply Inv_ext; [|exact I1]. intros b. pose proof (refs_upd sl (Some a) h None (Some (Some a)) b Eh).
        cbn in H |- *. unfold set_slot. lia.
      * intros b [= <-]. rewrite V1. now apply D.
      * unfold set_slot. rewrite (vals_step hp) by (intros; apply V1). cbn. rewrite V1, (D a); auto.
    + destruct (alloc_Inv hp _ dflt I) as (Z & I0 & V0). cbn [allocate].
      destruct (inc_ok _ _ (length hp) I0) as (hp' & E1 & I1 & V1).
      { rewrite d1_same. lia. }
      cbn [heap slots default_s]. rewrite E1. cbn. finst. cbn [heap slots default_s]. split; [split|].
      * eapply Inv_ext; [|exact I1]. intros b. unfold set_slot, refs.
        pose proof (handles_upd b sl h None (Some (Some (length hp))) Eh) as H1. cbn in H1 |- *. lia.
      * intros b [= <-]. rewrite V1, V0, Nat.eqb_refl. reflexivity.
      * unfold set_slot. rewrite (vals_step hp).
        -- cbn. now rewrite V1, V0, Nat.eqb_refl.
        -- intros a k N Ek. rewrite V1, V0. destruct (Nat.eqb_spec (length hp) a) as [<-|]; auto.
           apply SP in Ek. lia.
  - (* construct *)
    destruct flt; try discriminate.
    destruct (nth_error _ h) as [[?|]|] eqn:E in S; try discriminate. injection S as <- <-.
    rewrite nth_error_map in E. destruct (nth_error sl h) as [y|] eqn:Eh; [|discriminate].
    injection E as E. apply AB in E. subst y.
    unfold op_construct, slot. cbn [heap slots default_s]. rewrite Eh. cbn [allocate].
    destruct (alloc_Inv hp _ v I) as (Z & I0 & V0).
    finst. cbn [heap slots default_s]. split; [split|].
    + eapply Inv_ext; [|exact I0]. intros b. pose proof (refs_upd sl d h None (Some (Some (length hp))) b Eh).
      cbn in H |- *. unfold set_slot. lia.
    + intros b Eb. rewrite V0. destruct (Nat.eqb_spec (length hp) b) as [<-|]; auto.
      subst d. unfold refs in Z. simpl in Z. rewrite d1_same in Z. lia.
    + unfold set_slot. rewrite (vals_step hp).
      * cbn. now rewrite V0, Nat.eqb_refl.
      * intros a k N Ek. rewrite V0. destruct (Nat.eqb_spec (length hp) a) as [<-|]; auto.
        apply SP in Ek. lia.
  - (* copy ctor *)
    destruct (nth_error _ h) as [[?|]|] eqn:E in S; try discriminate.
    destruct (nth_error _ k) as [[w|]|] eqn:Ew in S; try discriminate. injection S as <- <-.
    rewrite nth_error_map in E. destruct (nth_error sl h) as [y|] eqn:Eh; [|discriminate].
    injection E as E. apply AB in E. subst y.
    rewrite nth_error_map in Ew. destruct (nth_error sl k) as [[z|]|] eqn:Ek; try discriminate.
    injection Ew as Ew.
    unfold op_copy, slot. cbn [heap slots default_s]. rewrite Eh, Ek.
    destruct (copyh_ok hp (refs sl d) z I) as (hp' & E1 & I1 & V1).
    { intros a ->. eapply SP; eauto. }
    rewrite E1. cbn. finst. cbn [heap slots default_s]. split; [split|].
    + eapply Inv_ext; [|exact I1]. intros b. pose proof (refs_upd sl d h None (Some z) b Eh).
      cbn in H |- *. unfold set_slot. lia.
    + intros b Eb. rewrite V1. auto.
    + unfold set_slot. rewrite (vals_step hp) by (intros; apply V1). f_equal.
      rewrite <- Ew. destruct z; simpl; auto. now rewrite V1.
  - (* move ctor *)
    destruct (nth_error _ h) as [[?|]|] eqn:E in S; try discriminate.
    destruct (nth_error _ k) as [[w|]|] eqn:Ew in S; try discriminate. injection S as <- <-.
    rewrite nth_error_map in E. destruct (nth_error sl h) as [y|] eqn:Eh; [|discriminate].
    injection E as E. apply AB in E. subst y.
    rewrite nth_error_map in Ew. destruct (nth_error sl k) as [[z|]|] eqn:Ek; try discriminate.
    injection Ew as Ew.
    unfold op_move, slot. cbn [heap slots default_s]. rewrite Eh, Ek.
    assert (N : h <> k) by congruence.
    finst. cbn [heap slots default_s]. split; [split|].
    + eapply Inv_ext; [|exact I]. intros b. unfold set_slot.
      pose proof (refs_upd sl d h None (Some z) b Eh) as H1.
      assert (Ek' : nth_error (upd sl h (Some z)) k = Some (Some z)) by now rewrite nth_error_upd_other.
      pose proof (refs_upd (upd sl h (Some z)) d k (Some z) (Some None) b Ek') as H2.
      cbn in H1, H2. lia.
    + auto.
    + unfold set_slot. rewrite !map_upd. cbn [absslot].
      do 2 f_equal. rewrite <- Ew. destruct z; reflexivity.
  - (* destroy *)
    destruct (nth_error _ h) as [[w|]|] eqn:E in S; try discriminate. injection S as <- <-.
    rewrite nth_error_map in E. destruct (nth_error sl h) as [[z|]|] eqn:Eh; try discriminate.
    unfold op_destroy, slot. cbn [heap slots default_s]. rewrite Eh.
    destruct (relh_ok hp (refs sl d) z I) as (hp' & E1 & I1 & V1).
    { intros a ->. eapply SP; eauto. }
    rewrite E1. cbn.
    assert (R : forall b, refs sl d b - hd z b = refs (upd sl h None) d b).
    { intros b. pose proof (refs_upd sl d h (Some z) None b Eh) as H. cbn in H. lia. }
    finst. cbn [heap slots default_s]. split; [split|].
    + eapply Inv_ext; [|exact I1]. exact R.
    + intros b Eb. rewrite V1; auto. rewrite R. unfold refs, dref. rewrite Eb. cbn. rewrite d1_same. lia.
    + unfold set_slot. rewrite (vals_step hp); auto.
      intros a k N Ek. apply V1. rewrite R. eapply pos_refs; eauto.
  - (* assign *)
    destruct (nth_error _ h) as [[u|]|] eqn:E in S; try discriminate.
    destruct (nth_error _ k) as [[w|]|] eqn:Ew in S; try discriminate. injection S as <- <-.
    rewrite nth_error_map in E. destruct (nth_error sl h) as [[y|]|] eqn:Eh; try discriminate.
    rewrite nth_error_map in Ew. destruct (nth_error sl k) as [[z|]|] eqn:Ek; try discriminate.
    injection Ew as Ew.
    unfold op_assign, slot. cbn [heap slots default_s]. rewrite Eh, Ek.
    destruct (copyh_ok hp (refs sl d) z I) as (hp1 & E1 & I1 & V1).
    { intros a ->. eapply SP; eauto. }
    rewrite E1.
    destruct (relh_ok hp1 _ y I1) as (hp2 & E2 & I2 & V2).
    { intros a ->. apply SP in Eh. lia. }
    rewrite E2. cbn.
    assert (R : forall b, refs sl d b + hd z b - hd y b = refs (upd sl h (Some z)) d b).
    { intros b. pose proof (refs_upd sl d h (Some y) (Some z) b Eh) as H. cbn in H. lia. }
    finst. cbn [heap slots default_s]. split; [split|].
    + eapply Inv_ext; [|exact I2]. exact R.
    + intros b Eb. rewrite V2, V1; auto. rewrite R. unfold refs, dref. rewrite Eb. cbn. rewrite d1_same. lia.
    + unfold set_slot. rewrite (vals_step hp).
      * f_equal. rewrite <- Ew. destruct z as [a|]; simpl; auto. rewrite V2, V1; auto.
        rewrite R. unfold refs. enough (0 < handles_of a (upd sl h (Some (Some a : handle)))) by (unfold handle in *; lia).
        apply handles_pos with h. apply nth_error_upd_same. apply nth_error_Some. congruence.
      * intros a j N Ej. rewrite V2, V1; auto. rewrite R. eapply pos_refs; eauto.
  - (* move assign *)
    destruct (nth_error _ h) as [[u|]|] eqn:E in S; try discriminate.
    destruct (nth_error _ k) as [[w|]|] eqn:Ew in S; try discriminate. injection S as <- <-.
    rewrite nth_error_map in E. destruct (nth_error sl h) as [[y|]|] eqn:Eh; try discriminate.
    rewrite nth_error_map in Ew. destruct (nth_error sl k) as [[z|]|] eqn:Ek; try discriminate.
    injection Ew as Ew.
    unfold op_assign_move, slot. cbn [heap slots default_s]. rewrite Eh, Ek.
    unfold set_slot at 1.
    set (sl1 := upd sl k (Some None)).
    assert (Eh1 : exists y', nth_error sl1 h = Some (Some y')).
    { unfold sl1. rewrite nth_error_upd. destruct (Nat.eqb_spec k h) as [->|].
      - assert (L : h < length sl) by (apply nth_error_Some; congruence). apply Nat.ltb_lt in L. rewrite L. eauto.
      - eauto. }
    destruct Eh1 as [y' Eh1]. rewrite Eh1.
    assert (R0 : forall b, refs sl1 d b + hd z b = refs sl d b).
    { intros b. pose proof (refs_upd sl d k (Some z) (Some None) b Ek) as H. cbn in H. unfold sl1. lia. }
    destruct (relh_ok hp (refs sl d) y' I) as (hp2 & E2 & I2 & V2).
    { intros a ->. rewrite <- R0. apply handles_pos in Eh1. unfold refs. lia. }
    rewrite E2. cbn.
    assert (R : forall b, refs sl d b - hd y' b = refs (upd sl1 h (Some z)) d b).
    { intros b. pose proof (refs_upd sl1 d h (Some y') (Some z) b Eh1) as H. cbn in H. rewrite <- R0. lia. }
    finst. cbn [heap slots default_s]. split; [split|].
    + eapply Inv_ext; [|exact I2]. exact R.
    + intros b Eb. rewrite V2; auto. rewrite R. unfold refs, dref. rewrite Eb. cbn. rewrite d1_same. lia.
    + unfold set_slot. rewrite (vals_step hp).
      * unfold sl1. rewrite map_upd. cbn [absslot]. f_equal. rewrite <- Ew. destruct z as [a|]; simpl; auto. rewrite V2; auto.
        rewrite R. unfold refs. enough (0 < handles_of a (upd sl1 h (Some (Some a : handle)))) by (unfold handle in *; lia).
        apply handles_pos with h. apply nth_error_upd_same. apply nth_error_Some. congruence.
      * intros a j N Ej. rewrite V2; auto. rewrite R. eapply pos_refs; eauto.
  - (* assign value *)
    destruct flt; try discriminate.
    destruct (nth_error _ h) as [[u|]|] eqn:E in S; try discriminate. injection S as <- <-.
    rewrite nth_error_map in E. destruct (nth_error sl h) as [[z|]|] eqn:Eh; try discriminate.
    unfold op_assign_value, slot. cbn [heap slots default_s]. rewrite Eh.
    destruct (alloc_Inv hp _ v I) as (Z & I0 & V0).
    assert (DZ : d <> Some (length hp)).
    { intros ->. unfold refs in Z. simpl in Z. rewrite d1_same in Z. lia. }
    destruct z as [a|].
    + pose proof (SP h a Eh) as Pa.
      rewrite (is_one_ok hp _ a I) by eauto.
      destruct (Nat.eqb_spec (refs sl d a) 1) as [One|NOne].
      * destruct (store_ok hp _ a v I) as (hp' & E1 & I1 & V1); eauto.
        rewrite E1. cbn. finst. cbn [heap slots default_s]. split; [split|]; auto.
        -- intros b Eb. rewrite V1. destruct (Nat.eqb_spec a b) as [<-|]; auto.
           subst d. unfold refs in One. cbn in One. rewrite d1_same in One. apply handles_pos in Eh. lia.
        -- rewrite <- (upd_same sl h (Some (Some a)) Eh) at 1. rewrite (vals_step hp).
           ++ cbn. now rewrite V1, Nat.eqb_refl.
           ++ intros b j N Ej. rewrite V1. destruct (Nat.eqb_spec a b) as [<-|]; auto.
              exfalso. pose proof (handles_two a sl h j ltac:(auto) Eh Ej). unfold refs in One. lia.
      * cbn [allocate]. unfold reset.
        destruct (rel_ok _ _ a I0) as (hp2 & E2 & I2 & V2). { lia. }
        cbn [slots default_s]. rewrite E2. cbn.
        assert (La : length hp <> a) by (intros <-; lia).
        assert (R : forall b, refs sl d b + d1 (length hp) b - d1 a b = refs (upd sl h (Some (Some (length hp)))) d b).
        { intros b. pose proof (refs_upd sl d h _ (Some (Some (length hp))) b Eh) as H. cbn in H. lia. }
        finst. cbn [heap slots default_s]. split; [split|].
        -- eapply Inv_ext; [|exact I2]. exact R.
        -- intros b Eb. assert (length hp <> b) by congruence. rewrite V2, V0.
           ++ apply Nat.eqb_neq in H. rewrite H. auto.
           ++ rewrite R. unfold refs, dref. rewrite Eb. cbn. rewrite d1_same. lia.
        -- unfold set_slot. rewrite (vals_step hp).
           ++ cbn. rewrite V2, V0, Nat.eqb_refl; auto. rewrite d1_same, d1_other by auto. lia.
           ++ intros b j N Ej. rewrite V2, V0.
              ** destruct (Nat.eqb_spec (length hp) b) as [<-|]; auto. apply SP in Ej. lia.
              ** rewrite R. eapply pos_refs; eauto.
    + cbn [allocate]. finst. cbn [heap slots default_s]. split; [split|].
      * eapply Inv_ext; [|exact I0]. intros b. pose proof (refs_upd sl d h _ (Some (Some (length hp))) b Eh) as H.
        cbn in H |- *. unfold set_slot. lia.
      * intros b Eb. rewrite V0. destruct (Nat.eqb_spec (length hp) b) as [<-|]; auto. congruence.
      * unfold set_slot. rewrite (vals_step hp).
        -- cbn. now rewrite V0, Nat.eqb_refl.
        -- intros b j N Ej. rewrite V0. destruct (Nat.eqb_spec (length hp) b) as [<-|]; auto. apply SP in Ej. lia.
  - (* write *)
    destruct flt; try discriminate.
    destruct (nth_error _ h) as [[[u|]|]|] eqn:E in S; try discriminate. injection S as <- <-.
    rewrite nth_error_map in E. destruct (nth_error sl h) as [[[a|]|]|] eqn:Eh; try discriminate.
    cbn in E. injection E as E.
    unfold op_write, slot. cbn [heap slots default_s]. rewrite Eh.
    pose proof (SP h a Eh) as Pa.
    rewrite (is_one_ok hp _ a I), E by eauto.
    destruct (Nat.eqb_spec (refs sl d a) 1) as [One|NOne].
    + destruct (store_ok hp _ a (f u) I) as (hp' & E1 & I1 & V1); eauto.
      rewrite E1. cbn. finst. cbn [heap slots default_s]. split; [split|]; auto.
      * intros b Eb. rewrite V1. destruct (Nat.eqb_spec a b) as [<-|]; auto.
        subst d. unfold refs in One. cbn in One. rewrite d1_same in One. apply handles_pos in Eh. lia.
      * rewrite <- (upd_same sl h (Some (Some a)) Eh) at 1. rewrite (vals_step hp).
        -- cbn. now rewrite V1, Nat.eqb_refl.
        -- intros b j N Ej. rewrite V1. destruct (Nat.eqb_spec a b) as [<-|]; auto.
           exfalso. pose proof (handles_two a sl h j ltac:(auto) Eh Ej). unfold refs in One. lia.
    + destruct (alloc_Inv hp _ u I) as (Z & I0 & V0).
      assert (DZ : d <> Some (length hp)).
      { intros ->. unfold refs in Z. simpl in Z. rewrite d1_same in Z. lia. }
      cbn [allocate]. unfold reset.
      destruct (rel_ok _ _ a I0) as (hp2 & E2 & I2 & V2). { lia. }
      cbn [slots default_s]. rewrite E2. cbn [heap slots default_s].
      assert (La : length hp <> a) by (intros <-; lia).
      assert (R : forall b, refs sl d b + d1 (length hp) b - d1 a b = refs (upd sl h (Some (Some (length hp)))) d b).
      { intros b. pose proof (refs_upd sl d h _ (Some (Some (length hp))) b Eh) as H. cbn in H. lia. }
      assert (Pn : 0 < refs sl d (length hp) + d1 (length hp) (length hp) - d1 a (length hp)).
      { rewrite d1_same, d1_other by auto. lia. }
      assert (Vn : value_of hp2 (length hp) = Some u) by (rewrite V2, V0, Nat.eqb_refl; auto).
      rewrite Vn.
      destruct (store_ok _ _ (length hp) (f u) I2) as (hp3 & E3 & I3 & V3); auto.
      rewrite E3. cbn. finst. cbn [heap slots default_s]. split; [split|].
      * eapply Inv_ext; [|exact I3]. exact R.
      * intros b Eb. assert (N : length hp <> b) by congruence. pose proof N as N'. apply Nat.eqb_neq in N'.
        rewrite V3, N', V2, V0, N'; auto.
        rewrite R. unfold refs, dref. rewrite Eb. cbn. rewrite d1_same. lia.
      * unfold set_slot. rewrite (vals_step hp).
        -- cbn. now rewrite V3, Nat.eqb_refl.
        -- intros b j N Ej. rewrite V3. destruct (Nat.eqb_spec (length hp) b) as [<-|Nb].
           ++ apply SP in Ej. lia.
           ++ rewrite V2, V0. { apply Nat.eqb_neq in Nb. now rewrite Nb. } rewrite R. eapply pos_refs; eauto.
  - (* swap *)
    destruct (nth_error _ h) as [[u|]|] eqn:E in S; try discriminate.
    destruct (nth_error _ k) as [[w|]|] eqn:Ew in S; try discriminate. injection S as <- <-.
    rewrite nth_error_map in E. destruct (nth_error sl h) as [[y|]|] eqn:Eh; try discriminate.
    rewrite nth_error_map in Ew. destruct (nth_error sl k) as [[z|]|] eqn:Ek; try discriminate.
    injection Ew as Ew. injection E as E.
    unfold op_swap, slot. cbn [heap slots default_s]. rewrite Eh, Ek.
    finst. cbn [heap slots default_s]. split; [split|]; auto.
    + eapply Inv_ext; [|exact I]. intros b. unfold set_slot.
      pose proof (refs_upd sl d h (Some y) (Some z) b Eh) as H1.
      assert (Ek' : nth_error (upd sl h (Some z)) k = Some (Some z)).
      { rewrite nth_error_upd. destruct (Nat.eqb_spec h k) as [->|]; auto.
        assert (L : k < length sl) by (apply nth_error_Some; congruence). apply Nat.ltb_lt in L. now rewrite L. }
      pose proof (refs_upd (upd sl h (Some z)) d k (Some z) (Some y) b Ek') as H2.
      cbn in H1, H2. lia.
    + unfold set_slot. rewrite !map_upd.
      replace (absslot hp (Some z)) with (Some w) by (rewrite <- Ew; destruct z; reflexivity).
      replace (absslot hp (Some y)) with (Some u) by (rewrite <- E; destruct y; reflexivity). reflexivity.
  - (* read *)
    destruct (nth_error _ h) as [[[u|]|]|] eqn:E in S; try discriminate. injection S as <- <-.
    rewrite nth_error_map in E. destruct (nth_error sl h) as [[[a|]|]|] eqn:Eh; try discriminate.
    cbn in E. injection E as E.
    unfold op_read, slot. cbn [heap slots default_s]. rewrite Eh, E. finst. auto.
  - (* eq *)
    destruct (nth_error _ h) as [[u|]|] eqn:E in S; try discriminate.
    destruct (nth_error _ k) as [[w|]|] eqn:Ew in S; try discriminate. injection S as <- <-.
    rewrite nth_error_map in E. destruct (nth_error sl h) as [[y|]|] eqn:Eh; try discriminate.
    rewrite nth_error_map in Ew. destruct (nth_error sl k) as [[z|]|] eqn:Ek; try discriminate.
    injection Ew as Ew. injection E as E.
    unfold op_eq, slot. cbn [heap slots default_s]. rewrite Eh, Ek.
    exists (St hp sl d); split; [|split; [exact (conj I D)|reflexivity]].
    destruct y as [a|], z as [b|]; cbn in *.
    + injection E as E. injection Ew as Ew.
      destruct (value_ok hp _ a I) as [va Va]; eauto. destruct (value_ok hp _ b I) as [vb Vb]; eauto.
      rewrite Va, Vb in *. subst u w. cbn. destruct (Nat.eqb_spec a b) as [<-|]; auto.
      do 2 f_equal. rewrite Va in Vb. injection Vb as <-. now rewrite eqb_refl.
    + injection E as E. injection Ew as Ew.
      destruct (value_ok hp _ a I) as [va Va]; eauto. rewrite Va in E. subst. reflexivity.
    + injection E as E. injection Ew as Ew.
      destruct (value_ok hp _ b I) as [vb Vb]; eauto. rewrite Vb in Ew. subst. reflexivity.
    + injection E as <-. injection Ew as <-. reflexivity.
  - (* lt *)
    destruct (nth_error _ h) as [[u|]|] eqn:E in S; try discriminate.
    destruct (nth_error _ k) as [[w|]|] eqn:Ew in S; try discriminate. injection S as <- <-.
    rewrite nth_error_map in E. destruct (nth_error sl h) as [[y|]|] eqn:Eh; try discriminate.
    rewrite nth_error_map in Ew. destruct (nth_error sl k) as [[z|]|] eqn:Ek; try discriminate.
    injection Ew as Ew. injection E as E.
    unfold op_lt, slot. cbn [heap slots default_s]. rewrite Eh, Ek.
    exists (St hp sl d); split; [|split; [exact (conj I D)|reflexivity]].
    destruct y as [a|], z as [b|]; cbn in *.
    + injection E as E. injection Ew as Ew.
      destruct (value_ok hp _ a I) as [va Va]; eauto. destruct (value_ok hp _ b I) as [vb Vb]; eauto.
      rewrite Va, Vb in *. subst u w. cbn. destruct (Nat.eqb_spec a b) as [<-|]; auto.
      do 2 f_equal. rewrite Va in Vb. injection Vb as <-. now rewrite ltb_irrefl.
    + injection E as E. injection Ew as Ew.
      destruct (value_ok hp _ a I) as [va Va]; eauto. rewrite Va in E. subst. reflexivity.
    + injection E as E. injection Ew as Ew.
      destruct (value_ok hp _ b I) as [vb Vb]; eauto. rewrite Vb in Ew. subst. reflexivity.
    + injection E as <-. injection Ew as <-. reflexivity.
Qed.

Lemma run_ok ops : forall st s' xs, good st -> spec_run dflt eqb ltb ops (vals st) = Some (s', xs) ->
  exists st', run dflt eqb ltb ops st = Some (st', xs) /\ good st' /\ vals st' = s'.
Proof using eqb_refl ltb_irrefl.
  induction ops as [|o ops IH]; intros st s' xs G S; cbn [spec_run run] in *.
  - injection S as <- <-. eauto.
  - destruct (spec_op dflt eqb ltb o (vals st)) as [[s1 x]|] eqn:E; [|discriminate].
    destruct (spec_run dflt eqb ltb ops s1) as [[s2 ys]|] eqn:E2; [|discriminate].
    injection S as <- <-.
    destruct (step_ok o st s1 x G E) as (st1 & R1 & G1 & V1). rewrite R1. rewrite <- V1 in E2.
    destruct (IH st1 s2 ys G1 E2) as (st2 & R2 & G2 & V2). rewrite R2. eauto.
Qed.

End P.
