(** C17, C18, C45: copy_on_write (sequential). *)
From Verif Require Import Prelude CopyOnWrite_Model CopyOnWrite_Spec CopyOnWrite_Proofs.
Ltac Zify.zify_post_hook ::= idtac.

Section Props.
Context {T : Type}.
Variable dflt : T.
Variable eqb ltb : T -> T -> bool.
Hypothesis eqb_refl : forall v, eqb v v = true.
Hypothesis ltb_irrefl : forall v, ltb v v = false.

(** C17.  Take any number of handle slots and any history of default/value/copy/
    move construction, destruction, copy/move/value assignment, writing,
    swapping, reading and comparing that is legal for plain values.  The
    copy_on_write history is then free of undefined behaviour, returns exactly
    the same results, and afterwards every handle reads as exactly the value the
    plain-value history put in its slot. *)
Theorem C17_copy_on_write_is_a_value : forall n ops s xs,
  spec_run dflt eqb ltb ops (repeat None n) = Some (s, xs) ->
  exists st, run dflt eqb ltb ops (start n) = Some (st, xs) /\
    forall h,
      (nth_error s h = Some None <-> nth_error (slots st) h = Some None) /\
      (nth_error s h = Some (Some None) <-> nth_error (slots st) h = Some (Some None)) /\
      (forall v, nth_error s h = Some (Some (Some v)) <-> op_read h st = Done (st, Val v)).
Proof using eqb_refl ltb_irrefl.
  intros n ops s xs S.
  destruct (run_ok dflt eqb ltb eqb_refl ltb_irrefl ops (start n) s xs) as (st & R & [I D] & V).
  { apply good_start. } { now rewrite vals_start. }
  exists st. split; auto. intros h. rewrite <- V. unfold vals. rewrite nth_error_map.
  unfold op_read, slot.
  destruct (nth_error (slots st) h) as [[[a|]|]|] eqn:E; cbn.
  - assert (P : 0 < refs (slots st) (default_s st) a) by (eapply slot_pos; eauto).
    destruct (value_ok _ _ a I P) as [v Ev]. rewrite Ev.
    repeat split; intros H; try discriminate; congruence.
  - repeat split; intros H; try discriminate; auto.
  - repeat split; intros H; try discriminate; auto.
  - repeat split; intros H; try discriminate; auto.
Qed.

(** identity() and unique_instance() report sharing and nothing else: identical
    handles read the same value, and a handle is a unique instance exactly when
    no other handle and not the shared default object refers to its object. *)
Theorem C17_identity_and_uniqueness : forall n ops s xs,
  spec_run dflt eqb ltb ops (repeat None n) = Some (s, xs) ->
  exists st, run dflt eqb ltb ops (start n) = Some (st, xs) /\
    (forall h k x y, nth_error (slots st) h = Some (Some x) -> nth_error (slots st) k = Some (Some y) ->
       identity x y = true -> nth_error s h = nth_error s k) /\
    (forall h a, nth_error (slots st) h = Some (Some (Some a)) ->
       exists b, unique_instance st (Some a) = Some b /\
         (b = true <-> (forall k, k <> h -> nth_error (slots st) k <> Some (Some (Some a))) /\
                       default_s st <> Some a)).
Proof using eqb_refl ltb_irrefl.
  intros n ops s xs S.
  destruct (run_ok dflt eqb ltb eqb_refl ltb_irrefl ops (start n) s xs) as (st & R & [I D] & V).
  { apply good_start. } { now rewrite vals_start. }
  exists st. split; auto. split.
  - intros h k x y Eh Ek Id. rewrite <- V. unfold vals. rewrite !nth_error_map, Eh, Ek.
    unfold identity in Id. destruct x as [a|], y as [b|]; cbn in Id; try discriminate; auto.
    apply Nat.eqb_eq in Id. now subst.
  - intros h a Eh. cbn. rewrite (is_one_ok _ _ a I) by (eapply slot_pos; eauto).
    eexists; split; [reflexivity|]. rewrite Nat.eqb_eq. split.
    + intros One. split.
      * intros k N Ek. pose proof (handles_two a _ h k ltac:(auto) Eh Ek). unfold refs in One. lia.
      * intros Ed. unfold refs, dref in One. rewrite Ed in One. cbn in One. rewrite d1_same in One.
        apply handles_pos in Eh. lia.
    + intros [K Dn]. unfold refs.
      assert (dref (default_s st) a = 0).
      { unfold dref. destruct (default_s st) as [b|]; cbn; auto. apply d1_other. congruence. }
      pose proof (handles_upd a _ h _ (@None handle) Eh) as U. cbn in U. rewrite d1_same in U.
      assert (Z : handles_of a (upd (slots st) h (@None handle)) = 0); [|lia].
      unfold handles_of.
      destruct (filter (points_to a) (upd (slots st) h (@None handle))) as [|z l] eqn:Ef; auto. exfalso.
      assert (Iz : In z (filter (points_to a) (upd (slots st) h (@None handle)))) by (rewrite Ef; now left).
      apply filter_In in Iz. destruct Iz as [Iz Pz]. apply In_nth_error in Iz. destruct Iz as [k Ez].
      rewrite nth_error_upd in Ez. destruct (Nat.eqb_spec h k) as [->|N].
      * destruct (k <? length (slots st)); [injection Ez as <-; discriminate|discriminate].
      * destruct z as [[b|]|]; try discriminate. cbn in Pz. apply Nat.eqb_eq in Pz. subst b.
        apply (K k); auto.
Qed.

(** C18.  After any legal history, for every object ever allocated: it is alive
    exactly while some handle (or the static default instance) refers to it, and
    then its count is the number of such references.  (Access to a destroyed
    object is undefined behaviour in the model, so the existence of the run also
    says that there is no use after free and no double free.) *)
Theorem C18_reference_counts_are_exact : forall n ops s xs,
  spec_run dflt eqb ltb ops (repeat None n) = Some (s, xs) ->
  exists st, run dflt eqb ltb ops (start n) = Some (st, xs) /\
    forall a, a < length (heap st) ->
      let owners := handles_of a (slots st) +
                    (match default_s st with Some b => if b =? a then 1 else 0 | None => 0 end) in
      if owners =? 0 then nth_error (heap st) a = Some Freed
      else exists v, nth_error (heap st) a = Some (Live owners v).
Proof using eqb_refl ltb_irrefl.
  intros n ops s xs S.
  destruct (run_ok dflt eqb ltb eqb_refl ltb_irrefl ops (start n) s xs) as (st & R & [I D] & V).
  { apply good_start. } { now rewrite vals_start. }
  exists st. split; auto. intros a L.
  change (let owners := refs (slots st) (default_s st) a in
      if owners =? 0 then nth_error (heap st) a = Some Freed
      else exists v, nth_error (heap st) a = Some (Live owners v)).
  cbv zeta. specialize (I a). apply nth_error_Some in L.
  destruct (nth_error (heap st) a) as [[c v|]|] eqn:E; try congruence.
  - destruct I as [-> P]. destruct (Nat.eqb_spec (refs (slots st) (default_s st) a) 0); [lia|eauto].
  - rewrite I. reflexivity.
Qed.

(** C18, end of program: once all handles are destroyed, running the exit handler
    is well defined and leaves no live object: nothing leaks. *)
Theorem C18_nothing_leaks : forall n ops xs,
  spec_run dflt eqb ltb ops (repeat None n) = Some (repeat None n, xs) ->
  exists st hp, run dflt eqb ltb ops (start n) = Some (st, xs) /\ at_exit st = Some hp /\
    forall a, a < length hp -> nth_error hp a = Some Freed.
Proof using eqb_refl ltb_irrefl.
  intros n ops xs S.
  destruct (run_ok dflt eqb ltb eqb_refl ltb_irrefl ops (start n) (repeat None n) xs) as (st & R & [I D] & V).
  { apply good_start. } { now rewrite vals_start. }
  assert (Z : forall a, handles_of a (slots st) = 0).
  { intros a. unfold handles_of. destruct (filter (points_to a) (slots st)) as [|z l] eqn:Ef; auto. exfalso.
    assert (Iz : In z (filter (points_to a) (slots st))) by (rewrite Ef; now left).
    apply filter_In in Iz. destruct Iz as [Iz Pz].
    assert (In (absslot (heap st) z) (vals st)) by now apply in_map.
    rewrite V in H. apply repeat_spec in H. destruct z as [[b|]|]; discriminate. }
  unfold at_exit.
  destruct (relh_ok (heap st) _ (default_s st) I) as (hp & E & I' & _).
  { intros a E. unfold refs, dref. rewrite E. cbn. rewrite d1_same. lia. }
  exists st, hp. split; [|split]; auto. intros a L.
  specialize (I' a). apply nth_error_Some in L.
  unfold refs, dref in I'. rewrite Z in I'.
  destruct (nth_error hp a) as [[c v|]|]; try congruence. lia.
Qed.

(** C45.  Any operation whose allocation fails with bad_alloc either did not
    need to allocate, and has its normal effect, or leaves every handle and
    object exactly as it was and reports the exception. *)
Definition without_fault (o : op (T := T)) : op :=
  match o with
  | ODefault h _ => ODefault h NoFault
  | OConstruct h v _ => OConstruct h v NoFault
  | OAssignValue h v _ => OAssignValue h v NoFault
  | OWrite h f _ => OWrite h f NoFault
  | o => o
  end.
Definition with_bad_alloc (o : op (T := T)) : op :=
  match o with
  | ODefault h _ => ODefault h BadAlloc
  | OConstruct h v _ => OConstruct h v BadAlloc
  | OAssignValue h v _ => OAssignValue h v BadAlloc
  | OWrite h f _ => OWrite h f BadAlloc
  | o => o
  end.

Theorem C45_bad_alloc_changes_nothing_partial : forall n ops s xs o s' x,
  spec_run dflt eqb ltb ops (repeat None n) = Some (s, xs) ->
  spec_op dflt eqb ltb (without_fault o) s = Some (s', x) ->
  exists st, run dflt eqb ltb ops (start n) = Some (st, xs) /\
    (do_op dflt eqb ltb (with_bad_alloc o) st = Done (st, Exn) \/
     exists st', do_op dflt eqb ltb (with_bad_alloc o) st = Done (st', x) /\
                 do_op dflt eqb ltb (without_fault o) st = Done (st', x)).
Proof using eqb_refl ltb_irrefl.
  intros n ops s xs o s' x S So.
  destruct (run_ok dflt eqb ltb eqb_refl ltb_irrefl ops (start n) s xs) as (st & R & G & V).
  { apply good_start. } { now rewrite vals_start. }
  exists st. split; auto. rewrite <- V in So.
  destruct (step_ok dflt eqb ltb eqb_refl ltb_irrefl (without_fault o) st s' x G So) as (st' & E & _ & _).
  destruct o; cbn [with_bad_alloc without_fault do_op] in *; try (right; eexists; split; eassumption).
  - unfold op_default in *. destruct (slot st h) as [[?|]|]; try discriminate.
    unfold init_default in *. destruct (default_s st); [right; eexists; split; eassumption|left; reflexivity].
  - unfold op_construct in *. destruct (slot st h) as [[?|]|]; try discriminate. left; reflexivity.
  - unfold op_assign_value in *. destruct (slot st h) as [[[?|]|]|]; try discriminate; [|left; reflexivity].
    destruct (is_one (heap st) _) as [[]|]; try discriminate; [right; eexists; split; eassumption|left; reflexivity].
  - unfold op_write in *. destruct (slot st h) as [[[?|]|]|]; try discriminate.
    destruct (is_one (heap st) _) as [[]|]; try discriminate;
      destruct (value_of (heap st) _) as [?|]; try discriminate;
      [right; eexists; split; eassumption|left; reflexivity].
Qed.

End Props.

(** C45 refuted for a throwing copy constructor: two handles share a value, the
    copy constructor of T throws inside write(); the catch block then reads an
    object that was never constructed. *)
Theorem C45_throwing_copy_constructor_refuted :
  exists (st : state (T := nat)) xs,
    run 0 Nat.eqb Nat.ltb [OConstruct 0 7 NoFault; OCopy 1 0] (start 2) = Some (st, xs) /\
    do_op 0 Nat.eqb Nat.ltb (OWrite 0 S NoFault) st <> UB /\
    do_op 0 Nat.eqb Nat.ltb (OWrite 0 S CopyThrows) st = UB.
Proof. eexists _, _. split; [reflexivity|]. split; [discriminate|reflexivity]. Qed.

(** A history that meets the hypotheses: sharing, copy on write, moving,
    self-assignment, the default instance. *)
Definition demo : list (op (T := nat)) :=
  [OConstruct 0 7 NoFault; OCopy 1 0; OEq 0 1; OWrite 0 S NoFault; ORead 0; ORead 1; OLt 1 0;
   ODefault 2 NoFault; OAssign 2 2; OAssignMove 1 2; ORead 1; OLt 2 1; ODefault 3 NoFault; OEq 1 3;
   OWrite 3 S NoFault; OEq 1 3; OSwap 0 2; OAssignValue 0 9 NoFault; OMove 4 0].
Definition cleanup : list (op (T := nat)) := map ODestroy [0; 1; 2; 3; 4].

Example demo_meets_hypotheses :
  exists s, spec_run 0 Nat.eqb Nat.ltb demo (repeat None 5) =
    Some (s, [Nothing; Nothing; Bool true; Nothing; Val 8; Val 7; Bool true; Nothing; Nothing; Nothing;
              Val 0; Bool true; Nothing; Bool true; Nothing; Bool false; Nothing; Nothing; Nothing]).
Proof. eexists. reflexivity. Qed.

Example demo_cleanup_meets_hypotheses :
  exists xs, spec_run 0 Nat.eqb Nat.ltb (demo ++ cleanup) (repeat None 5) = Some (repeat None 5, xs).
Proof. eexists. reflexivity. Qed.

Example demo_shares :
  exists st xs, run 0 Nat.eqb Nat.ltb [OConstruct 0 7 NoFault; OCopy 1 0] (start 2) = Some (st, xs) /\
    nth_error (heap st) 0 = Some (Live 2 7) /\ unique_instance st (Some 0) = Some false.
Proof. eexists _, _. repeat split. Qed.

Print Assumptions C17_copy_on_write_is_a_value.
Print Assumptions C17_identity_and_uniqueness.
Print Assumptions C18_reference_counts_are_exact.
Print Assumptions C18_nothing_leaks.
Print Assumptions C45_bad_alloc_changes_nothing_partial.
Print Assumptions C45_throwing_copy_constructor_refuted.
