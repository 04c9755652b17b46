(** * any_regular_t and poly_base: the properties (C100 - C104) *)
From Coq Require Import List ZArith QArith String Bool Lia.
From Verif Require Import Prelude AnyReg_Model AnyReg_Spec AnyReg_Rep AnyReg_Step.
Import ListNotations.
Local Open Scope nat_scope.
Ltac Zify.zify_post_hook ::= idtac.

(** ** Counting the free store *)

Fixpoint sum (f : nat -> nat) (n : nat) : nat :=
  match n with 0 => 0 | S k => sum f k + f k end.

Lemma sum_ext f g n : (forall a, a < n -> f a = g a) -> sum f n = sum g n.
Proof. induction n as [|n IH]; cbn [sum]; intros H; [reflexivity|]. rewrite IH by (intros; apply H; lia). rewrite H by lia. reflexivity. Qed.

Lemma sum_add f g n : sum (fun a => f a + g a) n = sum f n + sum g n.
Proof. induction n as [|n IH]; cbn [sum]; lia. Qed.

Lemma sum_one p n : sum (fun a => if Nat.eqb p a then 1 else 0) n = if Nat.ltb p n then 1 else 0.
Proof.
  induction n as [|n IH]; cbn [sum]; [reflexivity|]. rewrite IH.
  destruct (Nat.ltb_spec p n), (Nat.ltb_spec p (S n)), (Nat.eqb_spec p n); lia.
Qed.

Lemma sum_zero n : sum (fun _ => 0) n = 0.
Proof. induction n; cbn [sum]; lia. Qed.

Lemma live_sum h :
  length (filter (fun c => match c with HFree => false | _ => true end) h) = sum (alive h) (length h).
Proof.
  induction h as [|c h IH] using rev_ind; [reflexivity|].
  rewrite filter_app, !app_length. cbn [filter length]. rewrite Nat.add_1_r. cbn [sum].
  rewrite (sum_ext (alive (h ++ [c])) (alive h)).
  - rewrite alive_app, Nat.eqb_refl, IH. destruct c; cbn [length]; lia.
  - intros a La. rewrite alive_app. destruct (Nat.eqb_spec a (length h)); [lia|reflexivity].
Qed.

Lemma owns_sum h cs A n : Forall2 (rep h) cs A -> length h <= n ->
  sum (fun a => owns a cs) n = remotes A.
Proof.
  intros F L. unfold remotes. induction F as [|c a cs A R F IH]; cbn [owns]; [apply sum_zero|].
  rewrite sum_add, IH. cbn [filter].
  destruct c as [|t [v|]|t [p|]], a as [[t' v'|t']|]; cbn in R; try tauto; cbn [own].
  - rewrite sum_zero. reflexivity.
  - rewrite sum_zero. destruct R as [-> [_ Lc]]. rewrite Lc. reflexivity.
  - rewrite sum_zero. reflexivity.
  - destruct R as [-> [Lc E]]. rewrite Lc. cbn [negb length]. rewrite sum_one.
    assert (p < length h) by (apply nth_error_Some; congruence).
    destruct (Nat.ltb_spec p n); lia.
  - rewrite sum_zero. reflexivity.
Qed.

Lemma RepL_shows fl s A : RepL (heap s) (vars s) A -> shows fl s A.
Proof.
  intros H. unfold shows. split; [|split].
  - intros x t v E. destruct (var_of _ _ _ _ _ H E) as [c [Ec R]].
    assert (Ti : type_info x s = Ok t s).
    { unfold type_info. rewrite (bind_Ok _ _ _ _ _ (get_var_eq _ _ _ Ec)). apply (type_of_rep _ _ _ _ s R). }
    split; [exact Ti|]. split.
    { unfold is_empty. rewrite (bind_Ok _ _ _ _ _ Ti). reflexivity. }
    intros t'. unfold cast. rewrite (bind_Ok _ _ _ _ _ (get_var_eq _ _ _ Ec)).
    rewrite (bind_Ok _ _ _ _ _ (type_of_rep _ _ _ _ s R)). unfold cty_eqb at 1.
    cbv zeta.
    destruct (cty_eq_dec t (match fl with Any => promote t' | Poly => t' end)) as [Et|]; [|reflexivity].
    assert (Rd : read c s = Ok (Some v) s).
    { destruct c as [|tc [vc|]|tc [p|]]; cbn [rep] in R; try tauto.
      - destruct R as [-> [-> _]]. reflexivity.
      - destruct R as [-> [_ Ep]]. cbn [read]. unfold bind, get_cell. rewrite Ep, cty_eqb_refl. reflexivity. }
    rewrite (bind_Ok _ _ _ _ _ Rd). destruct fl; [|reflexivity].
    destruct (down t' v); reflexivity.
  - intros x y t v t' v' Ex Ey.
    destruct (var_of _ _ _ _ _ H Ex) as [c [Ec Rc]]. destruct (var_of _ _ _ _ _ H Ey) as [d [Ed Rd]].
    unfold equal. rewrite (bind_Ok _ _ _ _ _ (get_var_eq _ _ _ Ec)). rewrite (bind_Ok _ _ _ _ _ (get_var_eq _ _ _ Ed)).
    rewrite (bind_Ok _ _ _ _ _ (type_of_rep _ _ _ _ s Rc)). rewrite (bind_Ok _ _ _ _ _ (type_of_rep _ _ _ _ s Rd)).
    unfold cty_eqb at 1. destruct (cty_eq_dec t t') as [Et|]; [|reflexivity].
    assert (Rr : forall c t v, rep (heap s) c (Some (Known t v)) -> read c s = Ok (Some v) s).
    { clear. intros c t v R. destruct c as [|tc [vc|]|tc [p|]]; cbn [rep] in R; try tauto.
      - destruct R as [-> [-> _]]. reflexivity.
      - destruct R as [-> [_ Ep]]. cbn [read]. unfold bind, get_cell. rewrite Ep, cty_eqb_refl. reflexivity. }
    rewrite (bind_Ok _ _ _ _ _ (Rr _ _ _ Rc)). rewrite (bind_Ok _ _ _ _ _ (Rr _ _ _ Rd)). reflexivity.
  - unfold live. rewrite live_sum. destruct H as [F O].
    rewrite (sum_ext (alive (heap s)) (fun a => owns a (vars s))) by (intros; apply O).
    apply (owns_sum (heap s)); [exact F|lia].
Qed.

Lemma init_rep n sched : RepL (heap (init n sched)) (vars (init n sched)) (repeat None n).
Proof.
  unfold init. cbn [heap vars]. split.
  - induction n; cbn [repeat]; constructor; [exact I|assumption].
  - intros a. unfold alive. destruct a; cbn [nth_error]; induction n; cbn [repeat owns own]; auto.
Qed.

Lemma run_rep fl ops s A A' : RepL (heap s) (vars s) A -> fails s = [] -> effects fl ops A = Some A' ->
  exists s', run fl ops s = Ok tt s' /\ RepL (heap s') (vars s') A' /\ fails s' = [].
Proof.
  revert s A. induction ops as [|o ops IH]; intros s A H Fs E; cbn [effects run] in *.
  - injection E as <-. exists s. auto.
  - destruct (effect fl o A) as [A1|] eqn:E1; [|discriminate].
    assert (NT : ~ In true (fails s)) by (rewrite Fs; exact (fun x => x)).
    destruct (step_ok fl o s A A1 H E1) as [[[s1 [W [K M1]]]|[e [s1 [W [It _]]]]] | [x [t [v [-> [-> W]]]]]].
    + rewrite W. apply (IH s1 A1 K); [|exact E].
      (* no new entries appear in the schedule *)
      assert (G : forall b, In b (fails s1) -> b = false).
      { intros [|] Hb; [|reflexivity]. exfalso. auto. }
      clear - W G Fs. (* the schedule was empty and is still *)
      revert W. assert (Q : forall o s s1, fails s = [] -> step fl o s = Ok tt s1 -> fails s1 = []); [|eauto].
      clear. intros o s s1 Fs W.
      assert (P : forall A (m : M A), (forall s, fails s = [] -> match m s with Ok _ s' => fails s' = [] | _ => True end) ->
                   forall a s', m s = Ok a s' -> fails s' = []).
      { intros A m Hm a s' Em. specialize (Hm s Fs). rewrite Em in Hm. exact Hm. }
      revert W. apply P. clear.
      set (keeps := fun A (m : M A) => forall s, fails s = [] -> match m s with Ok _ s' => fails s' = [] | _ => True end).
      assert (Kb : forall A B (m : M A) (k : A -> M B), keeps A m -> (forall a, keeps B (k a)) -> keeps B (bind m k)).
      { intros A B m k Hm Hk s Fs. unfold bind. specialize (Hm s Fs). destruct (m s) as [a s'| |]; auto. apply Hk. exact Hm. }
      assert (Kr : forall A (a : A), keeps A (ret a)) by (intros A a s Fs; exact Fs).
      assert (Ku : forall A, keeps A undef) by (intros A s Fs; exact I).
      assert (Kt : forall A e, keeps A (throw e)) by (intros A e s Fs; exact I).
      assert (Ktk : keeps bool tick) by (intros s Fs; unfold tick; rewrite Fs; exact Fs).
      assert (Kgv : forall x, keeps storage (get_var x)) by (intros x s Fs; unfold get_var; destruct (nth_error (vars s) x); auto).
      assert (Kgc : forall x, keeps hcell (get_cell x)) by (intros x s Fs; unfold get_cell; destruct (nth_error (heap s) x); auto).
      assert (Ksv : forall x c, keeps unit (set_var x c)) by (intros x c s Fs; exact Fs).
      assert (Ksc : forall x c, keeps unit (set_cell x c)) by (intros x c s Fs; exact Fs).
      assert (Kal : keeps nat alloc).
      { unfold alloc. apply Kb; [exact Ktk|]. intros [|]; [apply Kt|]. intros s Fs; exact Fs. }
      assert (Kmay : forall c e, keeps unit (may c e)).
      { intros c e. unfold may. destruct c; [|apply Kr]. apply Kb; [exact Ktk|]. intros [|]; [apply Kt|apply Kr]. }
      assert (Knr : forall t v, keeps nat (new_remote fl t v)).
      { intros t v. unfold new_remote. apply Kb; [exact Kal|]. intros a. apply Kb.
        - destruct (mthrow t); [|apply Kr]. apply Kb; [exact Ktk|]. intros [|]; [|apply Kr].
          destruct fl; [apply Kt|]. apply Kb; [apply Ksc|]. intros; apply Kt.
        - intros _. apply Kb; [apply Ksc|]. intros; apply Kr. }
      assert (Kmm : forall t v, keeps storage (make_model fl t v)).
      { intros t v. unfold make_model. destruct (local t); [apply Kr|]. apply Kb; [apply Knr|]. intros; apply Kr. }
      assert (Kcl : forall c, keeps storage (clone fl c)).
      { intros [|t [v|]|t [p|]]; cbn [clone]; try apply Ku.
        - apply Kb; [apply Kmay|]. intros; apply Kr.
        - apply Kb; [apply Kmay|]. intros; apply Kr.
        - apply Kb; [apply Kgc|]. intros [| |t' v]; try apply Ku. destruct (cty_eqb t t'); [|apply Ku].
          apply Kb; [apply Kmay|]. intros; apply Kmm. }
      assert (Kmc : forall c, keeps (storage * storage)%type (move_clone c)).
      { intros [|t k|t p]; cbn [move_clone]; try apply Ku; apply Kr. }
      assert (Kd : forall c, keeps unit (destruct_ c)).
      { intros [|t k|t [p|]]; cbn [destruct_]; try apply Ku; try apply Kr.
        apply Kb; [apply Kgc|]. intros [| |t' v]; try apply Ku. destruct (cty_eqb t t'); [apply Ksc|apply Ku]. }
      assert (Kto : forall c, keeps cty (type_of c)) by (intros [|t k|t p]; cbn [type_of]; try apply Ku; apply Kr).
      assert (Kfr : forall x, keeps unit (fresh x)).
      { intros x. unfold fresh. apply Kb; [apply Kgv|]. intros [|? ?|? ?]; try apply Ku; apply Kr. }
      assert (Krp : forall x c, keeps unit (replace x c)).
      { intros x c. unfold replace. apply Kb; [apply Kgv|]. intros a. apply Kb; [apply Kd|]. intros _.
        apply Kb; [apply Ksv|]. intros _. apply Kb; [apply Kmc|]. intros m. apply Kb; [apply Ksv|]. intros _. apply Kd. }
      assert (Kfv : forall t v, keeps storage (from_value fl t v)).
      { intros t v. unfold from_value. destruct fl.
        - apply Kb; [apply Kmay|]. intros _. apply Kb; [destruct (cty_eqb (promote t) t); [apply Kr|apply Kmay]|]. intros _. apply Kmm.
        - apply Kb; [apply Kmay|]. intros _. apply Kb; [apply Kmay|]. intros _. apply Kmm. }
      assert (Kw : forall x t v, keeps unit (write x t v)).
      { intros x t v. unfold write. apply Kb; [apply Kgv|]. intros c. apply Kb; [apply Kto|]. intros ty.
        destruct (cty_eqb ty t); [|apply Kt]. destruct c as [|t1 k|t1 [p|]]; try apply Ku.
        - apply Kb; [apply Kmay|]. intros _. apply Ksv.
        - apply Kb; [apply Kgc|]. intros [| |t' v']; try apply Ku. destruct (cty_eqb t t'); [|apply Ku].
          apply Kb; [apply Kmay|]. intros _. apply Ksc. }
      change (keeps unit (step fl o)).
      destruct o; cbn [step].
      * apply Kb; [apply Kfr|]. intros _. apply Ksv.
      * apply Kb; [apply Kfr|]. intros _. apply Kb; [apply Kfv|]. intros; apply Ksv.
      * apply Kb; [apply Kfr|]. intros _. apply Kb; [apply Kgv|]. intros c. apply Kb; [apply Kcl|]. intros; apply Ksv.
      * apply Kb; [apply Kfr|]. intros _. apply Kb; [apply Kgv|]. intros c. apply Kb; [apply Kmc|]. intros m.
        apply Kb; [apply Ksv|]. intros; apply Ksv.
      * apply Kb; [apply Kgv|]. intros c. apply Kb; [apply Kcl|]. intros; apply Krp.
      * apply Kb; [apply Kgv|]. intros c. apply Kb; [apply Kmc|]. intros m. apply Kb; [apply Ksv|]. intros; apply Krp.
      * apply Kb; [apply Kfv|]. intros; apply Krp.
      * unfold assign_val. destruct fl.
        -- apply Kb; [apply Kmay|]. intros _. apply Kb; [apply Kgv|]. intros c. apply Kb; [apply Kd|]. intros _.
           apply Kb; [apply Ksv|]. intros _. apply Kb; [destruct (cty_eqb (promote t) t); [apply Kr|apply Kmay]|]. intros _.
           apply Kb; [apply Kmm|]. intros; apply Ksv.
        -- apply Kb; [apply Kgv|]. intros c. apply Kb; [apply Kto|]. intros ty. destruct (cty_eqb ty t); [apply Kw|].
           apply Kb; [apply Kfv|]. intros tmp. apply Kb; [apply Kmc|]. intros m. apply Kb; [apply Kd|]. intros _.
           apply Kb; [apply Ksv|]. intros _. apply Kb; [apply Kmc|]. intros m2. apply Kb; [apply Ksv|]. intros _.
           apply Kb; [apply Kd|]. intros _. apply Kb; [apply Kmc|]. intros m3. apply Kb; [apply Kd|]. intros _. apply Kd.
      * unfold assign_rel. destruct fl.
        -- apply Kb; [apply Kgv|]. intros c. apply Kb; [apply Kcl|]. intros; apply Krp.
        -- apply Kb; [apply Kgv|]. intros a. apply Kb; [apply Kd|]. intros _. apply Kb; [apply Ksv|]. intros _.
           apply Kb; [apply Kgv|]. intros c. apply Kb; [apply Kcl|]. intros; apply Ksv.
      * unfold swap_. apply Kb; [apply Kgv|]. intros a. apply Kb; [apply Kgv|]. intros b.
        apply Kb; [apply Kto|]. intros ta. apply Kb; [apply Kto|]. intros tb.
        destruct (cty_eqb ta tb).
        -- destruct a, b; try apply Ku; (apply Kb; [apply Ksv|]; intros; apply Ksv).
        -- apply Kb; [apply Kmc|]. intros m. apply Kb; [apply Kd|]. intros _. apply Kb; [apply Ksv|]. intros _.
           apply Kb; [apply Kmc|]. intros m2. apply Kb; [apply Ksv|]. intros _. apply Kb; [apply Kd|]. intros _.
           apply Kb; [apply Ksv|]. intros _. apply Kb; [apply Kmc|]. intros m3. apply Kb; [apply Ksv|]. intros _. apply Kd.
      * apply Kw.
      * apply Kb; [apply Kgv|]. intros c. apply Kb; [apply Kd|]. intros; apply Ksv.
    + exfalso. auto.
    + rewrite W. apply (IH s A H Fs E).
Qed.

Lemma reach_rep fl n sched s A : reach fl n sched s A -> RepL (heap s) (vars s) A.
Proof.
  intros H. induction H as [|s A o s' A' R IH E S0 W|s A o e s' A' R IH E S0 W].
  - apply init_rep.
  - destruct (step_ok fl o s A A' IH E) as [[[s1 [W1 [K _]]]|[e [s1 [W1 _]]]] | [x [t [v [-> [-> W1]]]]]]; congruence.
  - destruct (step_ok fl o s A A' IH E) as [[[s1 [W1 _]]|[e1 [s1 [W1 [_ K]]]]] | [x [t [v [-> [-> W1]]]]]].
    + congruence.
    + rewrite W in W1. injection W1 as <- <-. exact (K S0).
    + rewrite W in W1. injection W1 as _ <-. exact IH.
Qed.

(** ** C100: an any_regular_t is a value *)

(** Whatever a client does with a set of variables, as long as no element and
    no allocation throws, each variable holds what it would hold if it were a
    plain (type, value) pair: copies are independent, a move carries the value
    over, swap exchanges, assignment replaces, self assignment is harmless, and
    type_info(), empty(), cast<T>() and operator== answer accordingly. *)
Theorem C100_any_regular_is_a_value : forall ops n A,
  effects Any ops (repeat None n) = Some A ->
  exists s, run Any ops (init n []) = Ok tt s /\ shows Any s A.
Proof.
  intros ops n A E.
  destruct (run_rep Any ops (init n []) _ A (init_rep n []) eq_refl E) as [s [R [K _]]].
  exists s. split; [exact R|]. apply RepL_shows. exact K.
Qed.

(** A reference obtained with cast<T>() of the wrong type throws bad_cast and
    nothing changes. *)
Theorem C100_wrong_cast_changes_nothing : forall fl n sched s A x t t' v w,
  reach fl n sched s A -> nth_error A x = Some (Some (Known t w)) -> t <> t' ->
  step fl (OWrite x t' v) s = Exc ECast s.
Proof.
  intros fl n sched s A x t t' v w H E N.
  assert (Ef : effect fl (OWrite x t' v) A = Some A).
  { cbn [effect]. rewrite E. destruct (cty_eq_dec t t'); [contradiction|reflexivity]. }
  apply reach_rep in H. destruct (var_of _ _ _ _ _ H E) as [c [Ec R]].
  cbn [step]. unfold write. rewrite (bind_Ok _ _ _ _ _ (get_var_eq _ _ _ Ec)).
  rewrite (bind_Ok _ _ _ _ _ (type_of_rep _ _ _ _ s R)).
  unfold cty_eqb. destruct (cty_eq_dec t t'); [contradiction|]. reflexivity.
Qed.

(** When two values of the same type are the same. *)
Definition same_value (v w : cval) : Prop :=
  match v, w with
  | CDbl p, CDbl q => (p == q)%Q
  | _, _ => v = w
  end.

(** Two variables compare equal exactly if they hold the same value of the same
    type. *)
Theorem C100_equal_iff_same_value : forall fl n sched s A x y t v t' v',
  reach fl n sched s A ->
  nth_error A x = Some (Some (Known t v)) -> nth_error A y = Some (Some (Known t' v')) ->
  exists b, equal x y s = Ok b s /\ (b = true <-> t = t' /\ same_value v v').
Proof.
  intros fl n sched s A x y t v t' v' H E E'. apply reach_rep in H.
  destruct (RepL_shows fl s A H) as [_ [Sh _]]. rewrite (Sh x y _ _ _ _ E E').
  eexists. split; [reflexivity|].
  assert (V : veq v v' = true <-> same_value v v').
  { destruct v, v'; cbn [veq same_value]; try (split; [discriminate|intros X; discriminate X]).
    - split; reflexivity.
    - rewrite eqb_true_iff. split; [intros ->; reflexivity|intros X; injection X as ->; reflexivity].
    - rewrite Z.eqb_eq. split; [intros ->; reflexivity|intros X; injection X as ->; reflexivity].
    - apply Qeq_bool_iff.
    - rewrite String.eqb_eq. split; [intros ->; reflexivity|intros X; injection X as ->; reflexivity].
    - rewrite Nat.eqb_eq. split; [intros ->; reflexivity|intros X; injection X as ->; reflexivity]. }
  destruct (cty_eq_dec t t') as [->|N].
  - rewrite V. tauto.
  - split; [discriminate|]. intros [X _]. contradiction.
Qed.

(** any a("x"), b(42), c(a); a = b; swap(b, c); a = a; b.cast<string>() = "y"; c = std::move(b) *)
Definition demo : list op :=
  [OCtor 0 TCharPtr (CStr "x"); OCtor 1 TInt32 (CInt 42); OCopy 2 0; OAssign 0 1; OSwap 1 2;
   OAssign 0 0; OWrite 1 TString (CStr "y"); OAssignMove 2 1]%string.

Example demo_effects :
  effects Any demo (repeat None 3) =
  Some [Some (Known TDouble (CDbl 42)); Some (Moved TString); Some (Known TString (CStr "y"%string))].
Proof. vm_compute. reflexivity. Qed.

Example demo_runs :
  exists s, run Any demo (init 3 []) = Ok tt s /\
    cast Any TInt32 0 s = Ok (CInt 42) s /\ cast Any TString 2 s = Ok (CStr "y"%string) s /\
    cast Any TBool 0 s = Exc ECast s /\ equal 0 0 s = Ok true s /\ live s = 1.
Proof. eexists. split; [vm_compute; reflexivity|]. repeat split. Qed.

(** ** C101: what can be done with a variable that was moved from *)

Definition moved_ok (o : op) (x : nat) : bool :=
  match o with
  | OAssign x' _ | OSet x' _ _ | OAssignVal x' _ _ | OAssignRel x' _ | ODestroy x' => Nat.eqb x' x
  | OAssignMove x' y | OSwap x' y => Nat.eqb x' x || Nat.eqb y x
  | OMove _ y => Nat.eqb y x
  | _ => false
  end.

(** It can be destroyed, assigned to, swapped and moved again (for poly_base,
    assigned a value as long as it is of another type or kept locally). *)
Theorem C101_moved_from_can_be_replaced_partial : forall fl ops n A x t o A',
  effects fl ops (repeat None n) = Some A ->
  nth_error A x = Some (Some (Moved t)) ->
  moved_ok o x = true -> effect fl o A = Some A' ->
  exists s s', run fl ops (init n []) = Ok tt s /\ step fl o s = Ok tt s' /\ shows fl s' A'.
Proof.
  intros fl ops n A x t o A' E Ex Hm Eo.
  destruct (run_rep fl ops (init n []) _ A (init_rep n []) eq_refl E) as [s [R [K Fs]]].
  exists s.
  destruct (step_ok fl o s A A' K Eo) as [[[s1 [W [K1 _]]]|[e [s1 [W [It _]]]]] | [y [t' [v [-> _]]]]].
  - exists s1. split; [exact R|]. split; [exact W|]. apply RepL_shows. exact K1.
  - rewrite Fs in It. destruct It.
  - discriminate.
Qed.

Example C101_example :
  effects Any [OCtor 0 TString (CStr "x"%string); OMove 1 0] (repeat None 2) =
    Some [Some (Moved TString); Some (Known TString (CStr "x"%string))] /\
  moved_ok (OAssign 0 1) 0 = true /\
  effect Any (OAssign 0 1) [Some (Moved TString); Some (Known TString (CStr "x"%string))] =
    Some [Some (Known TString (CStr "x"%string)); Some (Known TString (CStr "x"%string))].
Proof. repeat split. Qed.

(** Copying, comparing or reading it is undefined as soon as the value was kept
    in the free store: the moved-from model has a null pointer but still says
    that it holds a string. *)
Theorem C101_moved_from_is_not_a_value_refuted :
  exists s, run Any [OCtor 0 TString (CStr "x"%string); OMove 1 0] (init 3 []) = Ok tt s /\
    type_info 0 s = Ok TString s /\
    step Any (OCopy 2 0) s = UB /\ equal 0 1 s = UB /\ equal 0 0 s = UB /\ cast Any TString 0 s = UB.
Proof. eexists. split; [vm_compute; reflexivity|]. repeat split. Qed.

(** ** C102: exceptions *)

(** After any history in which any allocation, copy or move threw, each
    statement that completed had its effect, each that threw had none; nothing
    is lost, nothing is undefined.  (For the statements which are [strong]; see
    below for the others.) *)
Theorem C102_a_throw_changes_nothing_partial : forall fl n sched s A,
  reach fl n sched s A ->
  shows fl s A /\
  forall o A', effect fl o A = Some A' ->
    step fl o s <> UB /\
    (forall s', step fl o s = Ok tt s' -> shows fl s' A') /\
    (forall e s', step fl o s = Exc e s' -> strong fl o A = true -> shows fl s' A).
Proof.
  intros fl n sched s A H. apply reach_rep in H. split; [apply RepL_shows; exact H|].
  intros o A' E.
  destruct (step_ok fl o s A A' H E) as [[[s1 [W [K _]]]|[e [s1 [W [_ K]]]]] | [x [t [v [-> [-> W]]]]]]; rewrite W.
  - split; [discriminate|]. split; [|discriminate]. intros s' Es. injection Es as <-. apply RepL_shows. exact K.
  - split; [discriminate|]. split; [discriminate|]. intros e' s' Es St. injection Es as <- <-.
    apply RepL_shows. exact (K St).
  - split; [discriminate|]. split; [discriminate|]. intros e' s' Es _. injection Es as <- <-.
    apply RepL_shows. exact H.
Qed.

(** Not vacuous: the second copy runs out of memory. *)
Example C102_example :
  exists s s', reach Any 3 [false; false; false; true] s [Some (Known TString (CStr "x"%string)); None; None] /\
    step Any (OCopy 1 0) s = Exc EAlloc s' /\ cast Any TString 0 s' = Ok (CStr "x"%string) s' /\ live s' = 1.
Proof.
  eexists. eexists. split.
  - eapply (rdone Any 3 _ (init 3 [false; false; false; true]) (repeat None 3) (OCtor 0 TString (CStr "x"%string))).
    + constructor.
    + reflexivity.
    + reflexivity.
    + vm_compute. reflexivity.
  - repeat split.
Qed.

(** x.assign(std::string(...)): if the allocation fails, x is left without an
    object in it, and its destructor, which runs in any case, is undefined. *)
Theorem C102_assign_refuted :
  exists s s', run Any [OCtor 0 TInt32 (CInt 1)] (init 1 [false; true]) = Ok tt s /\
    step Any (OAssignVal 0 TString (CStr "x"%string)) s = Exc EAlloc s' /\
    step Any (ODestroy 0) s' = UB.
Proof. eexists. eexists. split; [vm_compute; reflexivity|]. repeat split. Qed.

(** The memory is lost if the element's move constructor throws. *)
Theorem C102_throwing_move_leaks_refuted :
  exists s', step Any (OCtor 0 (TUser 0 false false true) (CUser 7)) (init 1 [false; true]) = Exc EMove s' /\
    vars s' = [SRaw] /\ live s' = 1.
Proof. eexists. split; [vm_compute; reflexivity|]. repeat split. Qed.

(** ** C103: promotion *)

(** The numbers a type can represent: two's complement. *)
Definition is_int (t : cty) (n : Z) : Prop :=
  match t with
  | TInt16 => - 2 ^ 15 <= n < 2 ^ 15
  | TUInt16 => 0 <= n < 2 ^ 16
  | TInt32 => - 2 ^ 31 <= n < 2 ^ 31
  | TUInt32 => 0 <= n < 2 ^ 32
  | TInt64 => - 2 ^ 63 <= n < 2 ^ 63
  | _ => False
  end%Z.

Lemma is_int_range t n : is_int t n -> match int_range t with Some (lo, hi) => (lo <= n <= hi)%Z | None => False end.
Proof. destruct t; cbn [is_int int_range]; lia. Qed.

Lemma to_double_small n : (Z.abs n < 2 ^ 53)%Z -> to_double n = n.
Proof. intros H. unfold to_double. apply Z.ltb_lt in H. rewrite H. reflexivity. Qed.

Lemma up_int t n : is_int t n -> t <> TInt64 -> up t (CInt n) = CDbl (inject_Z n) /\ promote t = TDouble.
Proof.
  intros H N. apply is_int_range in H.
  destruct t; cbn [int_range] in H; try (now destruct H); try congruence;
    cbn [up promote]; rewrite to_double_small by lia; auto.
Qed.

Lemma down_int t n : is_int t n -> t <> TInt64 -> down t (CDbl (inject_Z n)) = Some (CInt n).
Proof.
  intros H N. apply is_int_range in H.
  assert (Q : Z.quot (Qnum (inject_Z n)) (Zpos (Qden (inject_Z n))) = n) by (cbn; apply Z.quot_1_r).
  assert (G : forall lo hi, (lo <= n <= hi)%Z -> ((lo <=? n) && (n <=? hi))%Z = true).
  { intros lo hi [L1 L2]. apply Z.leb_le in L1, L2. rewrite L1, L2. reflexivity. }
  destruct t; cbn [int_range] in H; try (now destruct H); try congruence;
    cbn [down int_range]; cbv zeta; rewrite Q; rewrite G by exact H; reflexivity.
Qed.

(** A number comes back as it went in: any_regular_t(n).cast<T>() == n for
    every value of every integral type, and also when it is read as another of
    the promoted types in which it fits. *)
Theorem C103_integers_come_back_partial : forall n sched s A x t k,
  reach Any n sched s A -> is_int t k ->
  nth_error A x = Some (Some (given Any t (CInt k))) ->
  cast Any t x s = Ok (CInt k) s /\
  (forall t', t <> TInt64 -> t' <> TInt64 -> is_int t' k -> cast Any t' x s = Ok (CInt k) s).
Proof.
  intros n sched s A x t k H Ik E. apply reach_rep in H.
  destruct (RepL_shows Any s A H) as [Sh _].
  assert (W : forall t', t <> TInt64 -> t' <> TInt64 -> is_int t' k -> cast Any t' x s = Ok (CInt k) s).
  { intros t' N N' Ik'. cbn [given] in E. destruct (up_int t k Ik N) as [U P]. rewrite U, P in E.
    destruct (Sh x _ _ E) as [_ [_ Cs]]. rewrite Cs. cbv zeta.
    destruct (up_int t' k Ik' N') as [_ P']. rewrite P'.
    destruct (cty_eq_dec TDouble TDouble); [|congruence]. rewrite (down_int t' k Ik' N'). reflexivity. }
  split; [|exact W].
  destruct (cty_eq_dec t TInt64) as [->|N].
  - cbn [given promote up] in E. destruct (Sh x _ _ E) as [_ [_ Cs]]. rewrite Cs. reflexivity.
  - apply W; assumption.
Qed.

(** Variables that were given integers of at most 32 bits are equal exactly if
    the integers are. *)
Theorem C103_equality_is_numeric_partial : forall n sched s A x y t t' k k',
  reach Any n sched s A -> is_int t k -> is_int t' k' -> t <> TInt64 -> t' <> TInt64 ->
  nth_error A x = Some (Some (given Any t (CInt k))) ->
  nth_error A y = Some (Some (given Any t' (CInt k'))) ->
  equal x y s = Ok (Z.eqb k k') s.
Proof.
  intros n sched s A x y t t' k k' H Ik Ik' N N' E E'. apply reach_rep in H.
  destruct (RepL_shows Any s A H) as [_ [Sh _]].
  cbn [given] in E, E'. destruct (up_int t k Ik N) as [U P], (up_int t' k' Ik' N') as [U' P'].
  rewrite U, P in E. rewrite U', P' in E'. rewrite (Sh x y _ _ _ _ E E').
  destruct (cty_eq_dec TDouble TDouble); [|congruence]. cbn [veq]. f_equal.
  unfold Qeq_bool, inject_Z. cbn [Qnum Qden]. rewrite !Z.mul_1_r.
  unfold Zeq_bool. destruct (Z.eqb_spec k k') as [->|Nk]; [rewrite Z.compare_refl; reflexivity|].
  destruct (Z.compare_spec k k'); congruence.
Qed.

(** cast<T>() throws bad_cast exactly if the promoted types differ. *)
Theorem C103_bad_cast_iff : forall n sched s A x t v t',
  reach Any n sched s A -> nth_error A x = Some (Some (given Any t v)) ->
  (cast Any t' x s = Exc ECast s <-> promote t' <> promote t).
Proof.
  intros n sched s A x t v t' H E. apply reach_rep in H.
  destruct (RepL_shows Any s A H) as [Sh _]. cbn [given] in E.
  destruct (Sh x _ _ E) as [_ [_ Cs]]. rewrite Cs. cbv zeta.
  destruct (cty_eq_dec (promote t) (promote t')) as [Ep|Np].
  - split; [|congruence]. destruct (down t' (up t v)); discriminate.
  - split; [congruence|reflexivity].
Qed.

Example C103_example :
  exists s, reach Any 2 [] s [Some (given Any TInt16 (CInt (-5))); Some (given Any TInt32 (CInt (-5)))] /\
    cast Any TInt32 0 s = Ok (CInt (-5)) s /\ equal 0 1 s = Ok true s /\ is_int TInt16 (-5).
Proof.
  eexists. split.
  - eapply (rdone Any 2 [] _ [Some (given Any TInt16 (CInt (-5))); None] (OCtor 1 TInt32 (CInt (-5)))).
    + eapply (rdone Any 2 [] _ [None; None] (OCtor 0 TInt16 (CInt (-5)))).
      * apply (rinit Any 2 []).
      * reflexivity.
      * reflexivity.
      * vm_compute. reflexivity.
    + reflexivity.
    + reflexivity.
    + vm_compute. reflexivity.
  - split; [vm_compute; reflexivity|]. split; [vm_compute; reflexivity|]. cbn. lia.
Qed.

(** Reading a number as a type in which it does not fit is undefined, not
    bad_cast, and an integer of 64 bits is never equal to one of 32. *)
Theorem C103_narrowing_refuted :
  exists s, run Any [OCtor 0 TInt32 (CInt 100000); OCtor 1 TInt64 (CInt 1); OCtor 2 TInt32 (CInt 1)] (init 3 []) = Ok tt s /\
    cast Any TInt16 0 s = UB /\
    equal 1 2 s = Ok false s /\ cast Any TInt32 1 s = Exc ECast s.
Proof. eexists. split; [vm_compute; reflexivity|]. repeat split. Qed.

(** ** C104: the free store *)

(** However a history ends, and whatever threw in it, the free store holds one
    object for each variable whose value does not fit, and nothing else: when
    all the variables are gone it is empty. *)
Theorem C104_no_leaks : forall fl n sched s A,
  reach fl n sched s A -> live s = remotes A /\ (Forall (fun a => a = None) A -> live s = 0).
Proof.
  intros fl n sched s A H. apply reach_rep in H.
  destruct (RepL_shows fl s A H) as [_ [_ L]]. split; [exact L|].
  intros F. rewrite L. clear - F. unfold remotes. induction F as [|a A Ea F IH]; [reflexivity|].
  subst a. exact IH.
Qed.

Definition op_type (o : op) : option cty :=
  match o with
  | OCtor _ t _ | OSet _ t _ | OAssignVal _ t _ => Some t
  | _ => None
  end.

Definition no_heap (c : storage) : Prop := match c with SRemote _ _ => False | _ => True end.
Definition small (s : st) : Prop := heap s = [] /\ Forall no_heap (vars s).
Definition keeps_small {A} (m : M A) (P : A -> Prop) : Prop :=
  forall s, small s -> match m s with Ok a s' => small s' /\ P a | Exc _ s' => small s' | UB => True end.

Lemma ks_bind {A B} (m : M A) (k : A -> M B) P Q :
  keeps_small m P -> (forall a, P a -> keeps_small (k a) Q) -> keeps_small (bind m k) Q.
Proof.
  intros H K s S0. unfold bind. specialize (H s S0). destruct (m s) as [a s'|e s'|]; auto.
  destruct H as [S1 Pa]. exact (K a Pa s' S1).
Qed.
Lemma ks_ret {A} (a : A) (P : A -> Prop) : P a -> keeps_small (ret a) P.
Proof. intros H s S0. split; assumption. Qed.
Lemma ks_undef {A} (P : A -> Prop) : keeps_small undef P.
Proof. intros s S0. exact I. Qed.
Lemma ks_throw {A} e (P : A -> Prop) : keeps_small (throw e) P.
Proof. intros s S0. exact S0. Qed.
Lemma ks_tick : keeps_small tick (fun _ => True).
Proof. intros s S0. unfold tick. destruct (fails s); split; auto. Qed.
Lemma ks_may c e : keeps_small (may c e) (fun _ => True).
Proof.
  unfold may. destruct c; [|apply ks_ret; exact I].
  eapply ks_bind; [apply ks_tick|]. intros [|] _; [apply ks_throw|apply ks_ret; exact I].
Qed.
Lemma ks_get x : keeps_small (get_var x) no_heap.
Proof.
  intros s S0. unfold get_var. destruct (nth_error (vars s) x) as [c|] eqn:E; [|exact I].
  split; [exact S0|]. destruct S0 as [_ F]. rewrite Forall_forall in F. apply F. apply (nth_error_In _ _ E).
Qed.
Lemma ks_set x c : no_heap c -> keeps_small (set_var x c) (fun _ => True).
Proof.
  intros Hc s [Hh F]. unfold set_var. split; [|exact I]. split; cbn [heap vars]; [exact Hh|].
  clear Hh. revert x. induction F as [|d l Hd F IH]; intros x; destruct x as [|x]; cbn [upd]; constructor; auto.
Qed.
Lemma ks_mm fl t v : local t = true -> keeps_small (make_model fl t v) no_heap.
Proof. intros L. unfold make_model. rewrite L. apply ks_ret. exact I. Qed.
Lemma ks_clone fl c : no_heap c -> keeps_small (clone fl c) no_heap.
Proof.
  intros H. destruct c as [|t [v|]|t p]; cbn [clone]; [apply ks_undef| | |destruct H].
  - eapply ks_bind; [apply ks_may|]. intros _ _. apply ks_ret. exact I.
  - eapply ks_bind; [apply ks_may|]. intros _ _. apply ks_ret. exact I.
Qed.
Lemma ks_mc c : no_heap c -> keeps_small (move_clone c) (fun m => no_heap (fst m) /\ no_heap (snd m)).
Proof.
  intros H. destruct c as [|t k|t p]; cbn [move_clone]; [apply ks_undef| |destruct H].
  apply ks_ret. split; exact I.
Qed.
Lemma ks_d c : no_heap c -> keeps_small (destruct_ c) (fun _ => True).
Proof. intros H. destruct c as [|t k|t p]; cbn [destruct_]; [apply ks_undef| |destruct H]. apply ks_ret. exact I. Qed.
Lemma ks_to c : keeps_small (type_of c) (fun _ => True).
Proof. destruct c; cbn [type_of]; [apply ks_undef| |]; apply ks_ret; exact I. Qed.
Lemma ks_fresh x : keeps_small (fresh x) (fun _ => True).
Proof.
  unfold fresh. eapply ks_bind; [apply ks_get|]. intros [|t k|t p] H; [apply ks_ret; exact I| |]; apply ks_undef.
Qed.
Lemma ks_replace x c : no_heap c -> keeps_small (replace x c) (fun _ => True).
Proof.
  intros H. unfold replace. eapply ks_bind; [apply ks_get|]. intros d Hd.
  eapply ks_bind; [apply ks_d; exact Hd|]. intros _ _.
  eapply ks_bind; [apply ks_set; exact I|]. intros _ _.
  eapply ks_bind; [apply ks_mc; exact H|]. intros m [M1 M2].
  eapply ks_bind; [apply ks_set; exact M1|]. intros _ _. apply ks_d. exact M2.
Qed.
Definition fits (fl : flavour) (t : cty) : bool := local (match fl with Any => promote t | Poly => t end).
Lemma ks_fv fl t v : fits fl t = true -> keeps_small (from_value fl t v) no_heap.
Proof.
  intros L. unfold from_value, fits in *. destruct fl.
  - eapply ks_bind; [apply ks_may|]. intros _ _.
    eapply ks_bind with (P := fun _ => True); [destruct (cty_eqb (promote t) t); [apply ks_ret; exact I|apply ks_may]|].
    intros _ _. apply ks_mm. exact L.
  - eapply ks_bind; [apply ks_may|]. intros _ _. eapply ks_bind; [apply ks_may|]. intros _ _. apply ks_mm. exact L.
Qed.
Lemma ks_write x t v : keeps_small (write x t v) (fun _ => True).
Proof.
  unfold write. eapply ks_bind; [apply ks_get|]. intros c Hc. eapply ks_bind; [apply ks_to|]. intros ty _.
  destruct (cty_eqb ty t); [|apply ks_throw]. destruct c as [|t1 k|t1 p]; [apply ks_undef| |destruct Hc].
  eapply ks_bind; [apply ks_may|]. intros _ _. apply ks_set. exact I.
Qed.

Lemma step_small fl o : (forall t, op_type o = Some t -> fits fl t = true) -> keeps_small (step fl o) (fun _ => True).
Proof.
  intros H.
  assert (B : forall A (m : M A) (P : A -> Prop) (k : A -> M unit), keeps_small m P ->
     (forall a, P a -> keeps_small (k a) (fun _ => True)) -> keeps_small (bind m k) (fun _ => True))
    by (intros; eapply ks_bind; eassumption).
  destruct o; cbn [step op_type] in *.
  - eapply B; [apply ks_fresh|]. intros _ _. apply ks_set. exact I.
  - eapply B; [apply ks_fresh|]. intros _ _. eapply B; [apply ks_fv, H; reflexivity|]. intros m Hm. apply ks_set; exact Hm.
  - eapply B; [apply ks_fresh|]. intros _ _. eapply B; [apply ks_get|]. intros c Hc.
    eapply B; [apply ks_clone; exact Hc|]. intros m Hm. apply ks_set; exact Hm.
  - eapply B; [apply ks_fresh|]. intros _ _. eapply B; [apply ks_get|]. intros c Hc.
    eapply B; [apply ks_mc; exact Hc|]. intros m [M1 M2]. eapply B; [apply ks_set; exact M2|]. intros _ _. apply ks_set; exact M1.
  - eapply B; [apply ks_get|]. intros c Hc. eapply B; [apply ks_clone; exact Hc|]. intros m Hm. apply ks_replace; exact Hm.
  - eapply B; [apply ks_get|]. intros c Hc. eapply B; [apply ks_mc; exact Hc|]. intros m [M1 M2].
    eapply B; [apply ks_set; exact M2|]. intros _ _. apply ks_replace; exact M1.
  - eapply B; [apply ks_fv, H; reflexivity|]. intros m Hm. apply ks_replace; exact Hm.
  - unfold assign_val. pose proof (H t eq_refl) as L. destruct fl.
    + eapply B; [apply ks_may|]. intros _ _. eapply B; [apply ks_get|]. intros c Hc.
      eapply B; [apply ks_d; exact Hc|]. intros _ _. eapply B; [apply ks_set; exact I|]. intros _ _.
      eapply B with (P := fun _ => True); [destruct (cty_eqb (promote t) t); [apply ks_ret; exact I|apply ks_may]|].
      intros _ _. eapply B; [apply ks_mm; exact L|]. intros m Hm. apply ks_set; exact Hm.
    + eapply B; [apply ks_get|]. intros c Hc. eapply B; [apply ks_to|]. intros ty _.
      destruct (cty_eqb ty t); [apply ks_write|].
      eapply B; [apply ks_fv; exact L|]. intros tmp Ht.
      eapply B; [apply ks_mc; exact Hc|]. intros m [M1 M2]. eapply B; [apply ks_d; exact M2|]. intros _ _.
      eapply B; [apply ks_set; exact I|]. intros _ _. eapply B; [apply ks_mc; exact Ht|]. intros m2 [N1 N2].
      eapply B; [apply ks_set; exact N1|]. intros _ _. eapply B; [apply ks_d; exact N2|]. intros _ _.
      eapply B; [apply ks_mc; exact M1|]. intros m3 [Q1 Q2]. eapply B; [apply ks_d; exact Q2|]. intros _ _. apply ks_d; exact Q1.
  - unfold assign_rel. destruct fl.
    + eapply B; [apply ks_get|]. intros c Hc. eapply B; [apply ks_clone; exact Hc|]. intros m Hm. apply ks_replace; exact Hm.
    + eapply B; [apply ks_get|]. intros a Ha. eapply B; [apply ks_d; exact Ha|]. intros _ _.
      eapply B; [apply ks_set; exact I|]. intros _ _. eapply B; [apply ks_get|]. intros c Hc.
      eapply B; [apply ks_clone; exact Hc|]. intros m Hm. apply ks_set; exact Hm.
  - unfold swap_. eapply B; [apply ks_get|]. intros a Ha. eapply B; [apply ks_get|]. intros b Hb.
    eapply B; [apply ks_to|]. intros ta _. eapply B; [apply ks_to|]. intros tb _.
    destruct (cty_eqb ta tb).
    + destruct a as [|t1 k1|t1 p1], b as [|t2 k2|t2 p2]; try apply ks_undef; try (now destruct Ha); try (now destruct Hb).
      eapply B; [apply ks_set; exact I|]. intros _ _. apply ks_set; exact I.
    + eapply B; [apply ks_mc; exact Ha|]. intros m [M1 M2]. eapply B; [apply ks_d; exact M2|]. intros _ _.
      eapply B; [apply ks_set; exact I|]. intros _ _. eapply B; [apply ks_mc; exact Hb|]. intros m2 [N1 N2].
      eapply B; [apply ks_set; exact N1|]. intros _ _. eapply B; [apply ks_d; exact N2|]. intros _ _.
      eapply B; [apply ks_set; exact I|]. intros _ _. eapply B; [apply ks_mc; exact M1|]. intros m3 [Q1 Q2].
      eapply B; [apply ks_set; exact Q1|]. intros _ _. apply ks_d; exact Q2.
  - apply ks_write.
  - eapply B; [apply ks_get|]. intros c Hc. eapply B; [apply ks_d; exact Hc|]. intros _ _. apply ks_set. exact I.
Qed.

(** Programs that only use small types never touch the free store. *)
Theorem C104_small_values_are_kept_inside : forall fl ops n sched s,
  (forall o t, In o ops -> op_type o = Some t -> fits fl t = true) ->
  run fl ops (init n sched) = Ok tt s -> heap s = [].
Proof.
  intros fl ops n sched s H E.
  assert (S0 : small (init n sched)).
  { split; [reflexivity|]. unfold init. cbn [vars]. clear. induction n as [|n IHn]; cbn [repeat]; [constructor|constructor; [exact I|exact IHn]]. }
  revert S0 E. generalize (init n sched). revert s. induction ops as [|o ops IH]; intros s s0 S0 E; cbn [run] in E.
  - injection E as <-. apply S0.
  - pose proof (step_small fl o (fun t => H o t (or_introl eq_refl)) s0 S0) as K.
    assert (H' : forall o t, In o ops -> op_type o = Some t -> fits fl t = true) by (intros; eapply H; [right; eassumption|assumption]).
    destruct (step fl o s0) as [u s1|e s1|]; [|exact (IH H' s s1 K E)|discriminate].
    exact (IH H' s s1 (proj1 K) E).
Qed.

Example C104_example :
  exists s, reach Any 1 [] s [None] /\ live s = 0 /\ heap s = [HFree].
Proof.
  eexists. split.
  - eapply (rdone Any 1 [] _ [Some (Known TString (CStr "x"%string))] (ODestroy 0)).
    + eapply (rdone Any 1 [] _ [None] (OCtor 0 TString (CStr "x"%string))).
      * apply (rinit Any 1 []).
      * reflexivity.
      * reflexivity.
      * vm_compute. reflexivity.
    + reflexivity.
    + reflexivity.
    + vm_compute. reflexivity.
  - split; reflexivity.
Qed.

(** ** C105: poly_base *)

(** A poly is a value too. *)
Theorem C105_poly_is_a_value_partial : forall ops n A,
  effects Poly ops (repeat None n) = Some A ->
  exists s, run Poly ops (init n []) = Ok tt s /\ shows Poly s A.
Proof.
  intros ops n A E.
  destruct (run_rep Poly ops (init n []) _ A (init_rep n []) eq_refl E) as [s [R [K _]]].
  exists s. split; [exact R|]. apply RepL_shows. exact K.
Qed.

Example C105_example :
  effects Poly [OCtor 0 TString (CStr "x"%string); OCtor 1 TInt32 (CInt 5); OAssignVal 1 TString (CStr "y"%string); OAssignRel 0 1]
    (repeat None 2) = Some [Some (Known TString (CStr "y"%string)); Some (Known TString (CStr "y"%string))].
Proof. reflexivity. Qed.

(** x.assign(x) is undefined: the object is destroyed, then copied.  And
    x.assign(y) leaves no object in x if the copy throws. *)
Theorem C105_assign_poly_refuted :
  (exists s, run Poly [OCtor 0 TInt32 (CInt 5)] (init 1 []) = Ok tt s /\ step Poly (OAssignRel 0 0) s = UB) /\
  (exists s s', run Poly [OCtor 0 TInt32 (CInt 5); OCtor 1 TString (CStr "x"%string)]
                  (init 2 [false; false; false; true]) = Ok tt s /\
     step Poly (OAssignRel 0 1) s = Exc ECopy s' /\ step Poly (ODestroy 0) s' = UB).
Proof.
  split.
  - eexists. split; [vm_compute; reflexivity|]. reflexivity.
  - eexists. eexists. split; [vm_compute; reflexivity|]. split; reflexivity.
Qed.

(** Assigning a value to a poly which was moved from is undefined if it held
    one of the same type in the free store. *)
Theorem C105_assign_to_moved_from_refuted :
  exists s, run Poly [OCtor 0 TString (CStr "x"%string); OMove 1 0] (init 2 []) = Ok tt s /\
    step Poly (OAssignVal 0 TString (CStr "y"%string)) s = UB.
Proof. eexists. split; [vm_compute; reflexivity|]. reflexivity. Qed.
