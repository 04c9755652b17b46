(** * The representation invariant of any_regular_t / poly_base *)
From Coq Require Import List ZArith QArith Bool Lia.
From Verif Require Import Prelude AnyReg_Model AnyReg_Spec.
Import ListNotations.
Local Open Scope nat_scope.
Ltac Zify.zify_post_hook ::= idtac.

Lemma cty_eqb_refl t : cty_eqb t t = true.
Proof. unfold cty_eqb. destruct (cty_eq_dec t t); congruence. Qed.
Lemma cty_eqb_eq a b : cty_eqb a b = true <-> a = b.
Proof. unfold cty_eqb. destruct (cty_eq_dec a b); split; congruence. Qed.

(** The storage [c] holds [a]. *)
Definition rep (h : list hcell) (c : storage) (a : option aval) : Prop :=
  match c, a with
  | SRaw, None => True
  | SLocal t (Live v), Some (Known t' v') => t = t' /\ v = v' /\ local t = true
  | SLocal t Gone, Some (Moved t') => t = t' /\ local t = true
  | SRemote t (Some p), Some (Known t' v) => t = t' /\ local t = false /\ nth_error h p = Some (HObj t v)
  | SRemote t None, Some (Moved t') => t = t' /\ local t = false
  | _, _ => False
  end.

Definition own (a : nat) (c : storage) : nat :=
  match c with SRemote _ (Some p) => if Nat.eqb p a then 1 else 0 | _ => 0 end.
Fixpoint owns (a : nat) (cs : list storage) : nat :=
  match cs with [] => 0 | c :: r => own a c + owns a r end.
Definition alive (h : list hcell) (a : nat) : nat :=
  match nth_error h a with Some (HObj _ _) => 1 | Some HRaw => 1 | _ => 0 end.

(** The storages [cs] hold [A], and own the free store exactly. *)
Definition RepL (h : list hcell) (cs : list storage) (A : store) : Prop :=
  Forall2 (rep h) cs A /\ forall a, alive h a = owns a cs.

Lemma owns_upd a cs x c c0 : nth_error cs x = Some c0 ->
  owns a (upd cs x c) + own a c0 = owns a cs + own a c.
Proof.
  revert x. induction cs as [|d cs IH]; intros [|x] E; cbn [nth_error] in E; try discriminate.
  - injection E as ->. cbn [upd owns]. lia.
  - cbn [upd owns]. specialize (IH x E). lia.
Qed.

Lemma Forall2_upd {A B} (R : A -> B -> Prop) l m x a b :
  Forall2 R l m -> R a b -> Forall2 R (upd l x a) (upd m x b).
Proof.
  intros H K. revert x. induction H; intros x0; destruct x0; cbn [upd]; constructor; auto.
Qed.

Lemma Forall2_nth {A B} (R : A -> B -> Prop) l m x b :
  Forall2 R l m -> nth_error m x = Some b -> exists a, nth_error l x = Some a /\ R a b.
Proof.
  intros H. revert x. induction H; intros [|x0] E; cbn [nth_error] in E; try discriminate.
  - injection E as ->. exists x. auto.
  - apply IHForall2 in E. exact E.
Qed.

Lemma Forall2_nth' {A B} (R : A -> B -> Prop) l m x a :
  Forall2 R l m -> nth_error l x = Some a -> exists b, nth_error m x = Some b /\ R a b.
Proof.
  intros H. revert x. induction H; intros [|x0] E; cbn [nth_error] in E; try discriminate.
  - injection E as ->. exists y. auto.
  - apply IHForall2 in E. exact E.
Qed.

(** Take the contents of a variable out. *)
Lemma RepL_out h cs A x c a :
  RepL h cs A -> nth_error cs x = Some c -> nth_error A x = Some a ->
  RepL h (c :: upd cs x SRaw) (a :: upd A x None).
Proof.
  intros [F O] E1 E2. split.
  - constructor.
    + destruct (Forall2_nth _ _ _ _ _ F E2) as [c' [E R]]. congruence.
    + apply Forall2_upd; [exact F | exact I].
  - intros b. cbn [owns]. rewrite O. pose proof (owns_upd b cs x SRaw c E1).
    cbn [own] in H. lia.
Qed.

(** Put it into a variable that holds nothing. *)
Lemma RepL_in h cs A x c a :
  RepL h (c :: cs) (a :: A) -> nth_error cs x = Some SRaw ->
  RepL h (upd cs x c) (upd A x a).
Proof.
  intros [F O] E. inversion F; subst. split.
  - apply Forall2_upd; assumption.
  - intros b. specialize (O b). cbn [owns] in O. rewrite O.
    pose proof (owns_upd b cs x c SRaw E). cbn [own] in H. lia.
Qed.

Lemma RepL_exch h c d cs a b A :
  RepL h (c :: d :: cs) (a :: b :: A) -> RepL h (d :: c :: cs) (b :: a :: A).
Proof.
  intros [F O]. inversion F; subst. inversion H4; subst. split.
  - constructor; [|constructor]; assumption.
  - intros x. rewrite O. cbn [owns]. lia.
Qed.

Lemma RepL_cons_raw h cs A : RepL h cs A <-> RepL h (SRaw :: cs) (None :: A).
Proof.
  split; intros [F O]; split; cbn [owns own] in *; auto.
  - constructor; [exact I | exact F].
  - inversion F; assumption.
Qed.

Lemma RepL_len h cs A : RepL h cs A -> length cs = length A.
Proof. intros [F _]. induction F; cbn; auto. Qed.

(** The free store may grow. *)
Lemma rep_mono h h' c a :
  (forall p t v, nth_error h p = Some (HObj t v) -> nth_error h' p = Some (HObj t v)) ->
  rep h c a -> rep h' c a.
Proof.
  intros H. destruct c as [|t [v|]|t [p|]], a as [[t' v'|t']|]; cbn; try tauto.
  intros [-> [L E]]. repeat split; auto.
Qed.

Lemma Forall2_mono {A B} (R R' : A -> B -> Prop) l m :
  Forall2 R l m -> (forall a b, In a l -> R a b -> R' a b) -> Forall2 R' l m.
Proof.
  intros H. induction H; intros K; constructor.
  - apply K; [left; reflexivity | assumption].
  - apply IHForall2. intros a b Hi. apply K. right; exact Hi.
Qed.

Lemma alive_app h c a :
  alive (h ++ [c]) a = if Nat.eqb a (length h) then (match c with HFree => 0 | _ => 1 end) else alive h a.
Proof.
  unfold alive. destruct (Nat.eqb_spec a (length h)) as [->|N].
  - rewrite nth_error_app2 by lia. rewrite Nat.sub_diag. cbn. destruct c; reflexivity.
  - destruct (Nat.lt_ge_cases a (length h)).
    + rewrite nth_error_app1 by assumption. reflexivity.
    + rewrite nth_error_app2 by assumption.
      replace (a - length h) with (S (a - length h - 1)) by lia. cbn [nth_error].
      assert (nth_error h a = None) as -> by (apply nth_error_None; lia).
      destruct (a - length h - 1); reflexivity.
Qed.

Lemma alive_upd h p c a : p < length h ->
  alive (upd h p c) a = if Nat.eqb a p then (match c with HFree => 0 | _ => 1 end) else alive h a.
Proof.
  intros L. unfold alive. destruct (Nat.eqb_spec a p) as [->|N].
  - rewrite nth_error_upd_same by assumption. destruct c; reflexivity.
  - rewrite nth_error_upd_other by congruence. reflexivity.
Qed.

Lemma owns_pos a cs : owns a cs <> 0 ->
  exists t, In (SRemote t (Some a)) cs.
Proof.
  induction cs as [|c cs IH]; cbn [owns]; intros H; [lia|].
  destruct (Nat.eq_dec (owns a cs) 0) as [Z|Z].
  - destruct c as [|t k|t [p|]]; cbn [own] in H; try lia.
    destruct (Nat.eqb_spec p a) as [->|]; [|lia]. exists t. left; reflexivity.
  - destruct (IH Z) as [t Ht]. exists t. right; exact Ht.
Qed.

Lemma owns_in a t cs : In (SRemote t (Some a)) cs -> owns a cs <> 0.
Proof.
  induction cs as [|c cs IH]; cbn [In owns]; [tauto|]. intros [->|H].
  - cbn [own]. rewrite Nat.eqb_refl. lia.
  - specialize (IH H). lia.
Qed.

(** ** The primitives *)

(** Destroying the first storage. *)
Lemma destruct_ok s c cs a A vs :
  RepL (heap s) (c :: cs) (Some a :: A) -> vars s = vs ->
  exists h', destruct_ c s = Ok tt (mkst h' vs (fails s)) /\ RepL h' cs A.
Proof.
  intros [F O] <-. destruct s as [h vs fs]; cbn [heap vars fails] in *.
  inversion F as [|? ? ? ? R F']; subst.
  destruct c as [|t k|t [p|]]; cbn [destruct_].
  - destruct R.
  - exists h. split; [reflexivity|]. split; [exact F'|]. exact O.
  - destruct a as [t' v|t']; [|destruct R]. destruct R as [<- [L E]].
    unfold bind, get_cell. cbn [heap]. rewrite E. rewrite cty_eqb_refl.
    unfold set_cell. cbn [heap vars fails].
    assert (Lp : p < length h) by (apply nth_error_Some; congruence).
    exists (upd h p HFree). split; [reflexivity|].
    assert (Z : owns p cs = 0).
    { specialize (O p). cbn [owns own] in O. rewrite Nat.eqb_refl in O.
      unfold alive in O. rewrite E in O. lia. }
    split.
    + apply (Forall2_mono _ _ _ _ F'). intros d b Hin Hr.
      destruct d as [|td [vd|]|td [q|]], b as [[tb vb|tb]|]; cbn in *; try tauto.
      destruct Hr as [-> [Ld Ed]]. repeat split; auto.
      rewrite nth_error_upd_other; [exact Ed|]. intros ->.
      apply owns_in in Hin. lia.
    + intros b. rewrite alive_upd by exact Lp. specialize (O b). cbn [owns own] in O.
      rewrite Nat.eqb_sym. destruct (Nat.eqb_spec p b) as [->|N]; [lia|].
      rewrite Nat.add_0_l in O. exact O.
  - exists h. split; [reflexivity|]. split; [exact F'|]. exact O.
Qed.

(** Moving the first storage. *)
Lemma move_clone_ok s c cs a A :
  RepL (heap s) (c :: cs) (Some a :: A) ->
  exists n o, move_clone c s = Ok (n, o) s /\
    RepL (heap s) (n :: o :: cs) (Some a :: Some (rest a) :: A).
Proof.
  intros [F O]. inversion F as [|? ? ? ? R F']; subst.
  destruct c as [|t k|t p]; cbn [move_clone].
  - destruct R.
  - exists (SLocal t k), (SLocal t (moved_from t k)). split; [reflexivity|].
    split; [|exact O]. constructor; [exact R|]. constructor; [|exact F'].
    unfold moved_from. destruct k as [v|].
    + destruct a as [t' v'|t']; [|destruct R]. destruct R as [<- [<- L]].
      cbn [rest]. destruct (trivial t); cbn; auto.
    + destruct a as [t' v'|t']; [destruct R|]. destruct R as [<- L].
      destruct (trivial t); cbn; auto.
  - exists (SRemote t p), (SRemote t None). split; [reflexivity|].
    split; [|exact O]. constructor; [exact R|]. constructor; [|exact F'].
    destruct p as [p|].
    + destruct a as [t' v|t']; [|destruct R]. destruct R as [<- [L E]]. cbn [rest].
      assert (trivial t = false) as -> by (destruct t; cbn in *; congruence). cbn. auto.
    + destruct a as [t' v|t']; [destruct R|]. exact R.
Qed.

(** The outcome of an action that makes a storage holding [a] and can throw,
    with [P] saying when a throw leaks nothing. *)
Definition makes (fl : flavour) (m : M storage) (a : aval) (P : Prop) : Prop :=
  forall s cs A vs, RepL (heap s) cs A -> vars s = vs ->
    (exists c h' fs', m s = Ok c (mkst h' vs fs') /\ RepL h' (c :: cs) (Some a :: A) /\
                      (In true fs' -> In true (fails s))) \/
    (exists e h' fs', m s = Exc e (mkst h' vs fs') /\ In true (fails s) /\ e <> ECast /\
                      (P -> RepL h' cs A)).

Lemma may_ok c e s : e <> ECast ->
  (exists fs', may c e s = Ok tt (mkst (heap s) (vars s) fs') /\ (In true fs' -> In true (fails s))) \/
  (exists fs', may c e s = Exc e (mkst (heap s) (vars s) fs') /\ In true (fails s) /\ c = true).
Proof.
  intros N. destruct s as [h vs fs]; cbn [heap vars fails].
  unfold may. destruct c; [|left; exists fs; auto].
  unfold bind, tick. cbn [fails heap vars]. destruct fs as [|[|] fs].
  - left. exists []. auto.
  - right. exists fs. unfold throw. split; [reflexivity|]. split; [left; reflexivity|reflexivity].
  - left. exists fs. split; [reflexivity|]. intros H; right; exact H.
Qed.

Lemma may_bind {A} c e (k : M A) s :
  bind (may c e) (fun _ => k) s =
  match may c e s with Ok _ s' => k s' | Exc e s' => Exc e s' | UB => UB end.
Proof. reflexivity. Qed.

Lemma RepL_new h cs A t v : local t = false -> RepL h cs A ->
  RepL (h ++ [HObj t v]) (SRemote t (Some (length h)) :: cs) (Some (Known t v) :: A).
Proof.
  intros L [F O]. split.
  - constructor.
    + cbn. repeat split; auto. rewrite nth_error_app2 by lia. rewrite Nat.sub_diag. reflexivity.
    + apply (Forall2_mono _ _ _ _ F). intros c a _. apply rep_mono.
      intros p t' v' E. rewrite nth_error_app1; [exact E|]. apply nth_error_Some. congruence.
  - intros a. rewrite alive_app. cbn [owns own]. rewrite Nat.eqb_sym.
    destruct (Nat.eqb_spec (length h) a) as [<-|N].
    + specialize (O (length h)). unfold alive in O.
      assert (nth_error h (length h) = None) as E by (apply nth_error_None; lia).
      rewrite E in O. lia.
    + rewrite O. reflexivity.
Qed.

Lemma upd_last {A} (l : list A) x y : upd (l ++ [x]) (length l) y = l ++ [y].
Proof. induction l as [|a l IH]; cbn [length app upd]; [reflexivity|]. rewrite IH. reflexivity. Qed.

Lemma RepL_free h cs A : RepL h cs A -> RepL (h ++ [HFree]) cs A.
Proof.
  intros [F O]. split.
  - apply (Forall2_mono _ _ _ _ F). intros c a _. apply rep_mono.
    intros p t' v' E. rewrite nth_error_app1; [exact E|]. apply nth_error_Some. congruence.
  - intros a. rewrite alive_app. destruct (Nat.eqb_spec a (length h)) as [->|N]; [|apply O].
    specialize (O (length h)). unfold alive in O.
    assert (nth_error h (length h) = None) as E by (apply nth_error_None; lia).
    rewrite E in O. exact O.
Qed.

Lemma make_model_ok fl t v : makes fl (make_model fl t v) (Known t v) (quiet fl t = true).
Proof.
  intros s cs A vs H <-. unfold make_model. destruct (local t) eqn:L.
  - left. destruct s as [h vs fs]. exists (SLocal t (Live v)), h, fs.
    split; [reflexivity|]. split; [|auto]. destruct H as [F O]. split; [|exact O].
    constructor; [cbn; auto | exact F].
  - destruct s as [h vs fs]; cbn [heap vars fails] in *.
    unfold new_remote, alloc, bind, tick, throw, ret, set_cell. cbn [heap vars fails].
    destruct fs as [|[|] fs]; cbn [heap vars fails].
    + destruct (mthrow t); cbn [heap vars fails]; rewrite upd_last; left;
        eexists _, _, _; (split; [reflexivity|]); (split; [apply RepL_new; assumption|auto]).
    + right. eexists _, _, _. split; [reflexivity|]. split; [left; reflexivity|].
      split; [discriminate|]. intros _. exact H.
    + destruct (mthrow t) eqn:Mt; cbn [heap vars fails].
      * destruct fs as [|[|] fs]; cbn [heap vars fails].
        -- rewrite upd_last. left. eexists _, _, _. split; [reflexivity|].
           split; [apply RepL_new; assumption|]. intros [].
        -- right. destruct fl.
           ++ eexists _, _, _. split; [reflexivity|]. split; [right; left; reflexivity|].
              split; [discriminate|]. cbn [quiet]. rewrite Mt. discriminate.
           ++ cbn [heap vars fails]. rewrite upd_last. eexists _, _, _. split; [reflexivity|].
              split; [right; left; reflexivity|]. split; [discriminate|].
              intros _. apply RepL_free. exact H.
        -- rewrite upd_last. left. eexists _, _, _. split; [reflexivity|].
           split; [apply RepL_new; assumption|]. intros K. right. right. exact K.
      * rewrite upd_last. left. eexists _, _, _. split; [reflexivity|].
        split; [apply RepL_new; assumption|]. intros K. right. exact K.
Qed.

Lemma makes_after fl c m a P : makes fl m a P -> makes fl (bind (may c ECopy) (fun _ => m)) a P.
Proof.
  intros H s cs A vs R E. rewrite may_bind.
  destruct (may_ok c ECopy s ltac:(discriminate)) as [[fs' [-> I1]] | [fs' [-> [I1 _]]]].
  - specialize (H (mkst (heap s) (vars s) fs') cs A vs R E). cbn [fails] in H.
    destruct H as [[k [h' [f2 [E1 [R1 I2]]]]] | [e [h' [f2 [E1 [I2 [N R1]]]]]]].
    + left. exists k, h', f2. split; [exact E1|]. split; [exact R1|]. auto.
    + right. exists e, h', f2. split; [exact E1|]. split; [auto|]. split; assumption.
  - right. exists ECopy, (heap s), fs'. rewrite E. split; [reflexivity|].
    split; [exact I1|]. split; [discriminate|]. intros _. exact R.
Qed.

Lemma from_value_ok fl t v :
  makes fl (from_value fl t v) (given fl t v)
        (quiet fl (match fl with Any => promote t | Poly => t end) = true).
Proof.
  unfold from_value, given, copy_val. destruct fl.
  - apply makes_after. destruct (cty_eqb (promote t) t).
    + intros s cs A vs R E. apply (make_model_ok Any (promote t) (up t v) s cs A vs R E).
    + apply makes_after. apply make_model_ok.
  - apply makes_after, makes_after, make_model_ok.
Qed.

(** Cloning a variable. *)
Lemma clone_ok fl s cs A vs c t v :
  In c cs -> rep (heap s) c (Some (Known t v)) ->
  RepL (heap s) cs A -> vars s = vs ->
  (exists k h' fs', clone fl c s = Ok k (mkst h' vs fs') /\ RepL h' (k :: cs) (Some (Known t v) :: A) /\
                    (In true fs' -> In true (fails s))) \/
  (exists e h' fs', clone fl c s = Exc e (mkst h' vs fs') /\ In true (fails s) /\ e <> ECast /\
                    (quiet fl t = true -> RepL h' cs A)).
Proof.
  intros Hin R H E. destruct c as [|tc [vc|]|tc [p|]]; cbn [rep] in R; try tauto.
  - destruct R as [-> [-> L]]. cbn [clone]. unfold copy_val.
    apply (makes_after fl (cthrow t) (ret (SLocal t (Live v))) (Known t v) (quiet fl t = true)); [|exact H|exact E].
    intros s1 cs1 A1 vs1 R1 E1. left. exists (SLocal t (Live v)), (heap s1), (fails s1).
    destruct s1 as [h1 v1 f1]; cbn [heap vars fails] in *. subst v1.
    split; [reflexivity|]. split; [|auto]. destruct R1 as [F1 O1]. split; [|exact O1].
    constructor; [cbn; auto|exact F1].
  - destruct R as [-> [L Ep]].
    assert (clone fl (SRemote t (Some p)) s = (copy_val t ;;; make_model fl t v) s) as ->.
    { cbn [clone]. unfold bind at 1, get_cell. rewrite Ep. rewrite cty_eqb_refl. reflexivity. }
    apply (makes_after fl (cthrow t) (make_model fl t v) (Known t v) (quiet fl t = true)); [|exact H|exact E].
    apply make_model_ok.
Qed.
