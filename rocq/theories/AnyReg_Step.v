(** * Each statement on any_regular_t / poly_base has its effect *)
From Coq Require Import List ZArith QArith Bool Lia.
From Verif Require Import Prelude AnyReg_Model AnyReg_Spec AnyReg_Rep.
Import ListNotations.
Local Open Scope nat_scope.
Ltac Zify.zify_post_hook ::= idtac.

Lemma upd_twice {A} (l : list A) x a b : upd (upd l x a) x b = upd l x b.
Proof. revert x. induction l as [|c l IH]; intros [|x]; cbn [upd]; congruence. Qed.

Lemma upd_comm {A} (l : list A) x y a b : x <> y -> upd (upd l x a) y b = upd (upd l y b) x a.
Proof.
  revert x y. induction l as [|c l IH]; intros [|x] [|y] N; cbn [upd]; try congruence.
  f_equal. apply IH. congruence.
Qed.

Lemma upd_id {A} (l : list A) x a : nth_error l x = Some a -> upd l x a = l.
Proof.
  revert x. induction l as [|c l IH]; intros [|x] E; cbn [nth_error upd] in *; try congruence.
  rewrite IH; congruence.
Qed.

Lemma nth_upd_same {A} (l : list A) x a b : nth_error l x = Some b -> nth_error (upd l x a) x = Some a.
Proof. intros E. apply nth_error_upd_same. apply nth_error_Some. congruence. Qed.

(** A variable that holds something. *)
Lemma var_of h cs A x a : RepL h cs A -> nth_error A x = Some a ->
  exists c, nth_error cs x = Some c /\ rep h c a.
Proof. intros [F _] E. destruct (Forall2_nth _ _ _ _ _ F E) as [c [E1 R]]. exists c. auto. Qed.

Lemma get_var_eq x s c : nth_error (vars s) x = Some c -> get_var x s = Ok c s.
Proof. intros E. unfold get_var. rewrite E. reflexivity. Qed.

Lemma bind_Ok {A B} (m : M A) (k : A -> M B) s a s' : m s = Ok a s' -> bind m k s = k a s'.
Proof. intros E. unfold bind. rewrite E. reflexivity. Qed.
Lemma bind_Exc {A B} (m : M A) (k : A -> M B) s e s' : m s = Exc e s' -> bind m k s = Exc e s'.
Proof. intros E. unfold bind. rewrite E. reflexivity. Qed.

Lemma rep_none h c : rep h c None -> c = SRaw.
Proof. destruct c as [|t [v|]|t [p|]]; cbn; tauto. Qed.

Lemma fresh_ok s A x : RepL (heap s) (vars s) A -> nth_error A x = Some None ->
  fresh x s = Ok tt s /\ nth_error (vars s) x = Some SRaw.
Proof.
  intros H E. destruct (var_of _ _ _ _ _ H E) as [c [Ec R]]. apply rep_none in R. subst c.
  split; [|exact Ec]. unfold fresh. rewrite (bind_Ok _ _ _ _ _ (get_var_eq _ _ _ Ec)). reflexivity.
Qed.

(** Destroying the contents of a variable while a list [ts] of temporaries is
    around. *)
Lemma destroy_var s ts B A x a :
  RepL (heap s) (ts ++ vars s) (B ++ A) -> length ts = length B ->
  nth_error A x = Some (Some a) ->
  exists c h', get_var x s = Ok c s /\ destruct_ c s = Ok tt (mkst h' (vars s) (fails s)) /\
    nth_error (vars s) x = Some c /\
    RepL h' (ts ++ upd (vars s) x SRaw) (B ++ upd A x None).
Proof.
  intros H L E.
  assert (E' : nth_error (B ++ A) (length ts + x) = Some (Some a)).
  { rewrite nth_error_app2 by lia. rewrite L. replace (length B + x - length B) with x by lia. exact E. }
  destruct (var_of _ _ _ _ _ H E') as [c [Ec R]].
  pose proof (RepL_out _ _ _ _ _ _ H Ec E') as K.
  destruct (destruct_ok s c _ a _ (vars s) K eq_refl) as [h' [D K']].
  rewrite nth_error_app2 in Ec by lia. replace (length ts + x - length ts) with x in Ec by lia.
  exists c, h'. split; [apply get_var_eq; exact Ec|]. split; [exact D|]. split; [exact Ec|].
  assert (U : forall X (l m : list X) y, upd (l ++ m) (length l + x) y = l ++ upd m x y).
  { intros X l m y. induction l as [|z l IH]; cbn [app length plus upd]; [reflexivity|]. rewrite IH. reflexivity. }
  rewrite U in K'. rewrite L in K'. rewrite U in K'. exact K'.
Qed.

Lemma RepL_in0 h c cs A a x :
  RepL h (c :: cs) (a :: A) -> nth_error cs x = Some SRaw -> RepL h (upd cs x c) (upd A x a).
Proof. apply RepL_in. Qed.

Lemma replace_ok s tmp a A x old :
  RepL (heap s) (tmp :: vars s) (Some a :: A) -> nth_error A x = Some (Some old) ->
  exists s', replace x tmp s = Ok tt s' /\ RepL (heap s') (vars s') (upd A x (Some a)) /\ fails s' = fails s.
Proof.
  intros H E.
  destruct (destroy_var s [tmp] [Some a] A x old H eq_refl E) as [c [h1 [G [D [Ec K]]]]].
  unfold replace. rewrite (bind_Ok _ _ _ _ _ G). rewrite (bind_Ok _ _ _ _ _ D).
  unfold bind at 1, set_var at 1. cbn [heap vars fails].
  cbn [app] in K.
  set (s2 := mkst h1 (upd (vars s) x SRaw) (fails s)).
  destruct (move_clone_ok s2 tmp _ a _ K) as [n [o [Mv K2]]].
  rewrite (bind_Ok _ _ _ _ _ Mv). cbn [fst snd].
  unfold bind at 1, set_var at 1. subst s2. cbn [heap vars fails] in *.
  assert (K3 : RepL h1 (o :: upd (vars s) x n) (Some (rest a) :: upd A x (Some a))).
  { pose proof (RepL_in h1 (o :: upd (vars s) x SRaw) (Some (rest a) :: upd A x None) (S x) n (Some a) K2) as Q.
    cbn [nth_error upd] in Q. rewrite !upd_twice in Q. apply Q.
    apply (nth_upd_same _ _ _ _ Ec). }
  rewrite upd_twice.
  destruct (destruct_ok (mkst h1 (upd (vars s) x n) (fails s)) o _ _ _ _ K3 eq_refl) as [h2 [D2 K4]].
  cbn [heap vars fails] in *. rewrite D2. eexists. split; [reflexivity|]. cbn [heap vars fails]. auto.
Qed.

Definition done (s s' : st) (A' : store) : Prop :=
  RepL (heap s') (vars s') A' /\ (In true (fails s') -> In true (fails s)).

(** The outcomes of a statement. *)
Definition outcome (s : st) (r : res unit) (A A' : store) (P : Prop) : Prop :=
  (exists s', r = Ok tt s' /\ done s s' A') \/
  (exists e s', r = Exc e s' /\ In true (fails s) /\ (P -> RepL (heap s') (vars s') A)).

(** Make a temporary and move it into a declared variable. *)
Lemma make_replace m a (P : Prop) s A x old :
  (RepL (heap s) (vars s) A ->
    (exists c h' fs', m s = Ok c (mkst h' (vars s) fs') /\ RepL h' (c :: vars s) (Some a :: A) /\
                      (In true fs' -> In true (fails s))) \/
    (exists e h' fs', m s = Exc e (mkst h' (vars s) fs') /\ In true (fails s) /\ e <> ECast /\
                      (P -> RepL h' (vars s) A))) ->
  RepL (heap s) (vars s) A -> nth_error A x = Some (Some old) ->
  outcome s ((tmp <- m ;; replace x tmp) s) A (upd A x (Some a)) P.
Proof.
  intros Hm H E.
  destruct (Hm H) as [[c [h' [fs' [Em [K Mf]]]]] | [e [h' [fs' [Em [It [_ K]]]]]]].
  - rewrite (bind_Ok _ _ _ _ _ Em).
    destruct (replace_ok (mkst h' (vars s) fs') c a A x old K E) as [s' [Er [K' F]]].
    left. exists s'. split; [exact Er|]. split; [exact K'|]. rewrite F. exact Mf.
  - rewrite (bind_Exc _ _ _ _ _ Em). right. eexists _, _. split; [reflexivity|].
    split; [exact It|]. exact K.
Qed.

(** Make a value and put it into an undeclared variable. *)
Lemma make_declare m a (P : Prop) s A x :
  (RepL (heap s) (vars s) A ->
    (exists c h' fs', m s = Ok c (mkst h' (vars s) fs') /\ RepL h' (c :: vars s) (Some a :: A) /\
                      (In true fs' -> In true (fails s))) \/
    (exists e h' fs', m s = Exc e (mkst h' (vars s) fs') /\ In true (fails s) /\ e <> ECast /\
                      (P -> RepL h' (vars s) A))) ->
  RepL (heap s) (vars s) A -> nth_error (vars s) x = Some SRaw ->
  outcome s ((c <- m ;; set_var x c) s) A (upd A x (Some a)) P.
Proof.
  intros Hm H E.
  destruct (Hm H) as [[c [h' [fs' [Em [K Mf]]]]] | [e [h' [fs' [Em [It [_ K]]]]]]].
  - rewrite (bind_Ok _ _ _ _ _ Em). left. eexists. split; [reflexivity|].
    split; cbn [heap vars fails]; [|exact Mf]. apply RepL_in; assumption.
  - rewrite (bind_Exc _ _ _ _ _ Em). right. eexists _, _. split; [reflexivity|].
    split; [exact It|]. exact K.
Qed.

Lemma mthrow_promote t : mthrow (promote t) = mthrow t.
Proof. destruct t; reflexivity. Qed.

Lemma quiet_promote fl t : quiet fl (match fl with Any => promote t | Poly => t end) = quiet fl t.
Proof. destruct fl; cbn [quiet]; rewrite ?mthrow_promote; reflexivity. Qed.

Lemma type_of_rep h c t v s : rep h c (Some (Known t v)) -> type_of c s = Ok t s.
Proof. destruct c as [|tc [vc|]|tc [p|]]; cbn; try tauto; intros [-> _]; reflexivity. Qed.

Lemma type_of_any h c a s : rep h c (Some a) ->
  type_of c s = Ok (match a with Known t _ => t | Moved t => t end) s.
Proof. destruct c as [|tc [vc|]|tc [p|]], a; cbn; try tauto; intros [-> _]; reflexivity. Qed.

Lemma move_clone_val s c n o : move_clone c s = Ok (n, o) s -> n = c.
Proof. destruct c; cbn; unfold ret, undef; congruence. Qed.

(** x = std::move(y). *)
Lemma assign_move_ok s A x y a old :
  RepL (heap s) (vars s) A -> nth_error A x = Some (Some old) -> nth_error A y = Some (Some a) ->
  exists s', (c <- get_var y ;; m <- move_clone c ;; set_var y (snd m) ;;; replace x (fst m)) s = Ok tt s' /\
    done s s' (upd (upd A y (Some (rest a))) x (Some a)).
Proof.
  intros H Ex Ey. destruct (var_of _ _ _ _ _ H Ey) as [c [Ec R]].
  rewrite (bind_Ok _ _ _ _ _ (get_var_eq _ _ _ Ec)).
  pose proof (RepL_out _ _ _ _ _ _ H Ec Ey) as K.
  destruct (move_clone_ok s c _ a _ K) as [n [o [Mv K2]]].
  rewrite (bind_Ok _ _ _ _ _ Mv). cbn [fst snd].
  unfold bind at 1, set_var at 1.
  assert (K3 : RepL (heap s) (n :: upd (vars s) y o) (Some a :: upd A y (Some (rest a)))).
  { apply RepL_exch in K2.
    pose proof (RepL_in (heap s) (n :: upd (vars s) y SRaw) (Some a :: upd A y None) (S y) o (Some (rest a)) K2) as Q.
    cbn [nth_error upd] in Q. rewrite !upd_twice in Q. apply Q. apply (nth_upd_same _ _ _ _ Ec). }
  set (s1 := mkst (heap s) (upd (vars s) y o) (fails s)).
  assert (Ex' : exists old', nth_error (upd A y (Some (rest a))) x = Some (Some old')).
  { destruct (Nat.eq_dec y x) as [->|N].
    - exists (rest a). apply (nth_upd_same _ _ _ _ Ey).
    - exists old. rewrite nth_error_upd_other by congruence. exact Ex. }
  destruct Ex' as [old' Ex'].
  destruct (replace_ok s1 n a (upd A y (Some (rest a))) x old' K3 Ex') as [s' [Er [K' F]]].
  exists s'. split; [exact Er|]. split; [exact K'|]. rewrite F. cbn. auto.
Qed.

(** any_regular_t x(std::move(y)). *)
Lemma move_declare_ok s A x y a :
  RepL (heap s) (vars s) A -> nth_error A x = Some None -> nth_error A y = Some (Some a) ->
  exists s', (c <- get_var y ;; m <- move_clone c ;; set_var y (snd m) ;;; set_var x (fst m)) s = Ok tt s' /\
    done s s' (upd (upd A y (Some (rest a))) x (Some a)).
Proof.
  intros H Ex Ey. destruct (var_of _ _ _ _ _ H Ey) as [c [Ec R]].
  destruct (fresh_ok s A x H Ex) as [_ Ex0].
  rewrite (bind_Ok _ _ _ _ _ (get_var_eq _ _ _ Ec)).
  pose proof (RepL_out _ _ _ _ _ _ H Ec Ey) as K.
  destruct (move_clone_ok s c _ a _ K) as [n [o [Mv K2]]].
  rewrite (bind_Ok _ _ _ _ _ Mv). cbn [fst snd].
  unfold bind at 1, set_var at 1.
  assert (K3 : RepL (heap s) (n :: upd (vars s) y o) (Some a :: upd A y (Some (rest a)))).
  { apply RepL_exch in K2.
    pose proof (RepL_in (heap s) (n :: upd (vars s) y SRaw) (Some a :: upd A y None) (S y) o (Some (rest a)) K2) as Q.
    cbn [nth_error upd] in Q. rewrite !upd_twice in Q. apply Q. apply (nth_upd_same _ _ _ _ Ec). }
  unfold set_var. cbn [heap vars fails]. eexists. split; [reflexivity|].
  split; cbn [heap vars fails]; [|auto].
  apply RepL_in; [exact K3|].
  assert (x <> y) by (intros ->; rewrite Ex in Ey; discriminate).
  rewrite nth_error_upd_other by congruence. exact Ex0.
Qed.

(** swap. *)
Lemma set_two s A x y a b c d :
  RepL (heap s) (vars s) A -> nth_error A x = Some (Some a) -> nth_error A y = Some (Some b) ->
  nth_error (vars s) x = Some c -> nth_error (vars s) y = Some d ->
  RepL (heap s) (upd (upd (vars s) x d) y c) (upd (upd A x (Some b)) y (Some a)).
Proof.
  intros H Ex Ey Ec Ed. destruct (Nat.eq_dec x y) as [->|N].
  - rewrite !upd_twice. replace d with c in * by congruence.
    rewrite !upd_id; assumption.
  - pose proof (RepL_out _ _ _ _ _ _ H Ec Ex) as K.
    assert (E1 : nth_error (c :: upd (vars s) x SRaw) (S y) = Some d)
      by (cbn; rewrite nth_error_upd_other by congruence; exact Ed).
    assert (E2 : nth_error (Some a :: upd A x None) (S y) = Some (Some b))
      by (cbn; rewrite nth_error_upd_other by congruence; exact Ey).
    pose proof (RepL_out _ _ _ _ _ _ K E1 E2) as K2. cbn [upd] in K2.
    assert (K3 := RepL_in _ _ _ (S x) _ _ K2).
    cbn [nth_error upd] in K3.
    rewrite (upd_comm (vars s) x y) in K3 by congruence.
    rewrite (upd_comm A x y) in K3 by congruence.
    rewrite !upd_twice in K3.
    assert (K4 : RepL (heap s) (c :: upd (upd (vars s) y SRaw) x d)
                      (Some a :: upd (upd A y None) x (Some b))).
    { apply K3. apply (nth_upd_same _ _ _ c). rewrite nth_error_upd_other by congruence. exact Ec. }
    pose proof (RepL_in _ _ _ y _ _ K4) as K5.
    rewrite (upd_comm _ y x), (upd_comm _ y x) in K5 by congruence.
    rewrite !upd_twice in K5. apply K5.
    apply (nth_upd_same _ _ _ d). rewrite nth_error_upd_other by congruence. exact Ed.
Qed.

Lemma swap_diff s A x y a b c d :
  RepL (heap s) (vars s) A -> nth_error A x = Some (Some a) -> nth_error A y = Some (Some b) ->
  nth_error (vars s) x = Some c -> nth_error (vars s) y = Some d -> x <> y ->
  exists s', (m <- move_clone c ;;
     destruct_ (snd m) ;;;
     set_var x SRaw ;;;
     m2 <- move_clone d ;;
     set_var x (fst m2) ;;;
     destruct_ (snd m2) ;;;
     set_var y SRaw ;;;
     m3 <- move_clone (fst m) ;;
     set_var y (fst m3) ;;;
     destruct_ (snd m3)) s = Ok tt s' /\ done s s' (upd (upd A x (Some b)) y (Some a)).
Proof.
  intros H Ex Ey Ec Ed N.
  pose proof (RepL_out _ _ _ _ _ _ H Ec Ex) as K.
  destruct (move_clone_ok s c _ a _ K) as [n [o [Mv K1]]].
  rewrite (bind_Ok _ _ _ _ _ Mv). cbn [fst snd].
  apply RepL_exch in K1.
  destruct (destruct_ok s o _ _ _ (vars s) K1 eq_refl) as [h1 [D1 K2]].
  rewrite (bind_Ok _ _ _ _ _ D1).
  unfold bind at 1, set_var at 1. cbn [heap vars fails].
  assert (E1 : nth_error (n :: upd (vars s) x SRaw) (S y) = Some d)
    by (cbn; rewrite nth_error_upd_other by congruence; exact Ed).
  assert (E2 : nth_error (Some a :: upd A x None) (S y) = Some (Some b))
    by (cbn; rewrite nth_error_upd_other by congruence; exact Ey).
  pose proof (RepL_out _ _ _ _ _ _ K2 E1 E2) as K3. cbn [upd] in K3.
  set (s1 := mkst h1 (upd (vars s) x SRaw) (fails s)).
  destruct (move_clone_ok s1 d _ b _ K3) as [n2 [o2 [Mv2 K4]]].
  rewrite (bind_Ok _ _ _ _ _ Mv2). cbn [fst snd].
  unfold bind at 1, set_var at 1. subst s1. cbn [heap vars fails] in *. rewrite upd_twice.
  apply RepL_exch in K4.
  destruct (destruct_ok (mkst h1 (upd (vars s) x n2) (fails s)) o2 _ _ _ _ K4 eq_refl) as [h2 [D2 K5]].
  rewrite (bind_Ok _ _ _ _ _ D2). cbn [heap vars fails] in *.
  unfold bind at 1, set_var at 1. cbn [heap vars fails].
  (* K5 : n2 :: n :: upd (upd vars x SRaw) y SRaw *)
  assert (K6 := RepL_in _ _ _ (S x) _ _ K5). cbn [nth_error upd] in K6.
  rewrite (upd_comm (vars s) x y) in K6 by congruence.
  rewrite (upd_comm A x y) in K6 by congruence.
  rewrite !upd_twice in K6.
  assert (Hx : nth_error (upd (upd (vars s) y SRaw) x SRaw) x = Some SRaw).
  { apply (nth_upd_same _ _ _ c). rewrite nth_error_upd_other by congruence. exact Ec. }
  specialize (K6 Hx).
  set (s2 := mkst h2 (upd (upd (vars s) x n2) y SRaw) (fails s)).
  destruct (move_clone_ok s2 n _ a _ K6) as [n3 [o3 [Mv3 K7]]].
  rewrite (bind_Ok _ _ _ _ _ Mv3). cbn [fst snd].
  unfold bind at 1, set_var at 1. subst s2. cbn [heap vars fails] in *. rewrite upd_twice.
  assert (K8 := RepL_in _ _ _ (S y) _ _ K7). cbn [nth_error upd] in K8.
  rewrite (upd_comm _ y x) in K8 by congruence. rewrite (upd_comm A y x) in K8 by congruence.
  rewrite !upd_twice in K8.
  assert (Hy : nth_error (upd (upd (vars s) x n2) y SRaw) y = Some SRaw).
  { apply (nth_upd_same _ _ _ d). rewrite nth_error_upd_other by congruence. exact Ed. }
  specialize (K8 Hy).
  destruct (destruct_ok (mkst h2 (upd (upd (vars s) x n2) y n3) (fails s)) o3 _ _ _ _ K8 eq_refl) as [h3 [D3 K9]].
  rewrite D3. eexists. split; [reflexivity|]. split; cbn [heap vars fails]; auto.
Qed.

Lemma swap_ok s A x y a b :
  RepL (heap s) (vars s) A -> nth_error A x = Some (Some a) -> nth_error A y = Some (Some b) ->
  exists s', swap_ x y s = Ok tt s' /\ done s s' (upd (upd A x (Some b)) y (Some a)).
Proof.
  intros H Ex Ey.
  destruct (var_of _ _ _ _ _ H Ex) as [c [Ec Rc]]. destruct (var_of _ _ _ _ _ H Ey) as [d [Ed Rd]].
  unfold swap_.
  rewrite (bind_Ok _ _ _ _ _ (get_var_eq _ _ _ Ec)). rewrite (bind_Ok _ _ _ _ _ (get_var_eq _ _ _ Ed)).
  rewrite (bind_Ok _ _ _ _ _ (type_of_any _ _ _ s Rc)). rewrite (bind_Ok _ _ _ _ _ (type_of_any _ _ _ s Rd)).
  set (ta := match a with Known t _ => t | Moved t => t end).
  set (tb := match b with Known t _ => t | Moved t => t end).
  destruct (cty_eqb ta tb) eqn:E.
  - apply cty_eqb_eq in E.
    pose proof (set_two s A x y a b c d H Ex Ey Ec Ed) as K.
    destruct c as [|t k|t p]; [destruct Rc| |]; destruct d as [|t' k'|t' p']; try (destruct Rd; fail).
    + assert (t = t').
      { clear - Rc Rd E. subst ta tb. destruct k, a, k', b; cbn in Rc, Rd; try tauto;
          destruct Rc as [-> _], Rd as [-> _]; exact E. }
      subst t'. unfold bind, set_var. cbn [heap vars fails]. eexists. split; [reflexivity|].
      split; cbn [heap vars fails]; auto.
    + exfalso. clear - Rc Rd E. subst ta tb.
      destruct k, a, p', b; cbn in Rc, Rd; try tauto; subst;
        destruct Rc as [-> Rc], Rd as [-> Rd];
        repeat match goal with H : _ /\ _ |- _ => destruct H end; congruence.
    + exfalso. clear - Rc Rd E. subst ta tb.
      destruct k', a, p, b; cbn in Rc, Rd; try tauto; subst;
        destruct Rc as [-> Rc], Rd as [-> Rd];
        repeat match goal with H : _ /\ _ |- _ => destruct H end; congruence.
    + assert (t = t').
      { clear - Rc Rd E. subst ta tb. destruct p, a, p', b; cbn in Rc, Rd; try tauto;
          destruct Rc as [-> _], Rd as [-> _]; exact E. }
      subst t'. unfold bind, set_var. cbn [heap vars fails]. eexists. split; [reflexivity|].
      split; cbn [heap vars fails]; auto.
  - apply swap_diff; auto. intros ->. rewrite Ex in Ey. injection Ey as <-.
    subst ta tb. rewrite cty_eqb_refl in E. discriminate.
Qed.

(** x.cast<T>() = v. *)
Lemma RepL_write h cs A x t v w p :
  RepL h cs A -> nth_error A x = Some (Some (Known t w)) ->
  nth_error cs x = Some (SRemote t (Some p)) -> nth_error h p = Some (HObj t w) ->
  local t = false ->
  RepL (upd h p (HObj t v)) cs (upd A x (Some (Known t v))).
Proof.
  intros H Ex Ec Ep L.
  assert (Lp : p < length h) by (apply nth_error_Some; congruence).
  pose proof (RepL_out _ _ _ _ _ _ H Ec Ex) as [F O].
  assert (Z : owns p (upd cs x SRaw) = 0).
  { specialize (O p). cbn [owns own] in O. rewrite Nat.eqb_refl in O.
    unfold alive in O. rewrite Ep in O. lia. }
  assert (K : RepL (upd h p (HObj t v)) (SRemote t (Some p) :: upd cs x SRaw)
                   (Some (Known t v) :: upd A x None)).
  { inversion F as [|? ? ? ? R F']; subst. split.
    - constructor.
      + cbn. repeat split; auto. apply nth_error_upd_same. exact Lp.
      + apply (Forall2_mono _ _ _ _ F'). intros d b Hin Hr.
        destruct d as [|td [vd|]|td [q|]], b as [[tb vb|tb]|]; cbn in *; try tauto.
        destruct Hr as [-> [Ld Ed]]. repeat split; auto.
        rewrite nth_error_upd_other; [exact Ed|]. intros ->. apply owns_in in Hin. lia.
    - intros a. rewrite alive_upd by exact Lp. rewrite <- O.
      destruct (Nat.eqb_spec a p) as [->|]; [|reflexivity]. unfold alive. rewrite Ep. reflexivity. }
  pose proof (RepL_in _ _ _ x _ _ K (nth_upd_same _ _ _ _ Ec)) as Q.
  rewrite !upd_twice in Q. rewrite (upd_id cs x _ Ec) in Q. exact Q.
Qed.

Lemma write_same s A x t w v :
  RepL (heap s) (vars s) A -> nth_error A x = Some (Some (Known t w)) ->
  outcome s (write x t v s) A (upd A x (Some (Known t v))) True.
Proof.
  intros H Ex. destruct (var_of _ _ _ _ _ H Ex) as [c [Ec R]].
  unfold write. rewrite (bind_Ok _ _ _ _ _ (get_var_eq _ _ _ Ec)).
  rewrite (bind_Ok _ _ _ _ _ (type_of_rep _ _ _ _ s R)). rewrite cty_eqb_refl.
  destruct c as [|tc [vc|]|tc [p|]]; cbn [rep] in R; try tauto.
  - destruct R as [-> [-> L]]. unfold copy_val. rewrite may_bind.
    destruct (may_ok (cthrow t) ECopy s ltac:(discriminate)) as [[fs' [-> Mf]]|[fs' [-> [It _]]]].
    + unfold set_var. cbn [heap vars fails]. left. eexists. split; [reflexivity|].
      split; cbn [heap vars fails]; [|exact Mf].
      pose proof (RepL_out _ _ _ _ _ _ H Ec Ex) as [F O].
      assert (K : RepL (heap s) (SLocal t (Live v) :: upd (vars s) x SRaw) (Some (Known t v) :: upd A x None)).
      { inversion F; subst. split; [constructor; [cbn; auto|assumption]|exact O]. }
      pose proof (RepL_in _ _ _ x _ _ K (nth_upd_same _ _ _ _ Ec)) as Q.
      rewrite !upd_twice in Q. exact Q.
    + right. eexists _, _. split; [reflexivity|]. split; [exact It|]. intros _. exact H.
  - destruct R as [-> [L Ep]].
    unfold bind at 1, get_cell. rewrite Ep. rewrite cty_eqb_refl. unfold copy_val. rewrite may_bind.
    destruct (may_ok (cthrow t) ECopy s ltac:(discriminate)) as [[fs' [-> Mf]]|[fs' [-> [It _]]]].
    + unfold set_cell. cbn [heap vars fails]. left. eexists. split; [reflexivity|].
      split; cbn [heap vars fails]; [|exact Mf]. eapply RepL_write; eauto.
    + right. eexists _, _. split; [reflexivity|]. split; [exact It|]. intros _. exact H.
Qed.

Lemma write_moved s A x t v :
  RepL (heap s) (vars s) A -> nth_error A x = Some (Some (Moved t)) -> local t = true ->
  outcome s (write x t v s) A (upd A x (Some (Known t v))) True.
Proof.
  intros H Ex L. destruct (var_of _ _ _ _ _ H Ex) as [c [Ec R]].
  unfold write. rewrite (bind_Ok _ _ _ _ _ (get_var_eq _ _ _ Ec)).
  rewrite (bind_Ok _ _ _ _ _ (type_of_any _ _ _ s R)). rewrite cty_eqb_refl.
  destruct c as [|tc [vc|]|tc [p|]]; cbn [rep] in R; try tauto.
  2:{ destruct R as [-> L']. congruence. }
  destruct R as [-> _]. unfold copy_val. rewrite may_bind.
  destruct (may_ok (cthrow t) ECopy s ltac:(discriminate)) as [[fs' [-> Mf]]|[fs' [-> [It _]]]].
  - unfold set_var. cbn [heap vars fails]. left. eexists. split; [reflexivity|].
    split; cbn [heap vars fails]; [|exact Mf].
    pose proof (RepL_out _ _ _ _ _ _ H Ec Ex) as [F O].
    assert (K : RepL (heap s) (SLocal t (Live v) :: upd (vars s) x SRaw) (Some (Known t v) :: upd A x None)).
    { inversion F; subst. split; [constructor; [cbn; auto|assumption]|exact O]. }
    pose proof (RepL_in _ _ _ x _ _ K (nth_upd_same _ _ _ _ Ec)) as Q.
    rewrite !upd_twice in Q. exact Q.
  - right. eexists _, _. split; [reflexivity|]. split; [exact It|]. intros _. exact H.
Qed.

(** assign *)
Lemma assign_val_any s A x t v old :
  RepL (heap s) (vars s) A -> nth_error A x = Some (Some old) ->
  outcome s (assign_val Any x t v s) A (upd A x (Some (given Any t v))) (local (promote t) = true).
Proof.
  intros H Ex. cbn [assign_val given]. unfold copy_val. rewrite may_bind.
  destruct (may_ok (cthrow t) ECopy s ltac:(discriminate)) as [[fs' [-> Mf]]|[fs' [-> [It _]]]].
  2:{ right. eexists _, _. split; [reflexivity|]. split; [exact It|]. intros _. exact H. }
  set (s1 := mkst (heap s) (vars s) fs').
  destruct (destroy_var s1 [] [] A x old H eq_refl Ex) as [c [h1 [G [D [Ec K]]]]]. cbn [app] in K.
  rewrite (bind_Ok _ _ _ _ _ G). rewrite (bind_Ok _ _ _ _ _ D).
  unfold bind at 1, set_var at 1. subst s1. cbn [heap vars fails] in *.
  set (s2 := mkst h1 (upd (vars s) x SRaw) fs').
  assert (W : exists P, makes Any ((if cty_eqb (promote t) t then ret tt else may (cthrow (promote t)) ECopy) ;;;
                          make_model Any (promote t) (up t v)) (Known (promote t) (up t v)) P).
  { exists (quiet Any (promote t) = true). destruct (cty_eqb (promote t) t).
    - intros s3 cs3 A3 vs3 R3 E3. apply (make_model_ok Any (promote t) (up t v) s3 cs3 A3 vs3 R3 E3).
    - apply makes_after, make_model_ok. }
  destruct W as [P W].
  assert (NL : local (promote t) = true ->
    forall s3, (bind (if cty_eqb (promote t) t then ret tt else may (cthrow (promote t)) ECopy)
                (fun _ => make_model Any (promote t) (up t v))) s3 = Ok (SLocal (promote t) (Live (up t v))) s3).
  { intros L s3. unfold make_model. rewrite L. unfold cty_eqb.
    destruct (cty_eq_dec (promote t) t) as [|Np]; [reflexivity|].
    assert (cthrow (promote t) = false) as -> by (destruct t; cbn in *; congruence). reflexivity. }
  assert (Assoc : forall X (m1 : M unit) (m2 : M storage) (k : storage -> M X) s3,
            bind m1 (fun _ => bind m2 k) s3 = bind (bind m1 (fun _ => m2)) k s3).
  { intros X m1 m2 k s3. unfold bind. destruct (m1 s3); reflexivity. }
  rewrite Assoc.
  specialize (W s2 (upd (vars s) x SRaw) (upd A x None) (upd (vars s) x SRaw) K eq_refl).
  destruct W as [[c2 [h2 [f2 [Em [K2 M2]]]]] | [e [h2 [f2 [Em [It [_ _]]]]]]].
  - rewrite (bind_Ok _ _ _ _ _ Em). left. unfold set_var. eexists. split; [reflexivity|].
    split; cbn [heap vars fails].
    + pose proof (RepL_in _ _ _ x _ _ K2 (nth_upd_same _ _ _ _ Ec)) as Q.
      rewrite !upd_twice in Q. rewrite upd_twice. exact Q.
    + intros Hi. apply Mf, M2, Hi.
  - rewrite (bind_Exc _ _ _ _ _ Em). right. eexists _, _. split; [reflexivity|].
    split; [apply Mf; exact It|]. intros L. rewrite (NL L) in Em. discriminate.
Qed.

Lemma assign_val_poly s A x t v old :
  RepL (heap s) (vars s) A -> nth_error A x = Some (Some old) ->
  (forall t', old = Moved t' -> t' = t -> local t = true) ->
  outcome s (assign_val Poly x t v s) A (upd A x (Some (given Poly t v))) True.
Proof.
  intros H Ex Nm. destruct (var_of _ _ _ _ _ H Ex) as [c [Ec R]].
  cbn [assign_val given].
  rewrite (bind_Ok _ _ _ _ _ (get_var_eq _ _ _ Ec)).
  rewrite (bind_Ok _ _ _ _ _ (type_of_any _ _ _ s R)).
  destruct (cty_eqb (match old with Known t0 _ => t0 | Moved t0 => t0 end) t) eqn:E.
  - apply cty_eqb_eq in E. destruct old as [t0 w|t0].
    + subst t0. eapply write_same; eassumption.
    + subst t0. apply write_moved; auto. exact (Nm t eq_refl eq_refl).
  - destruct (from_value_ok Poly t v s (vars s) A (vars s) H eq_refl)
      as [[k [h1 [f1 [Em [K M1]]]]] | [e [h1 [f1 [Em [It [_ K]]]]]]].
    2:{ rewrite (bind_Exc _ _ _ _ _ Em). right. eexists _, _. split; [reflexivity|].
        split; [exact It|]. intros _. apply K. reflexivity. }
    rewrite (bind_Ok _ _ _ _ _ Em). cbn [given] in K.
    assert (Ec1 : nth_error (k :: vars s) (S x) = Some c) by exact Ec.
    assert (Ex1 : nth_error (Some (Known t v) :: A) (S x) = Some (Some old)) by exact Ex.
    pose proof (RepL_out _ _ _ _ _ _ K Ec1 Ex1) as K1. cbn [upd] in K1.
    set (s1 := mkst h1 (vars s) f1).
    destruct (move_clone_ok s1 c _ old _ K1) as [n [o [Mv K2]]].
    rewrite (bind_Ok _ _ _ _ _ Mv). cbn [fst snd]. apply RepL_exch in K2.
    destruct (destruct_ok s1 o _ _ _ (vars s) K2 eq_refl) as [h2 [D1 K3]].
    rewrite (bind_Ok _ _ _ _ _ D1). subst s1. cbn [heap vars fails] in *.
    unfold bind at 1, set_var at 1. cbn [heap vars fails].
    apply RepL_exch in K3.
    set (s2 := mkst h2 (upd (vars s) x SRaw) f1).
    destruct (move_clone_ok s2 k _ _ _ K3) as [n2 [o2 [Mv2 K4]]].
    rewrite (bind_Ok _ _ _ _ _ Mv2). cbn [fst snd].
    unfold bind at 1, set_var at 1. subst s2. cbn [heap vars fails] in *. rewrite upd_twice.
    assert (K5 := RepL_in _ _ _ (S (S x)) _ _ K4). cbn [nth_error upd] in K5.
    rewrite !upd_twice in K5. specialize (K5 (nth_upd_same _ _ _ _ Ec)).
    destruct (destruct_ok (mkst h2 (upd (vars s) x n2) f1) o2 _ _ _ _ K5 eq_refl) as [h3 [D2 K6]].
    rewrite (bind_Ok _ _ _ _ _ D2). cbn [heap vars fails] in *.
    set (s3 := mkst h3 (upd (vars s) x n2) f1).
    destruct (move_clone_ok s3 n _ _ _ K6) as [n3 [o3 [Mv3 K7]]].
    rewrite (bind_Ok _ _ _ _ _ Mv3). cbn [fst snd]. apply RepL_exch in K7.
    destruct (destruct_ok s3 o3 _ _ _ _ K7 eq_refl) as [h4 [D3 K8]].
    rewrite (bind_Ok _ _ _ _ _ D3). subst s3. cbn [heap vars fails] in *.
    destruct (destruct_ok (mkst h4 (upd (vars s) x n2) f1) n3 _ _ _ _ K8 eq_refl) as [h5 [D4 K9]].
    rewrite D4. left. eexists. split; [reflexivity|]. split; cbn [heap vars fails]; auto.
Qed.

Lemma assign_rel_poly s A x y old t v :
  RepL (heap s) (vars s) A -> nth_error A x = Some (Some old) ->
  nth_error A y = Some (Some (Known t v)) -> x <> y ->
  outcome s (assign_rel Poly x y s) A (upd A x (Some (Known t v))) False.
Proof.
  intros H Ex Ey N. cbn [assign_rel].
  destruct (destroy_var s [] [] A x old H eq_refl Ex) as [c [h1 [G [D [Ec K]]]]]. cbn [app] in K.
  rewrite (bind_Ok _ _ _ _ _ G). rewrite (bind_Ok _ _ _ _ _ D).
  unfold bind at 1, set_var at 1. cbn [heap vars fails].
  set (s1 := mkst h1 (upd (vars s) x SRaw) (fails s)).
  assert (Ey1 : nth_error (upd A x None) y = Some (Some (Known t v)))
    by (rewrite nth_error_upd_other by congruence; exact Ey).
  destruct (var_of _ _ _ _ _ K Ey1) as [d [Ed Rd]].
  rewrite (bind_Ok (get_var y) _ s1 d s1 (get_var_eq _ s1 _ Ed)).
  destruct (clone_ok Poly s1 (upd (vars s) x SRaw) (upd A x None) (upd (vars s) x SRaw) d t v
              (nth_error_In _ _ Ed) Rd K eq_refl)
    as [[k [h2 [f2 [Em [K2 M2]]]]] | [e [h2 [f2 [Em [It _]]]]]].
  - rewrite (bind_Ok _ _ _ _ _ Em). left. unfold set_var. eexists. split; [reflexivity|].
    split; cbn [heap vars fails]; [|exact M2].
    pose proof (RepL_in _ _ _ x _ _ K2 (nth_upd_same _ _ _ _ Ec)) as Q.
    rewrite !upd_twice in Q. rewrite upd_twice. exact Q.
  - rewrite (bind_Exc _ _ _ _ _ Em). right. eexists _, _. split; [reflexivity|]. split; [exact It|]. tauto.
Qed.

Lemma step_ok fl o s A A' :
  RepL (heap s) (vars s) A -> effect fl o A = Some A' ->
  outcome s (step fl o s) A A' (strong fl o A = true) \/
  (exists x t v, o = OWrite x t v /\ A' = A /\ step fl o s = Exc ECast s).
Proof.
  intros H E. destruct o as [x|x t v|x y|x y|x y|x y|x t v|x t v|x y|x y|x t v|x]; cbn [effect step strong] in *.
  - left. destruct (nth_error A x) as [[a|]|] eqn:Ex; try discriminate. injection E as <-.
    destruct (fresh_ok s A x H Ex) as [Fr E0]. rewrite (bind_Ok _ _ _ _ _ Fr).
    left. unfold set_var. eexists. split; [reflexivity|]. split; cbn [heap vars fails]; [|auto].
    apply RepL_in; [|exact E0]. destruct H as [F O]. split; [constructor; [cbn; auto|exact F]|exact O].
  - left. destruct (nth_error A x) as [[a|]|] eqn:Ex; try discriminate. injection E as <-.
    destruct (fresh_ok s A x H Ex) as [Fr E0]. rewrite (bind_Ok _ _ _ _ _ Fr).
    apply make_declare; [|exact H|exact E0]. intros _.
    pose proof (from_value_ok fl t v s (vars s) A (vars s) H eq_refl) as K.
    rewrite quiet_promote in K. exact K.
  - left. destruct (nth_error A x) as [[a|]|] eqn:Ex; try discriminate.
    destruct (nth_error A y) as [[[t v|t]|]|] eqn:Ey; try discriminate. injection E as <-.
    destruct (fresh_ok s A x H Ex) as [Fr E0]. rewrite (bind_Ok _ _ _ _ _ Fr).
    destruct (var_of _ _ _ _ _ H Ey) as [c [Ec R]].
    rewrite (bind_Ok _ _ _ _ _ (get_var_eq _ _ _ Ec)).
    apply make_declare; [|exact H|exact E0]. intros _. unfold type_in. rewrite Ey.
    apply clone_ok; auto. apply (nth_error_In _ _ Ec).
  - left. destruct (nth_error A x) as [[a0|]|] eqn:Ex; try discriminate.
    destruct (nth_error A y) as [[a|]|] eqn:Ey; try discriminate. injection E as <-.
    destruct (fresh_ok s A x H Ex) as [Fr E0]. rewrite (bind_Ok _ _ _ _ _ Fr).
    left. apply move_declare_ok; assumption.
  - left. destruct (nth_error A x) as [[a|]|] eqn:Ex; try discriminate.
    destruct (nth_error A y) as [[[t v|t]|]|] eqn:Ey; try discriminate. injection E as <-.
    destruct (var_of _ _ _ _ _ H Ey) as [c [Ec R]].
    rewrite (bind_Ok _ _ _ _ _ (get_var_eq _ _ _ Ec)).
    apply make_replace with (old := a); [|exact H|exact Ex]. intros _. unfold type_in. rewrite Ey.
    apply clone_ok; auto. apply (nth_error_In _ _ Ec).
  - left. destruct (nth_error A x) as [[a0|]|] eqn:Ex; try discriminate.
    destruct (nth_error A y) as [[a|]|] eqn:Ey; try discriminate. injection E as <-.
    left. apply assign_move_ok with (old := a0); assumption.
  - left. destruct (nth_error A x) as [[a|]|] eqn:Ex; try discriminate. injection E as <-.
    apply make_replace with (old := a); [|exact H|exact Ex]. intros _.
    pose proof (from_value_ok fl t v s (vars s) A (vars s) H eq_refl) as K.
    rewrite quiet_promote in K. exact K.
  - left. destruct (nth_error A x) as [[a|]|] eqn:Ex; try discriminate.
    destruct fl.
    + injection E as <-. eapply assign_val_any; eassumption.
    + assert (Q : (forall t', a = Moved t' -> t' = t -> local t = true) /\ A' = upd A x (Some (given Poly t v))).
      { destruct a as [t0 w|t0].
        - injection E as <-. split; [discriminate|reflexivity].
        - destruct (cty_eq_dec t0 t) as [->|Nt].
          + destruct (local t) eqn:L; [|discriminate]. injection E as <-. auto.
          + injection E as <-. split; [|reflexivity]. intros t' Q1 Q2. congruence. }
      destruct Q as [Q ->].
      pose proof (assign_val_poly s A x t v a H Ex Q) as W.
      destruct W as [W|[e [s' [W1 [W2 W3]]]]]; [left; exact W|]. right. exists e, s'.
      split; [exact W1|]. split; [exact W2|]. intros _. exact (W3 I).
  - left. destruct (nth_error A x) as [[a|]|] eqn:Ex; try discriminate.
    destruct (nth_error A y) as [[[t v|t]|]|] eqn:Ey; try discriminate.
    destruct fl.
    + injection E as <-.
      destruct (var_of _ _ _ _ _ H Ey) as [c [Ec R]]. cbn [assign_rel].
      rewrite (bind_Ok _ _ _ _ _ (get_var_eq _ _ _ Ec)).
      apply make_replace with (old := a); [|exact H|exact Ex]. intros _. unfold type_in. rewrite Ey.
      apply clone_ok; auto. apply (nth_error_In _ _ Ec).
    + destruct (Nat.eqb_spec x y) as [|N]; [discriminate|]. injection E as <-.
      destruct (assign_rel_poly s A x y a t v H Ex Ey N) as [W|[e [s' [W1 [W2 W3]]]]]; [left; exact W|].
      right. exists e, s'. split; [exact W1|]. split; [exact W2|]. discriminate.
  - left. destruct (nth_error A x) as [[a0|]|] eqn:Ex; try discriminate.
    destruct (nth_error A y) as [[a|]|] eqn:Ey; try discriminate. injection E as <-.
    left. apply swap_ok; assumption.
  - destruct (nth_error A x) as [[[t0 w|t0]|]|] eqn:Ex; try discriminate.
    destruct (cty_eq_dec t0 t) as [->|Nt]; injection E as <-.
    + left. pose proof (write_same s A x t w v H Ex) as W.
      destruct W as [W|[e [s' [W1 [W2 W3]]]]]; [left; exact W|]. right. exists e, s'.
      split; [exact W1|]. split; [exact W2|]. intros _. exact (W3 I).
    + right. exists x, t, v. split; [reflexivity|]. split; [reflexivity|].
      destruct (var_of _ _ _ _ _ H Ex) as [c [Ec R]].
      unfold write. rewrite (bind_Ok _ _ _ _ _ (get_var_eq _ _ _ Ec)).
      rewrite (bind_Ok _ _ _ _ _ (type_of_rep _ _ _ _ s R)).
      unfold cty_eqb. destruct (cty_eq_dec t0 t); [contradiction|]. reflexivity.
  - left. destruct (nth_error A x) as [[a|]|] eqn:Ex; try discriminate. injection E as <-.
    destruct (destroy_var s [] [] A x a H eq_refl Ex) as [c [h1 [G [D [Ec K]]]]]. cbn [app] in K.
    rewrite (bind_Ok _ _ _ _ _ G). rewrite (bind_Ok _ _ _ _ _ D).
    left. unfold set_var. eexists. split; [reflexivity|]. split; cbn [heap vars fails]; auto.
Qed.
