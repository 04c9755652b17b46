From Coq Require Import Permutation.
From Verif Require Import Prelude ClosedHash_Model.
Local Open Scope nat_scope.
Ltac Zify.zify_post_hook ::= idtac.

Lemma ref_eqb_spec x y : reflect (x = y) (ref_eqb x y).
Proof.
  destruct x as [| |i], y as [| |j]; cbn; try (constructor; congruence).
  destruct (Nat.eqb_spec i j); constructor; congruence.
Qed.
Lemma ref_eqb_refl x : ref_eqb x x = true.
Proof. destruct (ref_eqb_spec x x); congruence. Qed.
Lemma ref_eqb_neq x y : x <> y -> ref_eqb x y = false.
Proof. destruct (ref_eqb_spec x y); congruence. Qed.
Lemma set_ref_same {B} (f : ref -> B) x b : set_ref f x b x = b.
Proof. unfold set_ref. now rewrite ref_eqb_refl. Qed.
Lemma set_ref_other {B} (f : ref -> B) x b y : x <> y -> set_ref f x b y = f y.
Proof. intros H. unfold set_ref. now rewrite ref_eqb_neq. Qed.

(** ** Doubly linked lists *)
Section Lists.
Context {V : Type}.
Notation table := (@table V).
Implicit Types t : table.

Fixpoint path t (a : ref) (l : list ref) (b : ref) : Prop :=
  match l with
  | [] => next t a = b /\ prior t b = a
  | x :: l => next t a = x /\ prior t x = a /\ path t x l b
  end.

Lemma path_app t l1 : forall a x l2 b, path t a (l1 ++ x :: l2) b <-> path t a l1 x /\ path t x l2 b.
Proof.
  induction l1 as [|y l1 IH]; intros a x l2 b; cbn [app path].
  - tauto.
  - rewrite IH. tauto.
Qed.

Lemma path_frame t t' l : forall a b,
  (forall r, In r (a :: l) -> next t' r = next t r) -> (forall r, In r (l ++ [b]) -> prior t' r = prior t r) ->
  path t a l b -> path t' a l b.
Proof.
  induction l as [|x l IH]; intros a b Hn Hp; cbn [path app].
  - intros [H1 H2]. rewrite (Hn a), (Hp b) by (cbn; auto). auto.
  - intros (H1 & H2 & H3). rewrite (Hn a), (Hp x) by (cbn; auto). split; [exact H1|]. split; [exact H2|].
    apply IH; [intros r Hr; apply Hn; now right|intros r Hr; apply Hp; now right|exact H3].
Qed.

Definition Ring t (tail : ref) (l : list ref) : Prop := path t tail l tail /\ NoDup (tail :: l).

(** [t'] has the links of [t] except at nodes of [S] *)
Definition agree (S : list ref) t t' : Prop :=
  forall r, ~ In r S -> next t' r = next t r /\ prior t' r = prior t r.

Lemma agree_refl S t : agree S t t.
Proof. intros r _. auto. Qed.
Lemma agree_trans S1 S2 t t1 t2 : agree S1 t t1 -> agree S2 t1 t2 -> agree (S1 ++ S2) t t2.
Proof.
  intros H1 H2 r Hr. rewrite in_app_iff in Hr. destruct (H1 r) as [A B]; [tauto|]. destruct (H2 r) as [C D]; [tauto|].
  rewrite C, D. auto.
Qed.
Lemma ring_frame S t t' tail l : agree S t t' -> (forall r, In r (tail :: l) -> ~ In r S) -> Ring t tail l -> Ring t' tail l.
Proof.
  intros H Hd [Hp Hn]. split; [|exact Hn]. eapply path_frame; [| |exact Hp].
  - intros r Hr. apply H, Hd, Hr.
  - intros r Hr. apply in_app_iff in Hr. apply H, Hd. destruct Hr as [Hr|[<-|[]]]; [now right|now left].
Qed.

Lemma next_set_next t x y : next (set_next t x y) = set_ref (next t) x y. Proof. reflexivity. Qed.
Lemma prior_set_next t x y : prior (set_next t x y) = set_ref (prior t) y x. Proof. reflexivity. Qed.
Ltac sr := repeat (rewrite ?next_set_next, ?prior_set_next; first [rewrite set_ref_same | rewrite set_ref_other by congruence]).
Lemma agree_set_next t x y : agree [x; y] t (set_next t x y).
Proof. intros r Hr. cbn in Hr. rewrite next_set_next, prior_set_next, !set_ref_other by (intros ->; tauto). auto. Qed.

Lemma last_d {A} (l : list A) x d d' : last (x :: l) d = last (x :: l) d'.
Proof. revert x. induction l as [|y l IH]; intros x; [reflexivity|]. change (last (y :: l) d = last (y :: l) d'). apply IH. Qed.
Lemma last_cc {A} (l : list A) a x : last (a :: x :: l) a = last (x :: l) x.
Proof. change (last (x :: l) a = last (x :: l) x). apply last_d. Qed.

Lemma last_app_cons {A} (l : list A) x d : last (l ++ [x]) d = x.
Proof. induction l as [|y l IH]; [reflexivity|]. cbn [app last]. destruct (l ++ [x]) eqn:E; [destruct l; discriminate|exact IH]. Qed.

(** The neighbours of [x] in a ring. *)
Lemma path_prior t a l1 x l2 b : path t a (l1 ++ x :: l2) b -> prior t x = last (a :: l1) a.
Proof.
  rewrite path_app. intros [H _]. revert a H. induction l1 as [|y l1 IH]; intros a H; cbn [path] in H.
  - tauto.
  - destruct H as (_ & _ & H). rewrite (IH y H). symmetry. apply last_cc.
Qed.
Lemma path_next t a l1 x l2 b : path t a (l1 ++ x :: l2) b -> next t x = hd b l2.
Proof. rewrite path_app. intros [_ H]. destruct l2 as [|y l2]; cbn in H |- *; tauto. Qed.

Lemma in_last {A} (a : A) l d : In (last (a :: l) d) (a :: l).
Proof. revert a. induction l as [|y l IH]; intros a; [left; reflexivity|]. right. change (last (a :: y :: l) d) with (last (y :: l) d). apply IH. Qed.
Lemma in_hd {A} (b : A) l : In (hd b l) (b :: l).
Proof. destruct l; cbn; auto. Qed.

Lemma path_snoc_next t l : forall a b, path t a l b -> next t (last (a :: l) a) = b /\ prior t b = last (a :: l) a.
Proof.
  induction l as [|x l IH]; intros a b; cbn [path].
  - auto.
  - intros (_ & _ & H). rewrite last_cc. apply IH, H.
Qed.

(** Joining: if [a .. last] and [hd .. b] are two pieces with all links except the one between them. *)
Fixpoint opath t (a : ref) (l : list ref) : Prop :=
  match l with [] => True | x :: l => next t a = x /\ prior t x = a /\ opath t x l end.
Lemma path_opath t l : forall a b, path t a l b <-> opath t a l /\ next t (last (a :: l) a) = b /\ prior t b = last (a :: l) a.
Proof.
  induction l as [|x l IH]; intros a b; cbn [path opath].
  - cbn. tauto.
  - rewrite IH. pose proof (last_cc l a x) as E.
    rewrite E. tauto.
Qed.
Lemma opath_frame t t' l : forall a, NoDup (a :: l) ->
  (forall r, In r (a :: l) -> r <> last (a :: l) a -> next t' r = next t r) -> (forall r, In r l -> prior t' r = prior t r) ->
  opath t a l -> opath t' a l.
Proof.
  induction l as [|x l IH]; intros a Hnd Hn Hp; cbn [opath]; [auto|].
  inversion Hnd as [|? ? Ha Hnd']; subst.
  pose proof (last_cc l a x) as E.
  rewrite E in Hn.
  intros (H1 & H2 & H3). rewrite (Hn a), (Hp x); [|left; reflexivity|left; reflexivity|].
  - split; [exact H1|]. split; [exact H2|]. apply IH; auto.
    + intros r Hr Hne. apply Hn; [now right|exact Hne].
    + intros r Hr. apply Hp. now right.
  - intros Heq. apply Ha. rewrite Heq. apply in_last.
Qed.

Lemma nodup_app {A} (l1 l2 : list A) : NoDup (l1 ++ l2) <-> NoDup l1 /\ NoDup l2 /\ (forall r, In r l1 -> In r l2 -> False).
Proof.
  induction l1 as [|x l1 IH]; cbn [app].
  - split; [intros H; split; [constructor|split; [exact H|intros r []]]|tauto].
  - split.
    + intros H. inversion H as [|? ? Hx H']; subst. apply IH in H' as (H1 & H2 & H3). rewrite in_app_iff in Hx.
      split; [constructor; tauto|]. split; [exact H2|]. intros r [<-|Hr]; [tauto|apply H3, Hr].
    + intros (H1 & H2 & H3). inversion H1 as [|? ? Hx H']; subst. constructor.
      * rewrite in_app_iff. intros [H|H]; [tauto|]. apply (H3 x); [now left|exact H].
      * apply IH. split; [exact H'|]. split; [exact H2|]. intros r Hr. apply H3. now right.
Qed.
Lemma NoDup_mid {A} (l1 l2 : list A) a x : NoDup (a :: l1 ++ x :: l2) ->
  NoDup (a :: l1) /\ NoDup (x :: l2) /\ (forall r, In r (a :: l1) -> In r (x :: l2) -> False) /\ NoDup (a :: l1 ++ l2).
Proof.
  intros H. change (a :: l1 ++ x :: l2) with ((a :: l1) ++ x :: l2) in H.
  pose proof (NoDup_remove_1 _ _ _ H) as H4. apply nodup_app in H as (H1 & H2 & H3). auto.
Qed.

Lemma ring_remove t tail l1 x l2 : Ring t tail (l1 ++ x :: l2) ->
  Ring (skip_node t x) tail (l1 ++ l2) /\ agree (tail :: l1 ++ l2) t (skip_node t x) /\
  In (prior t x) (tail :: l1 ++ l2) /\ In (next t x) (tail :: l1 ++ l2).
Proof.
  intros [Hp Hn]. destruct (NoDup_mid _ _ _ _ Hn) as (N1 & N2 & ND & N3).
  pose proof (path_prior _ _ _ _ _ _ Hp) as Epr. pose proof (path_next _ _ _ _ _ _ Hp) as Enx.
  set (p := prior t x) in *. set (s := next t x) in *.
  assert (Hpin : In p (tail :: l1)) by (rewrite Epr; apply in_last).
  assert (Hsin : In s (tail :: l2)) by (rewrite Enx; apply in_hd).
  assert (Hpin' : In p (tail :: l1 ++ l2)) by (destruct Hpin; [left; auto|right; apply in_app_iff; auto]).
  assert (Hsin' : In s (tail :: l1 ++ l2)) by (destruct Hsin; [left; auto|right; apply in_app_iff; auto]).
  split; [|split; [|split; assumption]].
  - split; [|exact N3]. apply path_app in Hp as [H1 H2]. rewrite path_opath in H1. destruct H1 as (O1 & _ & _).
    unfold skip_node. fold p s.
    assert (O1' : opath (set_next t p s) tail l1).
    { eapply opath_frame; [exact N1| | |exact O1].
      - intros r Hr Hne. rewrite next_set_next. apply set_ref_other. intros <-. apply Hne. exact Epr.
      - intros r Hr. rewrite prior_set_next. apply set_ref_other. intros <-. rewrite Enx in Hr.
        destruct l2 as [|y l2]; cbn [hd] in Hr.
        + inversion N1; subst. contradiction.
        + apply (ND y); [now right|right; now left]. }
    destruct l2 as [|y l2]; cbn [hd] in Enx.
    + rewrite app_nil_r. rewrite path_opath. split; [exact O1'|]. rewrite <- Epr, <- Enx.
      rewrite next_set_next, prior_set_next, !set_ref_same. auto.
    + rewrite path_app. cbn [path] in H2. destruct H2 as (_ & _ & H2). split.
      * rewrite path_opath. split; [exact O1'|]. rewrite <- Epr, <- Enx.
        rewrite next_set_next, prior_set_next, !set_ref_same. auto.
      * eapply path_frame; [| |exact H2].
        -- intros r Hr. rewrite next_set_next. apply set_ref_other. intros <-. apply (ND p); [exact Hpin|now right].
        -- intros r Hr. rewrite prior_set_next. apply set_ref_other. intros Heq.
           rewrite Enx in Heq. subst r. apply in_app_iff in Hr as [Hr|[Hr|[]]].
           ++ inversion N2 as [|? ? _ N2']; subst. inversion N2'; subst. contradiction.
           ++ subst y. inversion Hn; subst. apply H1. apply in_app_iff. right. right. now left.
  - intros r Hr. apply agree_set_next. cbn. intros [<-|[<-|[]]]; contradiction.
Qed.

Lemma ring_insert_after_tail t tail l x : Ring t tail l -> x <> tail -> ~ In x l ->
  Ring (splice_node_range t tail x x) tail (x :: l) /\ agree (tail :: x :: l) t (splice_node_range t tail x x).
Proof.
  intros [Hp Hn] Hxt Hxl. unfold splice_node_range.
  assert (Es : next t tail = hd tail l) by (destruct l; cbn in Hp |- *; tauto).
  set (s := next t tail) in *. split.
  - split.
    2: { inversion Hn; subst. constructor; [intros [?|?]; congruence|]. constructor; assumption. }
    cbn [path]. rewrite !next_set_next, !prior_set_next.
    split; [sr; reflexivity|].
    assert (Hsx : s <> x). { rewrite Es. destruct l; cbn; [congruence|]. intros ->. apply Hxl. now left. }
    split; [sr; reflexivity|].
    destruct l as [|y l]; cbn [hd path] in *.
    + rewrite next_set_next, prior_set_next, !set_ref_same, Es. rewrite set_ref_same. auto.
    + rewrite next_set_next, prior_set_next, set_ref_same, Es, set_ref_same. split; [reflexivity|]. split; [reflexivity|].
      destruct Hp as (_ & _ & Hp). eapply path_frame; [| |exact Hp].
      * intros r Hr. rewrite !next_set_next. rewrite !set_ref_other; [reflexivity| |].
        -- intros <-. inversion Hn; subst. contradiction.
        -- intros <-. contradiction.
      * intros r Hr. rewrite !prior_set_next. apply in_app_iff in Hr.
        rewrite !set_ref_other; [reflexivity| |].
        -- intros <-. destruct Hr as [Hr|[Hr|[]]]; [apply Hxl; now right|congruence].
        -- intros <-. inversion Hn as [|? ? Ht Hn']; subst. inversion Hn'; subst.
           destruct Hr as [Hr|[Hr|[]]]; [contradiction|]. apply Ht. left. auto.
  - intros r Hr. cbn in Hr. rewrite !next_set_next, !prior_set_next. rewrite !set_ref_other; auto; try (intros <-; tauto).
    all: intros <-; apply Hr; rewrite Es; destruct l; cbn; auto.
Qed.

Lemma NoDup_insert {A} (l1 l2 : list A) x : NoDup (l1 ++ l2) -> ~ In x (l1 ++ l2) -> NoDup (l1 ++ x :: l2).
Proof. intros H1 H2. apply (Permutation_NoDup (l := x :: l1 ++ l2)); [apply Permutation_middle|constructor; assumption]. Qed.

Lemma ring_insert_after t tail l1 p l2 x : Ring t tail (l1 ++ p :: l2) -> x <> tail -> ~ In x (l1 ++ p :: l2) ->
  Ring (splice_node_range t p x x) tail (l1 ++ p :: x :: l2) /\
  agree (tail :: x :: l1 ++ p :: l2) t (splice_node_range t p x x).
Proof.
  intros [Hp Hn] Hxt Hxl. unfold splice_node_range.
  pose proof (path_next _ _ _ _ _ _ Hp) as Es. set (s := next t p) in *.
  destruct (NoDup_mid _ _ _ _ Hn) as (N1 & N2 & ND & N3).
  assert (Hpt : p <> tail). { intros ->. apply (ND tail); now left. }
  assert (Hxp : x <> p). { intros ->. apply Hxl, in_app_iff. right. now left. }
  assert (Hsx : s <> x). { rewrite Es. destruct l2; cbn; [congruence|]. intros ->. apply Hxl, in_app_iff. right. right. now left. }
  assert (Hsp : s <> p). { rewrite Es. destruct l2 as [|y l2]; cbn; [congruence|]. intros ->. inversion N2; subst. apply H1. now left. }
  split.
  - split.
    2: { change (tail :: l1 ++ p :: x :: l2) with ((tail :: l1) ++ p :: x :: l2).
         replace ((tail :: l1) ++ p :: x :: l2) with (((tail :: l1) ++ [p]) ++ x :: l2) by (rewrite <- app_assoc; reflexivity).
         apply NoDup_insert; [rewrite <- app_assoc; exact Hn|]. rewrite <- app_assoc. intros [H|H]; [congruence|]. apply Hxl. exact H. }
    apply path_app in Hp as [H1 H2]. apply path_app. split.
    + eapply path_frame; [| |exact H1].
      * intros r Hr. rewrite !next_set_next, !set_ref_other; [reflexivity| |].
        -- intros <-. apply (ND p); [exact Hr|now left].
        -- intros <-. destruct Hr as [Hr|Hr]; [congruence|]. apply Hxl, in_app_iff. now left.
      * intros r Hr. apply in_app_iff in Hr. rewrite !prior_set_next, !set_ref_other; [reflexivity| |].
        -- intros <-. destruct Hr as [Hr|[Hr|[]]]; [apply Hxl, in_app_iff; now left|congruence].
        -- intros Heq. subst r. destruct Hr as [Hr|[Hr|[]]]; [|congruence]. rewrite Es in Hr. destruct l2 as [|y l2]; cbn in Hr.
           ++ inversion N1; contradiction.
           ++ apply (ND y); [now right|right; now left].
    + cbn [path]. rewrite !next_set_next, !prior_set_next.
      split; [sr; reflexivity|].
      split; [sr; reflexivity|].
      destruct l2 as [|y l2]; cbn [hd path] in *.
      * rewrite next_set_next, prior_set_next, set_ref_same, Es, set_ref_same. auto.
      * rewrite next_set_next, prior_set_next, set_ref_same, Es, set_ref_same. split; [reflexivity|]. split; [reflexivity|].
        destruct H2 as (_ & _ & H2). eapply path_frame; [| |exact H2].
        -- intros r Hr. rewrite !next_set_next, !set_ref_other; [reflexivity| |].
           ++ intros <-. inversion N2; contradiction.
           ++ intros <-. apply Hxl, in_app_iff. right. now right.
        -- intros r Hr. apply in_app_iff in Hr. rewrite !prior_set_next, !set_ref_other; [reflexivity| |].
           ++ intros <-. destruct Hr as [Hr|[Hr|[]]]; [apply Hxl, in_app_iff; right; right; now right|congruence].
           ++ intros Heq. assert (r = y) by congruence. subst r. inversion N2 as [|? ? _ N2']; subst. inversion N2'; subst.
              destruct Hr as [Hr|[Hr|[]]]; [contradiction|].
              apply (ND tail); [now left|right; left; congruence].
  - intros r Hr. cbn in Hr. rewrite !next_set_next, !prior_set_next. rewrite in_app_iff in Hr. cbn in Hr.
    rewrite !set_ref_other; auto; try (intros <-; tauto).
    all: intros <-; apply Hr; rewrite Es; destruct l2; cbn; tauto.
Qed.

(** set_next(prior(node), x); set_next(x, next(node)): [x] takes the place of [node]. *)
Lemma ring_replace t tail l1 n l2 x : Ring t tail (l1 ++ n :: l2) -> x <> tail -> ~ In x (l1 ++ n :: l2) ->
  let t1 := set_next t (prior t n) x in
  let t2 := set_next t1 x (next t1 n) in
  Ring t2 tail (l1 ++ x :: l2) /\ agree (tail :: x :: l1 ++ l2) t t2.
Proof.
  intros [Hp Hn] Hxt Hxl. cbv zeta.
  pose proof (path_next _ _ _ _ _ _ Hp) as Es. pose proof (path_prior _ _ _ _ _ _ Hp) as Ep.
  destruct (NoDup_mid _ _ _ _ Hn) as (N1 & N2 & ND & N3).
  set (p := prior t n) in *.
  assert (Hpin : In p (tail :: l1)) by (rewrite Ep; apply in_last).
  assert (Hpn : p <> n). { intros E. apply (ND p); [exact Hpin|left; congruence]. }
  assert (Hpx : p <> x). { intros E. rewrite E in Hpin. destruct Hpin as [?|?]; [congruence|]. apply Hxl, in_app_iff. now left. }
  assert (E2 : next (set_next t p x) n = next t n) by (rewrite next_set_next; now apply set_ref_other).
  rewrite E2. set (s := next t n) in *.
  assert (Hsx : s <> x). { rewrite Es. destruct l2; cbn; [congruence|]. intros ->. apply Hxl, in_app_iff. right. right. now left. }
  split.
  - split.
    2: { change (tail :: l1 ++ x :: l2) with ((tail :: l1) ++ x :: l2). apply NoDup_insert; [exact N3|].
         intros [H|H]; [congruence|]. apply Hxl. apply in_app_iff in H. apply in_app_iff. cbn. tauto. }
    apply path_app in Hp as [H1 H2]. rewrite path_opath in H1. destruct H1 as (O1 & _ & _).
    apply path_app. split.
    + rewrite path_opath. split.
      * eapply opath_frame; [exact N1| | |exact O1].
        -- intros r Hr Hne. rewrite !next_set_next, !set_ref_other; [reflexivity| |].
           ++ intros <-. apply Hne. exact Ep.
           ++ intros <-. destruct Hr as [?|?]; [congruence|]. apply Hxl, in_app_iff. now left.
        -- intros r Hr. rewrite !prior_set_next, !set_ref_other; [reflexivity| |].
           ++ intros <-. apply Hxl, in_app_iff. now left.
           ++ intros <-. rewrite Es in Hr. destruct l2 as [|y l2]; cbn in Hr.
              ** inversion N1; contradiction.
              ** apply (ND y); [now right|right; now left].
      * rewrite <- Ep. rewrite !next_set_next, !prior_set_next.
        rewrite (set_ref_other _ x s p) by congruence. rewrite (set_ref_other _ s x x) by congruence.
        rewrite !set_ref_same. auto.
    + assert (L2 : next (set_next (set_next t p x) x s) x = s /\ prior (set_next (set_next t p x) x s) s = x).
      { rewrite !next_set_next, !prior_set_next, !set_ref_same. auto. }
      destruct l2 as [|y l2]; cbn [hd path] in *.
      * rewrite Es in *. exact L2.
      * rewrite Es in *. destruct L2 as [L2 L3]. split; [exact L2|]. split; [exact L3|].
        destruct H2 as (_ & _ & H2). eapply path_frame; [| |exact H2].
        -- intros r Hr. rewrite !next_set_next, !set_ref_other; [reflexivity| |].
           ++ intros <-. apply (ND p); [exact Hpin|now right].
           ++ intros <-. apply Hxl, in_app_iff. right. now right.
        -- intros r Hr. apply in_app_iff in Hr. rewrite !prior_set_next, !set_ref_other; [reflexivity| |].
           ++ intros <-. destruct Hr as [Hr|[Hr|[]]]; [apply Hxl, in_app_iff; right; right; now right|congruence].
           ++ intros Heq. subst r. inversion N2 as [|? ? _ N2']; subst. inversion N2'; subst.
              destruct Hr as [Hr|[Hr|[]]]; [contradiction|].
              apply (ND tail); [now left|right; left; congruence].
  - intros r Hr. rewrite !next_set_next, !prior_set_next.
    assert (Hp' : In p (tail :: x :: l1 ++ l2)) by (destruct Hpin; [left; auto|right; right; apply in_app_iff; auto]).
    assert (Hs' : In s (tail :: x :: l1 ++ l2)) by (rewrite Es; destruct l2; cbn [hd]; [now left|right; right; apply in_app_iff; right; now left]).
    assert (Hx' : In x (tail :: x :: l1 ++ l2)) by (right; now left).
    rewrite !set_ref_other; auto; intros <-; contradiction.
Qed.

(** fresh free list *)
Lemma link_free_spec n : forall t p first, 
  (exists i, p = Slot i /\ i < first) ->
  let t' := link_free t p first n in
  path t' p (map Slot (seq first n)) FreeTail /\
  (forall r, r <> p -> (forall i, r = Slot i -> i < first \/ first + n <= i) -> next t' r = next t r) /\
  (forall r, r <> FreeTail -> (forall i, r = Slot i -> i < first \/ first + n <= i) -> prior t' r = prior t r) /\
  capacity t' = capacity t /\ size t' = size t /\ st t' = st t /\ val t' = val t.
Proof.
  induction n as [|n IH]; intros t p first Hp; cbn [link_free seq map path].
  - rewrite next_set_next, prior_set_next, !set_ref_same. repeat split; auto.
    + intros r H1 H2. apply set_ref_other. congruence.
    + intros r H1 H2. apply set_ref_other. congruence.
  - destruct (IH (set_next t p (Slot first)) (Slot first) (S first)) as (I1 & I2 & I3 & I4 & I5 & I6 & I7).
    { exists first. split; [reflexivity|lia]. }
    destruct Hp as (j & -> & Hj).
    split; [|split; [|split; [|auto]]].
    + split; [|split; [|exact I1]].
      * rewrite I2; [now rewrite next_set_next, set_ref_same|intros H; injection H; lia|intros i H; injection H; lia].
      * rewrite I3; [now rewrite prior_set_next, set_ref_same|discriminate|intros i H; injection H; lia].
    + intros r H1 H2. rewrite I2.
      * rewrite next_set_next. apply set_ref_other. congruence.
      * intros ->. destruct (H2 first eq_refl); lia.
      * intros i ->. destruct (H2 i eq_refl); lia.
    + intros r H1 H2. rewrite I3.
      * rewrite prior_set_next. apply set_ref_other. intros <-. destruct (H2 first eq_refl); lia.
      * exact H1.
      * intros i ->. destruct (H2 i eq_refl); lia.
Qed.
End Lists.
