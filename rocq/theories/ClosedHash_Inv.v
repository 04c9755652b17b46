From Coq Require Import Permutation.
From Verif Require Import Prelude ClosedHash_Model ClosedHash_Proofs.
Local Open Scope nat_scope.
Ltac Zify.zify_post_hook ::= idtac.

Lemma list_find_app {A} (P : A -> bool) l1 l2 :
  List.find P (l1 ++ l2) = match List.find P l1 with Some x => Some x | None => List.find P l2 end.
Proof. induction l1 as [|x l1 IH]; cbn; [reflexivity|]. destruct (P x); [reflexivity|apply IH]. Qed.
Lemma list_find_none {A} (P : A -> bool) l : (forall x, In x l -> P x = false) -> List.find P l = None.
Proof. induction l as [|x l IH]; intros H; cbn; [reflexivity|]. rewrite (H x) by now left. apply IH. intros y Hy. apply H. now right. Qed.
Lemma list_find_split {A} (P : A -> bool) l x : List.find P l = Some x ->
  exists l1 l2, l = l1 ++ x :: l2 /\ P x = true /\ forall y, In y l1 -> P y = false.
Proof.
  induction l as [|y l IH]; cbn; [discriminate|]. destruct (P y) eqn:E.
  - intros [= ->]. exists [], l. repeat split; auto. intros z [].
  - intros H. destruct (IH H) as (l1 & l2 & -> & H1 & H2). exists (y :: l1), l2. repeat split; auto.
    intros z [<-|Hz]; auto.
Qed.
Lemma map_some_split {A B} (f : A -> option B) l1 r l2 vs : map f (l1 ++ r :: l2) = map Some vs ->
  exists v1 v v2, vs = v1 ++ v :: v2 /\ map f l1 = map Some v1 /\ f r = Some v /\ map f l2 = map Some v2.
Proof.
  intros H. rewrite map_app in H. cbn in H. symmetry in H. apply map_eq_app in H as (v1 & v2 & -> & H1 & H2).
  apply map_eq_cons in H2 as (v & v2' & -> & H2 & H3). exists v1, v, v2'. auto.
Qed.
Lemma map_some_length {A B} (f : A -> option B) l vs : map f l = map Some vs -> length l = length vs.
Proof. intros H. apply (f_equal (@length _)) in H. now rewrite !map_length in H. Qed.

Section Inv.
Context {V K : Type} (key : V -> K) (hash : K -> nat) (key_eq : K -> K -> bool).
Hypothesis eq_hash : forall a b, key_eq a b = true -> hash a = hash b.
Notation table := (@table V).
Implicit Types t : table.
Notation bucket := (bucket (V:=V) hash).

Definition group : Type := ref * list ref.
Definition flat (gs : list group) : list ref := flat_map (fun g => fst g :: snd g) gs.
Lemma flat_app g1 g2 : flat (g1 ++ g2) = flat g1 ++ flat g2.
Proof. apply flat_map_app. Qed.
Lemma flat_cons b ms gs : flat ((b, ms) :: gs) = (b :: ms) ++ flat gs.
Proof. reflexivity. Qed.

Definition Good1 t (g : group) : Prop :=
  st t (fst g) = state_home /\ Forall (fun m => st t m = state_misplaced) (snd g) /\
  Forall (fun r => exists v, val t r = Some v /\ bucket t (key v) = fst g) (fst g :: snd g).
Definition Good t (gs : list group) : Prop := Forall (Good1 t) gs.

Record Inv t (gs : list group) (free : list ref) : Prop := {
  inv_cap : 0 < capacity t;
  inv_used : Ring t UsedTail (flat gs);
  inv_free : Ring t FreeTail free;
  inv_perm : Permutation (flat gs ++ free) (map Slot (seq 0 (capacity t)));
  inv_size : size t = length (flat gs);
  inv_freest : forall r, In r free -> st t r = state_free /\ val t r = None;
  inv_tail : st t UsedTail = state_free;
  inv_good : Good t gs }.

Lemma good1_frame t t' g : capacity t' = capacity t ->
  (forall r, In r (fst g :: snd g) -> st t' r = st t r /\ val t' r = val t r) -> Good1 t g -> Good1 t' g.
Proof.
  intros Hc H (H1 & H2 & H3). split; [|split].
  - destruct (H (fst g)) as [-> _]; [now left|exact H1].
  - rewrite Forall_forall in *. intros m Hm. destruct (H m) as [-> _]; [now right|auto].
  - rewrite Forall_forall in *. intros r Hr. destruct (H r Hr) as [_ E]. destruct (H3 r Hr) as (v & Hv & Hb).
    exists v. rewrite E. split; [exact Hv|]. unfold ClosedHash_Model.bucket in *. now rewrite Hc.
Qed.
Lemma good_frame t t' gs : capacity t' = capacity t ->
  (forall r, In r (flat gs) -> st t' r = st t r /\ val t' r = val t r) -> Good t gs -> Good t' gs.
Proof.
  intros Hc H Hg. unfold Good in *. rewrite Forall_forall in *. intros g Hin.
  eapply good1_frame; [exact Hc| |apply Hg, Hin]. intros r Hr. apply H. apply in_flat_map. exists g. auto.
Qed.
Lemma good_app t g1 g2 : Good t (g1 ++ g2) <-> Good t g1 /\ Good t g2.
Proof. apply Forall_app. Qed.
Lemma good_cons t g gs : Good t (g :: gs) <-> Good1 t g /\ Good t gs.
Proof. unfold Good. split; [intros H; inversion H; auto|intros [? ?]; constructor; auto]. Qed.

Lemma inv_slot t gs free r : Inv t gs free -> In r (flat gs ++ free) -> exists i, r = Slot i /\ i < capacity t.
Proof.
  intros I H. apply (Permutation_in _ (inv_perm _ _ _ I)) in H. apply in_map_iff in H as (i & <- & Hi).
  apply in_seq in Hi. exists i. split; [reflexivity|lia].
Qed.
Lemma inv_in t gs free i : Inv t gs free -> i < capacity t -> In (Slot i) (flat gs) \/ In (Slot i) free.
Proof.
  intros I H. apply in_app_iff. apply (Permutation_in _ (Permutation_sym (inv_perm _ _ _ I))).
  apply in_map. apply in_seq. lia.
Qed.
Lemma inv_nodup t gs free : Inv t gs free -> NoDup (flat gs ++ free).
Proof.
  intros I. eapply Permutation_NoDup; [apply Permutation_sym, (inv_perm _ _ _ I)|].
  apply FinFun.Injective_map_NoDup; [intros a b [= ->]; reflexivity|apply seq_NoDup].
Qed.
Lemma inv_disj t gs free r : Inv t gs free -> In r (flat gs) -> In r free -> False.
Proof. intros I. apply inv_nodup in I. apply nodup_app in I as (_ & _ & H). apply H. Qed.
Lemma inv_notail t gs free r : Inv t gs free -> In r (flat gs ++ free) -> r <> UsedTail /\ r <> FreeTail.
Proof. intros I H. destruct (inv_slot _ _ _ _ I H) as (i & -> & _). split; discriminate. Qed.
Lemma inv_count t gs free : Inv t gs free -> length (flat gs) + length free = capacity t.
Proof.
  intros I. pose proof (Permutation_length (inv_perm _ _ _ I)) as H.
  rewrite app_length, map_length, seq_length in H. exact H.
Qed.

Lemma good_in t gs r : Good t gs -> In r (flat gs) -> exists g1 b ms g2 v,
  gs = g1 ++ (b, ms) :: g2 /\ In r (b :: ms) /\ val t r = Some v /\ bucket t (key v) = b /\ Good1 t (b, ms).
Proof.
  intros G H. apply in_flat_map in H as ([b ms] & Hg & Hr). unfold Good in G. rewrite Forall_forall in G.
  specialize (G _ Hg). apply in_split in Hg as (g1 & g2 & ->). pose proof G as (_ & _ & G3).
  rewrite Forall_forall in G3. destruct (G3 r Hr) as (v & Hv & Hb). exists g1, b, ms, g2, v. cbn in *. auto 6.
Qed.
Lemma good_home t gs r : Good t gs -> In r (flat gs) -> st t r = state_home ->
  exists g1 ms g2, gs = g1 ++ (r, ms) :: g2 /\ Good1 t (r, ms).
Proof.
  intros G H Hs. destruct (good_in _ _ _ G H) as (g1 & b & ms & g2 & v & -> & Hr & _ & _ & G1).
  destruct Hr as [->|Hr]; [exists g1, ms, g2; auto|].
  destruct G1 as (_ & G1 & _). rewrite Forall_forall in G1. specialize (G1 r Hr). congruence.
Qed.
Lemma good_mis t gs r : Good t gs -> In r (flat gs) -> st t r = state_misplaced ->
  exists g1 b m1 m2 g2, gs = g1 ++ (b, m1 ++ r :: m2) :: g2 /\ Good1 t (b, m1 ++ r :: m2).
Proof.
  intros G H Hs. destruct (good_in _ _ _ G H) as (g1 & b & ms & g2 & v & -> & Hr & _ & _ & G1).
  destruct Hr as [->|Hr]. { destruct G1 as [G1 _]. cbn in G1. congruence. }
  apply in_split in Hr as (m1 & m2 & ->). exists g1, b, m1, m2, g2. auto.
Qed.
Lemma good_used_st t gs r : Good t gs -> In r (flat gs) -> st t r = state_home \/ st t r = state_misplaced.
Proof.
  intros G H. destruct (good_in _ _ _ G H) as (g1 & b & ms & g2 & v & -> & Hr & _ & _ & G1 & G2 & _).
  destruct Hr as [->|Hr]; [left; exact G1|right]. rewrite Forall_forall in G2. auto.
Qed.
(** only the group of bucket [b] holds keys of bucket [b] *)
Lemma good_values t gs : Good t gs -> exists vs, map (val t) (flat gs) = map Some vs.
Proof.
  intros G. assert (H : forall r, In r (flat gs) -> exists v, val t r = Some v).
  { intros r Hr. destruct (good_in _ _ _ G Hr) as (g1 & b & ms & g2 & v & _ & _ & Hv & _). eauto. }
  revert H. generalize (flat gs). intros l. induction l as [|r l IH]; intros H; [exists []; reflexivity|].
  destruct IH as [vs E]; [intros r' Hr'; apply H; now right|]. destruct (H r) as [v Hv]; [now left|].
  exists (v :: vs). cbn. now rewrite E, Hv.
Qed.

(** ** find *)
Definition matches t (k : K) (r : ref) : bool := match val t r with Some v => key_eq k (key v) | None => false end.

Lemma find_chain_spec t k ms : forall x fuel rest,
  path t x (ms ++ rest) UsedTail -> (forall r, In r (x :: ms) -> exists v, val t r = Some v) ->
  (forall r, In r ms -> st t r = state_misplaced /\ r <> UsedTail) ->
  match rest with [] => True | r :: _ => st t r = state_home end -> length ms < fuel ->
  find_chain key key_eq fuel t x UsedTail k =
  Some (match List.find (matches t k) (x :: ms) with Some r => r | None => UsedTail end).
Proof.
  induction ms as [|m ms IH]; intros x fuel rest Hp Hv Hm Hr Hf; (destruct fuel as [|fuel]; [cbn in Hf; lia|]).
  - cbn [find_chain List.find]. destruct (Hv x) as [v Ev]; [now left|]. unfold matches. rewrite Ev.
    destruct (key_eq k (key v)); [reflexivity|].
    destruct rest as [|r rest]; cbn [app path] in Hp.
    + destruct Hp as [-> _]. now rewrite ref_eqb_refl.
    + destruct Hp as [-> _]. unfold is_home. rewrite Hr. now rewrite orb_true_r.
  - cbn [find_chain]. destruct (Hv x) as [v Ev]; [now left|]. rewrite Ev. cbn [List.find].
    unfold matches at 1. rewrite Ev. destruct (key_eq k (key v)); [reflexivity|].
    cbn [app path] in Hp. destruct Hp as (-> & _ & Hp). destruct (Hm m) as [Es Ht]; [now left|].
    rewrite ref_eqb_neq by exact Ht. unfold is_home. rewrite Es. cbn [orb].
    apply (IH m fuel rest).
    + exact Hp.
    + intros r Hin. apply Hv. now right.
    + intros r Hin. apply Hm. now right.
    + exact Hr.
    + cbn in Hf. lia.
Qed.

Lemma group_path t gs free g1 b ms g2 : Inv t gs free -> gs = g1 ++ (b, ms) :: g2 -> path t b (ms ++ flat g2) UsedTail.
Proof.
  intros I ->. destruct (inv_used _ _ _ I) as [H _]. rewrite flat_app, flat_cons in H. cbn [app] in H.
  apply path_app in H as [_ H]. exact H.
Qed.
Lemma rest_home t g2 : Good t g2 -> match flat g2 with [] => True | r :: _ => st t r = state_home end.
Proof. intros G. destruct g2 as [|[b ms] g2]; cbn; [exact I|]. apply good_cons in G as [(G & _) _]. exact G. Qed.

Lemma find_group t gs free g1 b ms g2 k : Inv t gs free -> gs = g1 ++ (b, ms) :: g2 -> bucket t k = b ->
  find_chain key key_eq (S (capacity t)) t b UsedTail k =
    Some (match List.find (matches t k) (flat gs) with Some r => r | None => UsedTail end).
Proof.
  intros I E Hb. pose proof (inv_good _ _ _ I) as G. pose proof (group_path _ _ _ _ _ _ _ I E) as Hp.
  pose proof (inv_nodup _ _ _ I) as Hnd. pose proof (inv_count _ _ _ I) as Hc.
  assert (Hin : forall r, In r (b :: ms) -> In r (flat gs)).
  { intros r Hr. subst gs. rewrite flat_app, flat_cons, !in_app_iff. auto. }
  subst gs. apply good_app in G as [Ga Gb]. apply good_cons in Gb as [G1 Gb].
  rewrite (find_chain_spec t k ms b _ (flat g2)).
  - f_equal. rewrite flat_app, flat_cons, !list_find_app.
    assert (Hout : forall gs', Good t gs' -> (forall r, In r (flat gs') -> ~ In r [b]) -> List.find (matches t k) (flat gs') = None).
    { intros gs' G' Hd. apply list_find_none. intros r Hr. destruct (good_in _ _ _ G' Hr) as (h1 & b' & ms' & h2 & v & E & Hr' & Hv & Hb' & _).
      unfold matches. rewrite Hv. destruct (key_eq k (key v)) eqn:Ek; [|reflexivity]. exfalso.
      apply eq_hash in Ek. unfold ClosedHash_Model.bucket in *. rewrite Ek in Hb. rewrite Hb in Hb'. subst b'.
      apply (Hd b); [|now left]. rewrite E, flat_app, flat_cons. rewrite !in_app_iff. right. left. now left. }
    rewrite flat_app, flat_cons in Hnd. rewrite <- app_assoc in Hnd. apply nodup_app in Hnd as (_ & Hnd2 & Hd).
    rewrite (Hout g1 Ga).
    2: { intros r Hr [<-|[]]. apply (Hd b Hr). now left. }
    rewrite (Hout g2 Gb).
    2: { intros r Hr [<-|[]]. cbn in Hnd2. inversion Hnd2 as [|? ? Hx _]; subst. apply Hx. rewrite !in_app_iff. auto. }
    destruct (List.find (matches t k) (b :: ms)); reflexivity.
  - exact Hp.
  - destruct G1 as (_ & _ & G1). cbn [fst snd] in G1. rewrite Forall_forall in G1. intros r Hr.
    destruct (G1 r Hr) as (v & Hv & _). eauto.
  - destruct G1 as (_ & G1 & _). cbn [fst snd] in G1. rewrite Forall_forall in G1. intros r Hr. split; [auto|].
    apply (inv_notail _ _ _ r I). apply in_app_iff. left. apply Hin. now right.
  - apply rest_home, Gb.
  - rewrite flat_app, flat_cons, !app_length in Hc. cbn in Hc. lia.
Qed.

Lemma bucket_slot t gs free k : Inv t gs free -> exists i, bucket t k = Slot i /\ i < capacity t.
Proof.
  intros I. exists (hash k mod capacity t). split; [reflexivity|]. apply Nat.mod_upper_bound. apply Nat.neq_0_lt_0, (inv_cap _ _ _ I).
Qed.
Lemma bucket_in t gs free k : Inv t gs free -> In (bucket t k) (flat gs) \/ In (bucket t k) free.
Proof. intros I. destruct (bucket_slot _ _ _ k I) as (i & -> & Hi). apply (inv_in _ _ _ _ I Hi). Qed.

Lemma no_home_none t gs free k : Inv t gs free -> st t (bucket t k) <> state_home -> List.find (matches t k) (flat gs) = None.
Proof.
  intros I Hs. apply list_find_none. intros r Hr.
  destruct (good_in _ _ _ (inv_good _ _ _ I) Hr) as (h1 & b' & ms' & h2 & v & E & Hr' & Hv & Hb' & G1).
  unfold matches. rewrite Hv. destruct (key_eq k (key v)) eqn:Ek; [|reflexivity]. exfalso. apply Hs.
  apply eq_hash in Ek. unfold ClosedHash_Model.bucket in *. rewrite Ek, Hb'. apply G1.
Qed.

Lemma home_group t gs free k : Inv t gs free -> st t (bucket t k) = state_home ->
  exists g1 ms g2, gs = g1 ++ (bucket t k, ms) :: g2 /\ Good1 t (bucket t k, ms).
Proof.
  intros I Hs. destruct (bucket_in _ _ _ k I) as [Hb|Hb]; [apply good_home; [apply (inv_good _ _ _ I)|exact Hb|exact Hs]|].
  apply (inv_freest _ _ _ I) in Hb as [Hb _]. congruence.
Qed.

Lemma find_node_spec t gs free k : Inv t gs free ->
  find_node key hash key_eq t k = Some (match List.find (matches t k) (flat gs) with Some r => r | None => UsedTail end).
Proof.
  intros I. unfold find_node, is_home. destruct (st t (bucket t k)) eqn:Es.
  - rewrite (no_home_none _ _ _ k I) by congruence. reflexivity.
  - destruct (home_group _ _ _ k I Es) as (g1 & ms & g2 & E & _).
    apply (find_group _ _ _ _ _ _ _ _ I E). reflexivity.
  - rewrite (no_home_none _ _ _ k I) by congruence. reflexivity.
Qed.

(** ** insert *)
Lemma ring_same t t' tail l : next t' = next t -> prior t' = prior t -> Ring t tail l -> Ring t' tail l.
Proof. intros H1 H2. apply (ring_frame []); [|intros r _ []]. intros r _. rewrite H1, H2. auto. Qed.

Lemma insert_home_spec t gs f1 node f2 x : Inv t gs (f1 ++ node :: f2) -> bucket t (key x) = node ->
  exists t', insert_home t node x = Some (t', (node, true)) /\ Inv t' ((node, []) :: gs) (f1 ++ f2) /\
    val t' = set_ref (val t) node (Some x) /\ capacity t' = capacity t.
Proof.
  intros I Hb.
  assert (Hnf : In node (f1 ++ node :: f2)) by (apply in_app_iff; right; now left).
  destruct (inv_freest _ _ _ I node Hnf) as [Hst Hval].
  destruct (inv_notail _ _ _ node I) as [Hnu Hnft]; [apply in_app_iff; now right|].
  pose proof (inv_nodup _ _ _ I) as Hnd. apply nodup_app in Hnd as (Nu & Nf & Nd).
  assert (Hnu' : ~ In node (flat gs)) by (intros H; apply (Nd node H Hnf)).
  unfold insert_home, insert_raw, construct. rewrite Hval.
  set (t1 := set_state (set_val t node (Some x)) node state_home).
  set (t2 := skip_node t1 node). set (t3 := splice_node_range t2 UsedTail node node).
  assert (R1 : Ring t1 FreeTail (f1 ++ node :: f2)) by (apply (ring_same t); [reflexivity|reflexivity|apply (inv_free _ _ _ I)]).
  assert (U1 : Ring t1 UsedTail (flat gs)) by (apply (ring_same t); [reflexivity|reflexivity|apply (inv_used _ _ _ I)]).
  destruct (ring_remove _ _ _ _ _ R1) as (R2 & A2 & _). fold t2 in R2, A2.
  assert (U2 : Ring t2 UsedTail (flat gs)).
  { eapply ring_frame; [exact A2| |exact U1]. intros r Hr Hc. destruct Hr as [<-|Hr].
    - destruct Hc as [Hc|Hc]; [discriminate|]. destruct (inv_notail _ _ _ UsedTail I) as [H _]; [|congruence].
      rewrite !in_app_iff in *. cbn. tauto.
    - destruct Hc as [<-|Hc].
      + destruct (inv_notail _ _ _ FreeTail I) as [_ H]; [apply in_app_iff; now left|congruence].
      + apply (Nd r Hr). rewrite in_app_iff in *. cbn. tauto. }
  destruct (ring_insert_after_tail _ _ _ node U2 Hnu Hnu') as [U3 A3]. fold t3 in U3, A3.
  assert (R3 : Ring t3 FreeTail (f1 ++ f2)).
  { eapply ring_frame; [exact A3| |exact R2]. intros r Hr Hc. destruct Hr as [<-|Hr].
    - destruct Hc as [Hc|[Hc|Hc]]; [discriminate|congruence|].
      destruct (inv_notail _ _ _ FreeTail I) as [_ H]; [apply in_app_iff; now left|congruence].
    - destruct Hc as [<-|[<-|Hc]].
      + destruct (inv_notail _ _ _ UsedTail I) as [H _]; [|congruence]. rewrite !in_app_iff in *. cbn. tauto.
      + apply NoDup_remove_2 in Nf. contradiction.
      + apply (Nd r Hc). rewrite in_app_iff in *. cbn. tauto. }
  eexists. split; [reflexivity|]. split; [|split; reflexivity].
  assert (Hne : forall r, In r (flat gs) \/ In r (f1 ++ f2) -> node <> r).
  { intros r [Hr|Hr] <-; [contradiction|]. apply NoDup_remove_2 in Nf. contradiction. }
  constructor.
  - apply (inv_cap _ _ _ I).
  - rewrite flat_cons. apply (ring_same t3); [reflexivity|reflexivity|exact U3].
  - apply (ring_same t3); [reflexivity|reflexivity|exact R3].
  - rewrite flat_cons. cbn [app]. change (capacity _) with (capacity t). rewrite <- (inv_perm _ _ _ I).
    rewrite !app_assoc. rewrite <- (Permutation_middle (flat gs ++ f1) f2 node). now rewrite <- app_assoc.
  - rewrite flat_cons. cbn [app length]. change (size _) with (size t + 1). rewrite (inv_size _ _ _ I). lia.
  - intros r Hr. change (set_ref (st t) node state_home r = state_free /\ set_ref (val t) node (Some x) r = None).
    rewrite !set_ref_other by (apply Hne; now right). apply (inv_freest _ _ _ I). rewrite in_app_iff in *. cbn. tauto.
  - change (set_ref (st t) node state_home UsedTail = state_free). rewrite set_ref_other by exact Hnu. apply (inv_tail _ _ _ I).
  - apply good_cons. split.
    + split; [|split; [constructor|]].
      * change (set_ref (st t) node state_home node = state_home). apply set_ref_same.
      * constructor; [|constructor]. exists x. split; [|exact Hb]. change (set_ref (val t) node (Some x) node = Some x). apply set_ref_same.
    + eapply (good_frame t); [reflexivity| |apply (inv_good _ _ _ I)].
      intros r Hr. change (set_ref (st t) node state_home r = st t r /\ set_ref (val t) node (Some x) r = val t r).
      rewrite !set_ref_other by (apply Hne; now left). auto.
Qed.

Lemma free_head t gs f fs : Inv t gs (f :: fs) -> next t FreeTail = f.
Proof. intros I. destruct (inv_free _ _ _ I) as [H _]. cbn in H. tauto. Qed.

(** a chain node is taken from the head of the free list and linked after the home node *)
Lemma insert_chain_spec t g1 b ms g2 f fs x : Inv t (g1 ++ (b, ms) :: g2) (f :: fs) -> bucket t (key x) = b ->
  exists t1, insert_raw t f x state_misplaced = Some t1 /\
    let t' := set_size (splice_node_range t1 b f f) (size (splice_node_range t1 b f f) + 1) in
    Inv t' (g1 ++ (b, f :: ms) :: g2) fs /\ val t' = set_ref (val t) f (Some x) /\ capacity t' = capacity t.
Proof.
  intros I Hb. set (gs := g1 ++ (b, ms) :: g2) in *.
  destruct (inv_freest _ _ _ I f) as [Hst Hval]; [now left|].
  destruct (inv_notail _ _ _ f I) as [Hnu Hnft]; [apply in_app_iff; right; now left|].
  pose proof (inv_nodup _ _ _ I) as Hnd. apply nodup_app in Hnd as (Nu & Nf & Nd).
  assert (Hnf' : ~ In f (flat gs)) by (intros H; apply (Nd f H); now left).
  assert (Ef : flat gs = flat g1 ++ b :: (ms ++ flat g2)) by (unfold gs; now rewrite flat_app, flat_cons).
  unfold insert_raw, construct. rewrite Hval. eexists. split; [reflexivity|]. cbv zeta.
  set (t1 := set_state (set_val t f (Some x)) f state_misplaced).
  set (t2 := skip_node t1 f). set (t3 := splice_node_range t2 b f f).
  assert (R1 : Ring t1 FreeTail ([] ++ f :: fs)) by (apply (ring_same t); [reflexivity|reflexivity|apply (inv_free _ _ _ I)]).
  assert (U1 : Ring t1 UsedTail (flat gs)) by (apply (ring_same t); [reflexivity|reflexivity|apply (inv_used _ _ _ I)]).
  destruct (ring_remove _ _ _ _ _ R1) as (R2 & A2 & _). fold t2 in R2, A2. cbn [app] in R2, A2.
  assert (U2 : Ring t2 UsedTail (flat gs)).
  { eapply ring_frame; [exact A2| |exact U1]. intros r Hr Hc. destruct Hr as [<-|Hr].
    - destruct Hc as [Hc|Hc]; [discriminate|]. destruct (inv_notail _ _ _ UsedTail I) as [H _]; [|congruence].
      rewrite !in_app_iff in *. cbn. tauto.
    - destruct Hc as [<-|Hc].
      + destruct (inv_notail _ _ _ FreeTail I) as [_ H]; [apply in_app_iff; now left|congruence].
      + apply (Nd r Hr). now right. }
  rewrite Ef in U2, Hnf'.
  destruct (ring_insert_after _ _ _ _ _ f U2 Hnu Hnf') as [U3 A3]. fold t3 in U3, A3. rewrite <- Ef in A3, Hnf'.
  assert (R3 : Ring t3 FreeTail fs).
  { eapply ring_frame; [exact A3| |exact R2]. inversion Nf as [|? ? Hffs _]; subst. intros r Hr Hc. destruct Hr as [<-|Hr].
    - destruct Hc as [Hc|[Hc|Hc]]; [discriminate|congruence|].
      destruct (inv_notail _ _ _ FreeTail I) as [_ H]; [apply in_app_iff; now left|congruence].
    - destruct Hc as [<-|[<-|Hc]].
      + destruct (inv_notail _ _ _ UsedTail I) as [H _]; [|congruence]. rewrite !in_app_iff in *. cbn. tauto.
      + contradiction.
      + apply (Nd r Hc). now right. }
  split; [|split; reflexivity].
  assert (Ef' : flat (g1 ++ (b, f :: ms) :: g2) = flat g1 ++ b :: f :: (ms ++ flat g2)) by (now rewrite flat_app, flat_cons).
  assert (Hne : forall r, In r (flat gs) \/ In r fs -> f <> r).
  { intros r [Hr|Hr] <-; [contradiction|]. inversion Nf; contradiction. }
  constructor.
  - apply (inv_cap _ _ _ I).
  - rewrite Ef'. apply (ring_same t3); [reflexivity|reflexivity|exact U3].
  - apply (ring_same t3); [reflexivity|reflexivity|exact R3].
  - rewrite Ef'. change (capacity _) with (capacity t). rewrite <- (inv_perm _ _ _ I), Ef.
    rewrite <- (app_assoc (flat g1)), <- (app_assoc (flat g1)). apply Permutation_app_head. cbn [app]. constructor. apply Permutation_middle.
  - rewrite Ef'. change (size _) with (size t + 1). rewrite (inv_size _ _ _ I), Ef, !app_length. cbn [length]. lia.
  - intros r Hr. change (set_ref (st t) f state_misplaced r = state_free /\ set_ref (val t) f (Some x) r = None).
    rewrite !set_ref_other by (apply Hne; now right). apply (inv_freest _ _ _ I). now right.
  - change (set_ref (st t) f state_misplaced UsedTail = state_free). rewrite set_ref_other by exact Hnu. apply (inv_tail _ _ _ I).
  - pose proof (inv_good _ _ _ I) as G. apply good_app in G as [Ga Gb]. apply good_cons in Gb as [G1 Gb].
    assert (F : forall r, In r (flat gs) -> set_ref (st t) f state_misplaced r = st t r /\ set_ref (val t) f (Some x) r = val t r).
    { intros r Hr. rewrite !set_ref_other by (apply Hne; now left). auto. }
    apply good_app. split; [|apply good_cons; split].
    + eapply (good_frame t); [reflexivity| |exact Ga]. intros r Hr. apply F. rewrite Ef, in_app_iff. auto.
    + apply (good1_frame t (set_size t3 (size t3 + 1))) in G1; [|reflexivity|].
      * destruct G1 as (Ga1 & Ga2 & Ga3). cbn [fst snd] in *. split; [exact Ga1|]. split.
        -- constructor; [|exact Ga2]. change (set_ref (st t) f state_misplaced f = state_misplaced). apply set_ref_same.
        -- inversion Ga3; subst. constructor; [assumption|]. constructor; [|assumption].
           exists x. split; [|reflexivity]. change (set_ref (val t) f (Some x) f = Some x). apply set_ref_same.
      * intros r Hr. apply F. rewrite Ef. cbn [fst snd] in Hr. rewrite in_app_iff. cbn in *. rewrite in_app_iff. tauto.
    + eapply (good_frame t); [reflexivity| |exact Gb]. intros r Hr. apply F. rewrite Ef, in_app_iff. right. right. apply in_app_iff. now right.
Qed.

(** the element in a misplaced node moves to the head of the free list *)
Lemma relocate_spec t g1 b m1 n m2 g2 f fs v : Inv t (g1 ++ (b, m1 ++ n :: m2) :: g2) (f :: fs) -> val t n = Some v ->
  exists t1 t4, insert_raw t f v state_misplaced = Some t1 /\
    let t2 := set_next t1 (prior t1 n) f in
    let t3 := set_next t2 f (next t2 n) in
    erase_raw t3 n = Some t4 /\
    Inv t4 (g1 ++ (b, m1 ++ f :: m2) :: g2) (n :: fs) /\ capacity t4 = capacity t /\
    val t4 = set_ref (set_ref (val t) f (Some v)) n None.
Proof.
  intros I Hv. set (gs := g1 ++ (b, m1 ++ n :: m2) :: g2) in *.
  destruct (inv_freest _ _ _ I f) as [Hst Hval]; [now left|].
  destruct (inv_notail _ _ _ f I) as [Hnu Hnft]; [apply in_app_iff; right; now left|].
  pose proof (inv_nodup _ _ _ I) as Hnd. apply nodup_app in Hnd as (Nu & Nf & Nd).
  assert (Hnf' : ~ In f (flat gs)) by (intros H; apply (Nd f H); now left).
  assert (Ef : flat gs = (flat g1 ++ b :: m1) ++ n :: (m2 ++ flat g2)).
  { unfold gs. rewrite flat_app, flat_cons. rewrite <- !app_assoc. cbn. rewrite <- app_assoc. reflexivity. }
  assert (Hnin : In n (flat gs)) by (rewrite Ef, in_app_iff; right; now left).
  assert (Hfn : f <> n) by (intros <-; contradiction).
  destruct (inv_notail _ _ _ n I) as [Hnnu Hnnf]; [apply in_app_iff; now left|].
  unfold insert_raw, construct. rewrite Hval. exists (skip_node (set_state (set_val t f (Some v)) f state_misplaced) f).
  set (t0 := set_state (set_val t f (Some v)) f state_misplaced).
  set (t1 := skip_node t0 f).
  set (t2 := set_next t1 (prior t1 n) f). set (t3 := set_next t2 f (next t2 n)).
  assert (V3 : val t3 n = Some v). { change (set_ref (val t) f (Some v) n = Some v). rewrite set_ref_other by exact Hfn. exact Hv. }
  unfold erase_raw, destroy. fold t1. cbv zeta. fold t2. fold t3. rewrite V3.
  set (t4 := set_state (set_val t3 n None) n state_free).
  exists (splice_node_range t4 FreeTail n n).
  split; [reflexivity|]. split; [reflexivity|].
  assert (R0 : Ring t0 FreeTail ([] ++ f :: fs)) by (apply (ring_same t); [reflexivity|reflexivity|apply (inv_free _ _ _ I)]).
  assert (U0 : Ring t0 UsedTail (flat gs)) by (apply (ring_same t); [reflexivity|reflexivity|apply (inv_used _ _ _ I)]).
  destruct (ring_remove _ _ _ _ _ R0) as (R1 & A1 & _). fold t1 in R1, A1. cbn [app] in R1, A1.
  assert (U1 : Ring t1 UsedTail (flat gs)).
  { eapply ring_frame; [exact A1| |exact U0]. intros r Hr Hc. destruct Hr as [<-|Hr].
    - destruct Hc as [Hc|Hc]; [discriminate|]. destruct (inv_notail _ _ _ UsedTail I) as [H _]; [|congruence].
      rewrite !in_app_iff in *. cbn. tauto.
    - destruct Hc as [<-|Hc].
      + destruct (inv_notail _ _ _ FreeTail I) as [_ H]; [apply in_app_iff; now left|congruence].
      + apply (Nd r Hr). now right. }
  rewrite Ef in U1, Hnf', Nu.
  destruct (ring_replace _ _ _ _ _ f U1 Hnu Hnf') as [U3 A3]. fold t2 in U3, A3. fold t3 in U3, A3.
  rewrite <- Ef in Hnf'. apply NoDup_remove_2 in Nu.
  assert (Sub : forall r, In r ((flat g1 ++ b :: m1) ++ m2 ++ flat g2) -> In r (flat gs) /\ n <> r).
  { intros r Hr. split; [|intros <-; contradiction]. rewrite Ef. rewrite in_app_iff in *. cbn. tauto. }
  assert (R3 : Ring t3 FreeTail fs).
  { eapply ring_frame; [exact A3| |exact R1]. inversion Nf as [|? ? Hffs _]; subst. intros r Hr Hc. destruct Hr as [<-|Hr].
    - destruct Hc as [Hc|[Hc|Hc]]; [discriminate|congruence|]. apply Sub in Hc as [Hc _].
      destruct (inv_notail _ _ _ FreeTail I) as [_ H]; [apply in_app_iff; now left|congruence].
    - destruct Hc as [<-|[<-|Hc]].
      + destruct (inv_notail _ _ _ UsedTail I) as [H _]; [|congruence]. rewrite !in_app_iff in *. cbn. tauto.
      + contradiction.
      + apply Sub in Hc as [Hc _]. apply (Nd r Hc). now right. }
  assert (R4 : Ring t4 FreeTail fs) by (apply (ring_same t3); [reflexivity|reflexivity|exact R3]).
  assert (U4 : Ring t4 UsedTail ((flat g1 ++ b :: m1) ++ f :: m2 ++ flat g2)) by (apply (ring_same t3); [reflexivity|reflexivity|exact U3]).
  assert (Hnfs : ~ In n fs) by (intros H; apply (Nd n Hnin); now right).
  destruct (ring_insert_after_tail _ _ _ n R4 Hnnf Hnfs) as [R5 A5]. set (t5 := splice_node_range t4 FreeTail n n) in *.
  assert (U5 : Ring t5 UsedTail ((flat g1 ++ b :: m1) ++ f :: m2 ++ flat g2)).
  { eapply ring_frame; [exact A5| |exact U4]. inversion Nf as [|? ? Hffs _]; subst.
    intros r Hr Hc.
    assert (Hr' : r = UsedTail \/ r = f \/ In r ((flat g1 ++ b :: m1) ++ m2 ++ flat g2)).
    { destruct Hr as [<-|Hr]; [now left|]. rewrite in_app_iff in *. cbn in Hr. destruct Hr as [?|[?|?]]; auto. }
    destruct Hr' as [->|[->|Hr']].
    - destruct Hc as [Hc|[Hc|Hc]]; [discriminate|congruence|].
      destruct (inv_notail _ _ _ UsedTail I) as [H _]; [apply in_app_iff; right; now right|congruence].
    - destruct Hc as [Hc|[Hc|Hc]]; congruence.
    - apply Sub in Hr' as [Hr1 Hr2]. destruct Hc as [<-|[Hc|Hc]].
      + destruct (inv_notail _ _ _ FreeTail I) as [_ H]; [apply in_app_iff; now left|congruence].
      + congruence.
      + apply (Nd r Hr1). now right. }
  split; [|split; reflexivity].
  assert (Ef' : flat (g1 ++ (b, m1 ++ f :: m2) :: g2) = (flat g1 ++ b :: m1) ++ f :: (m2 ++ flat g2)).
  { rewrite flat_app, flat_cons. rewrite <- !app_assoc. cbn. rewrite <- app_assoc. reflexivity. }
  assert (Fst : forall r, r <> n -> r <> f -> st t5 r = st t r /\ val t5 r = val t r).
  { intros r H1 H2. change (set_ref (set_ref (st t) f state_misplaced) n state_free r = st t r /\
      set_ref (set_ref (val t) f (Some v)) n None r = val t r). rewrite !set_ref_other by congruence. auto. }
  constructor.
  - apply (inv_cap _ _ _ I).
  - rewrite Ef'. exact U5.
  - exact R5.
  - rewrite Ef'. change (capacity t5) with (capacity t). rewrite <- (inv_perm _ _ _ I), Ef.
    rewrite <- !app_assoc. apply Permutation_app_head. cbn [app]. constructor. apply Permutation_app_head.
    rewrite <- !Permutation_middle. apply perm_swap.
  - rewrite Ef'. change (size t5) with (size t). rewrite (inv_size _ _ _ I), Ef, !app_length. cbn [length]. rewrite !app_length. reflexivity.
  - intros r [<-|Hr].
    + change (set_ref (set_ref (st t) f state_misplaced) n state_free n = state_free /\ set_ref (set_ref (val t) f (Some v)) n None n = None).
      rewrite !set_ref_same. auto.
    + destruct (Fst r) as [-> ->].
      * intros ->. contradiction.
      * intros ->. inversion Nf; contradiction.
      * apply (inv_freest _ _ _ I). now right.
  - destruct (Fst UsedTail) as [-> _]; [congruence|congruence|]. apply (inv_tail _ _ _ I).
  - pose proof (inv_good _ _ _ I) as G. apply good_app in G as [Ga Gb]. apply good_cons in Gb as [G1 Gb].
    assert (F : forall r, In r ((flat g1 ++ b :: m1) ++ m2 ++ flat g2) -> st t5 r = st t r /\ val t5 r = val t r).
    { intros r Hr. apply Sub in Hr as [H1 H2]. apply Fst; [congruence|]. intros ->. contradiction. }
    assert (Ff : st t5 f = state_misplaced /\ val t5 f = Some v).
    { change (set_ref (set_ref (st t) f state_misplaced) n state_free f = state_misplaced /\
        set_ref (set_ref (val t) f (Some v)) n None f = Some v).
      rewrite !(set_ref_other _ n) by congruence. rewrite !set_ref_same. auto. }
    apply good_app. split; [|apply good_cons; split].
    + eapply (good_frame t); [reflexivity| |exact Ga]. intros r Hr. apply F. rewrite !in_app_iff. auto.
    + destruct G1 as (Ga1 & Ga2 & Ga3). cbn [fst snd] in *. rewrite Forall_app in Ga2. destruct Ga2 as [Ga2 Ga4].
      inversion Ga4 as [|? ? _ Ga5]; subst. inversion Ga3 as [|? ? Hb0 Ga6]; subst.
      rewrite Forall_app in Ga6. destruct Ga6 as [Ga6 Ga7]. inversion Ga7 as [|? ? Hn0 Ga8]; subst.
      assert (T : forall l, (forall r, In r l -> In r ((flat g1 ++ b :: m1) ++ m2 ++ flat g2)) ->
         Forall (fun r => exists v, val t r = Some v /\ bucket t (key v) = b) l ->
         Forall (fun r => exists v, val t5 r = Some v /\ bucket t5 (key v) = b) l).
      { intros l Hl Hf. rewrite Forall_forall in *. intros r Hr. destruct (F r (Hl r Hr)) as [_ ->]. apply Hf, Hr. }
      assert (T' : forall l, (forall r, In r l -> In r ((flat g1 ++ b :: m1) ++ m2 ++ flat g2)) ->
         Forall (fun r => st t r = state_misplaced) l -> Forall (fun r => st t5 r = state_misplaced) l).
      { intros l Hl Hf. rewrite Forall_forall in *. intros r Hr. destruct (F r (Hl r Hr)) as [-> _]. apply Hf, Hr. }
      split; [|split]; cbn [fst snd].
      * destruct (F b) as [-> _]; [|exact Ga1]. rewrite !in_app_iff. cbn. tauto.
      * apply Forall_app. split; [apply T'; [|exact Ga2]|constructor; [apply Ff|apply T'; [|exact Ga5]]].
        -- intros r Hr. rewrite !in_app_iff. cbn. tauto.
        -- intros r Hr. rewrite !in_app_iff. cbn. tauto.
      * constructor; [|apply Forall_app; split; [|constructor]].
        -- assert (H : Forall (fun r => exists v, val t5 r = Some v /\ bucket t5 (key v) = b) [b]).
           { apply T; [intros r [<-|[]]; rewrite !in_app_iff; cbn; tauto|constructor; [exact Hb0|constructor]]. }
           inversion H; assumption.
        -- apply T; [|exact Ga6]. intros r Hr. rewrite !in_app_iff. cbn. tauto.
        -- exists v. split; [apply Ff|]. destruct Hn0 as (v0 & Hv0 & Hb1). rewrite Hv in Hv0. injection Hv0 as <-. exact Hb1.
        -- apply T; [|exact Ga8]. intros r Hr. rewrite !in_app_iff. cbn. tauto.
    + eapply (good_frame t); [reflexivity| |exact Gb]. intros r Hr. apply F. rewrite !in_app_iff. auto.
Qed.
End Inv.
