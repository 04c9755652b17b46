From Coq Require Import Permutation.
From Verif Require Import Prelude ClosedHash_Model ClosedHash_Proofs ClosedHash_Inv.
Local Open Scope nat_scope.
Ltac Zify.zify_post_hook ::= idtac.

Lemma split_unique {A} (l1 : list A) r l2 : forall l1' l2', NoDup (l1 ++ r :: l2) ->
  l1 ++ r :: l2 = l1' ++ r :: l2' -> l1 = l1' /\ l2 = l2'.
Proof.
  induction l1 as [|x l1 IH]; intros [|y l1'] l2' Hn H; cbn in *.
  - injection H as ->. auto.
  - injection H as -> ->. inversion Hn as [|? ? Hx _]; subst. exfalso. apply Hx, in_app_iff. right. now left.
  - injection H as -> <-. inversion Hn as [|? ? Hx _]; subst. exfalso. apply Hx, in_app_iff. right. now left.
  - injection H as -> H. inversion Hn; subst. destruct (IH l1' l2') as [-> ->]; auto.
Qed.
Lemma app_len_inv {A} (a : list A) : forall b c d, a ++ b = c ++ d -> length a = length c -> a = c /\ b = d.
Proof.
  induction a as [|x a IH]; intros b [|y c] d H L; cbn in *; try discriminate; auto.
  injection H as -> H. destruct (IH b c d H) as [-> ->]; auto.
Qed.
Lemma map_set_ref {B} (f : ref -> B) r b l : ~ In r l -> map (set_ref f r b) l = map f l.
Proof. intros H. apply map_ext_in. intros x Hx. apply set_ref_other. intros <-. contradiction. Qed.

Section Ops.
Context {V K : Type} (key : V -> K) (hash : K -> nat) (key_eq : K -> K -> bool).
Notation table := (@table V).
Implicit Types t : table.
Notation bucket := (bucket (V:=V) hash).
Notation Inv := (Inv key hash).
Notation Good := (Good key hash).
Notation Good1 := (Good1 key hash).

Lemma inv_set_val t gs free r v x : Inv t gs free -> In r (flat gs) -> val t r = Some v ->
  bucket t (key x) = bucket t (key v) -> Inv (set_val t r (Some x)) gs free.
Proof.
  intros I Hr Hv Hb. constructor.
  - apply (inv_cap _ _ _ _ _ I).
  - apply (ring_same t); [reflexivity|reflexivity|apply (inv_used _ _ _ _ _ I)].
  - apply (ring_same t); [reflexivity|reflexivity|apply (inv_free _ _ _ _ _ I)].
  - apply (inv_perm _ _ _ _ _ I).
  - apply (inv_size _ _ _ _ _ I).
  - intros n Hn. change (st t n = state_free /\ set_ref (val t) r (Some x) n = None). rewrite set_ref_other.
    + apply (inv_freest _ _ _ _ _ I), Hn.
    + intros <-. apply (inv_disj _ _ _ _ _ _ I Hr Hn).
  - apply (inv_tail _ _ _ _ _ I).
  - pose proof (inv_good _ _ _ _ _ I) as G. unfold ClosedHash_Inv.Good in *. rewrite Forall_forall in *. intros g Hg.
    destruct (G g Hg) as (G1 & G2 & G3). split; [exact G1|]. split; [exact G2|]. rewrite Forall_forall in *.
    intros n Hn. destruct (G3 n Hn) as (w & Hw & Hbw). change (val (set_val t r (Some x)) n) with (set_ref (val t) r (Some x) n).
    destruct (ref_eqb_spec r n) as [<-|Hne].
    + exists x. rewrite set_ref_same. split; [reflexivity|]. rewrite Hw in Hv. injection Hv as ->.
      transitivity (bucket t (key v)); [exact Hb|exact Hbw].
    + exists w. rewrite set_ref_other by exact Hne. auto.
Qed.

Lemma unlink_spec t gs free l1 n l2 v gs' : Inv t gs free -> flat gs = l1 ++ n :: l2 -> val t n = Some v ->
  flat gs' = l1 ++ l2 -> Good t gs' ->
  exists t', erase_raw (skip_node t n) n = Some t' /\ Inv (set_size t' (size t' - 1)) gs' (n :: free) /\
    val t' = set_ref (val t) n None /\ capacity t' = capacity t.
Proof.
  intros I Ef Hv Ef' G'.
  pose proof (inv_nodup _ _ _ _ _ I) as Hnd. apply nodup_app in Hnd as (Nu & Nf & Nd).
  assert (Hnin : In n (flat gs)) by (rewrite Ef, in_app_iff; right; now left).
  destruct (inv_notail _ _ _ _ _ n I) as [Hnu Hnf]; [apply in_app_iff; now left|].
  assert (Hnfs : ~ In n free) by (intros H; apply (Nd n Hnin H)).
  unfold erase_raw, destroy. set (t1 := skip_node t n).
  change (val t1 n) with (val t n). rewrite Hv. set (t2 := set_state (set_val t1 n None) n state_free).
  eexists. split; [reflexivity|].
  pose proof (inv_used _ _ _ _ _ I) as U0. rewrite Ef in U0. destruct (ring_remove _ _ _ _ _ U0) as (U1 & A1 & _). fold t1 in U1, A1.
  rewrite Ef in Nu. apply NoDup_remove_2 in Nu.
  assert (Sub : forall r, In r (l1 ++ l2) -> In r (flat gs) /\ n <> r).
  { intros r Hr. split; [|intros <-; contradiction]. rewrite Ef. rewrite in_app_iff in *. cbn. tauto. }
  assert (R1 : Ring t1 FreeTail free).
  { eapply ring_frame; [exact A1| |apply (inv_free _ _ _ _ _ I)]. intros r Hr Hc. destruct Hr as [<-|Hr].
    - destruct Hc as [Hc|Hc]; [discriminate|]. apply Sub in Hc as [Hc _].
      destruct (inv_notail _ _ _ _ _ FreeTail I) as [_ H]; [apply in_app_iff; now left|congruence].
    - destruct Hc as [<-|Hc].
      + destruct (inv_notail _ _ _ _ _ UsedTail I) as [H _]; [apply in_app_iff; now right|congruence].
      + apply Sub in Hc as [Hc _]. apply (Nd r Hc Hr). }
  assert (R2 : Ring t2 FreeTail free) by (apply (ring_same t1); [reflexivity|reflexivity|exact R1]).
  assert (U2 : Ring t2 UsedTail (l1 ++ l2)) by (apply (ring_same t1); [reflexivity|reflexivity|exact U1]).
  destruct (ring_insert_after_tail _ _ _ n R2 Hnf Hnfs) as [R3 A3]. set (t3 := splice_node_range t2 FreeTail n n) in *.
  assert (U3 : Ring t3 UsedTail (l1 ++ l2)).
  { eapply ring_frame; [exact A3| |exact U2]. intros r Hr Hc. destruct Hr as [<-|Hr].
    - destruct Hc as [Hc|[Hc|Hc]]; [discriminate|congruence|].
      destruct (inv_notail _ _ _ _ _ UsedTail I) as [H _]; [apply in_app_iff; now right|congruence].
    - apply Sub in Hr as [Hr Hne]. destruct Hc as [<-|[Hc|Hc]].
      + destruct (inv_notail _ _ _ _ _ FreeTail I) as [_ H]; [apply in_app_iff; now left|congruence].
      + congruence.
      + apply (Nd r Hr Hc). }
  split; [|split; reflexivity].
  assert (Fst : forall r, n <> r -> st t3 r = st t r /\ val t3 r = val t r).
  { intros r H. change (set_ref (st t) n state_free r = st t r /\ set_ref (val t) n None r = val t r).
    rewrite !set_ref_other by exact H. auto. }
  constructor.
  - apply (inv_cap _ _ _ _ _ I).
  - rewrite Ef'. apply (ring_same t3); [reflexivity|reflexivity|exact U3].
  - apply (ring_same t3); [reflexivity|reflexivity|exact R3].
  - rewrite Ef'. change (capacity _) with (capacity t). rewrite <- (inv_perm _ _ _ _ _ I), Ef.
    rewrite <- Permutation_middle. rewrite <- (Permutation_middle l1 l2 n). reflexivity.
  - rewrite Ef'. change (size _) with (size t - 1). rewrite (inv_size _ _ _ _ _ I), Ef, !app_length. cbn [length]. lia.
  - intros r [<-|Hr].
    + change (set_ref (st t) n state_free n = state_free /\ set_ref (val t) n None n = None). rewrite !set_ref_same. auto.
    + change (st t3 r = state_free /\ val t3 r = None). destruct (Fst r) as [-> ->]; [intros <-; contradiction|].
      apply (inv_freest _ _ _ _ _ I), Hr.
  - change (st t3 UsedTail = state_free). destruct (Fst UsedTail) as [-> _]; [exact Hnu|]. apply (inv_tail _ _ _ _ _ I).
  - eapply (good_frame key hash t); [reflexivity| |exact G']. intros r Hr. rewrite Ef' in Hr. apply Sub in Hr as [_ Hr]. apply Fst, Hr.
Qed.

Lemma erase_at_spec t gs free l1 r l2 v1 v v2 : Inv t gs free -> flat gs = l1 ++ r :: l2 ->
  map (val t) l1 = map Some v1 -> val t r = Some v -> map (val t) l2 = map Some v2 ->
  exists t' res gs' free' l2', erase_at t r = Some (t', res) /\ Inv t' gs' free' /\ flat gs' = l1 ++ l2' /\
    map (val t') l1 = map Some v1 /\ map (val t') l2' = map Some v2 /\ res = hd UsedTail l2' /\ capacity t' = capacity t.
Proof.
  intros I Ef M1 Mr M2.
  pose proof (inv_nodup _ _ _ _ _ I) as Hnd. apply nodup_app in Hnd as (Nu & _ & _). pose proof Nu as Nu'. rewrite Ef in Nu.
  assert (Hrin : In r (flat gs)) by (rewrite Ef, in_app_iff; right; now left).
  assert (Enx : next t r = hd UsedTail l2).
  { destruct (inv_used _ _ _ _ _ I) as [Hp _]. rewrite Ef in Hp. apply (path_next _ _ _ _ _ _ Hp). }
  pose proof (inv_good _ _ _ _ _ I) as G.
  assert (Nr : ~ In r l1 /\ ~ In r l2) by (apply NoDup_remove_2 in Nu; rewrite in_app_iff in Nu; tauto).
  (* plain removal of r *)
  assert (Plain : forall gs', flat gs' = l1 ++ l2 -> Good t gs' ->
     exists t' free' t0, erase_raw (skip_node t r) r = Some t0 /\ t' = set_size t0 (size t0 - 1) /\ Inv t' gs' free' /\
        map (val t') l1 = map Some v1 /\ map (val t') l2 = map Some v2 /\ capacity t' = capacity t).
  { intros gs' E' G'. destruct (unlink_spec t gs free l1 r l2 v gs' I Ef Mr E' G') as (t0 & H1 & H2 & H3 & H4).
    exists (set_size t0 (size t0 - 1)), (r :: free), t0. split; [exact H1|]. split; [reflexivity|]. split; [exact H2|].
    change (val (set_size t0 (size t0 - 1))) with (val t0). rewrite H3, !map_set_ref by tauto. auto. }
  destruct (good_used_st _ _ _ _ _ G Hrin) as [Hst|Hst].
  - destruct (good_home _ _ _ _ _ G Hrin Hst) as (g1 & ms & g2 & Eg & G1).
    assert (Ef2 : flat gs = flat g1 ++ r :: (ms ++ flat g2)) by (rewrite Eg, flat_app, flat_cons; reflexivity).
    rewrite Ef in Ef2. destruct (split_unique _ _ _ _ _ Nu Ef2) as [-> ->]. 
    rewrite Eg in G. apply good_app in G as [Ga Gb]. apply good_cons in Gb as [_ Gb].
    destruct ms as [|m ms].
    + destruct (Plain (g1 ++ g2)) as (t' & free' & H); [apply flat_app|apply good_app; auto|].
      destruct H as (t0 & H1 & -> & H2 & H3 & H4 & H5).
      exists (set_size t0 (size t0 - 1)), (next t r), (g1 ++ g2), free', (flat g2).
      split; [|split; [exact H2|split; [apply flat_app|split; [exact H3|split; [exact H4|split; [exact Enx|exact H5]]]]]].
      unfold erase_at. rewrite Hst. cbn [app] in Enx.
      assert (Hnm : st t (next t r) <> state_misplaced).
      { rewrite Enx. destruct g2 as [|[b' ms'] g2]; cbn [flat flat_map hd].
        - rewrite (inv_tail _ _ _ _ _ I). discriminate.
        - apply good_cons in Gb as [(Gb & _) _]. cbn in Gb |- *. rewrite Gb. discriminate. }
      destruct (st t (next t r)) eqn:E; [| |congruence]; cbv zeta; rewrite H1; reflexivity.
    + cbn [app hd] in Enx.
      destruct G1 as (Gh & Gm & Gv). cbn [fst snd] in *. pose proof (Forall_inv Gm) as Gm1. cbv beta in Gm1. subst gs.
      assert (Hmin : In m (flat (g1 ++ (r, m :: ms) :: g2))) by (rewrite Ef, in_app_iff; right; right; now left).
      cbn [app] in M2. symmetry in M2. cbn [map] in M2. apply map_eq_cons in M2 as (a & v2' & -> & Ma & M2).
      rewrite Forall_forall in Gv. destruct (Gv r) as (w1 & Hw1 & Hb1); [now left|]. destruct (Gv m) as (w2 & Hw2 & Hb2); [right; now left|].
      rewrite Mr in Hw1. injection Hw1 as <-. rewrite <- Ma in Hw2. injection Hw2 as <-.
      assert (Hrm : r <> m). { intros <-. apply (proj2 Nr). now left. }
      set (ta := set_val t m (Some v)). set (tb := set_val ta r (Some a)).
      assert (Ia : Inv ta (g1 ++ (r, m :: ms) :: g2) free) by (apply (inv_set_val _ _ _ _ a); auto; congruence).
      assert (Ib : Inv tb (g1 ++ (r, m :: ms) :: g2) free).
      { apply (inv_set_val _ _ _ _ v); auto.
        - change (set_ref (val t) m (Some v) r = Some v). rewrite set_ref_other by congruence. exact Mr.
        - change (bucket t (key a) = bucket t (key v)). congruence. }
      assert (Vb : forall x, x <> r -> x <> m -> val tb x = val t x).
      { intros x H1 H2. change (set_ref (set_ref (val t) m (Some v)) r (Some a) x = val t x). rewrite !set_ref_other by congruence. reflexivity. }
      assert (Nm : ~ In m (flat g1) /\ ~ In m (ms ++ flat g2)).
      { apply nodup_app in Nu as (_ & Nu2 & Nu3). apply NoDup_cons_iff in Nu2 as [_ Nu4]. cbn [app] in Nu4. apply NoDup_cons_iff in Nu4 as [Nu4 _].
        split; [|exact Nu4]. intros H. apply (Nu3 m H). right. now left. }
      destruct (unlink_spec tb _ free (flat g1 ++ [r]) m (ms ++ flat g2) v (g1 ++ (r, ms) :: g2) Ib) as (t0 & H1 & H2 & H3 & H4).
      * rewrite Ef, <- app_assoc. reflexivity.
      * change (set_ref (set_ref (val t) m (Some v)) r (Some a) m = Some v). rewrite set_ref_other by congruence. apply set_ref_same.
      * rewrite flat_app, flat_cons, <- !app_assoc. reflexivity.
      * pose proof (inv_good _ _ _ _ _ Ib) as G. apply good_app in G as [Ga' Gb']. apply good_cons in Gb' as [(K1 & K2 & K3) Gb'].
        apply good_app. split; [exact Ga'|]. apply good_cons. split; [|exact Gb']. cbn [fst snd] in *.
        apply Forall_inv_tail in K2. pose proof (Forall_inv K3) as K4. apply Forall_inv_tail in K3. apply Forall_inv_tail in K3. split; [|split]; cbn [fst snd]; [exact K1|exact K2|constructor; [exact K4|exact K3]].
      * exists (set_size t0 (size t0 - 1)), r, (g1 ++ (r, ms) :: g2), (m :: free), (r :: ms ++ flat g2).
        split; [|split; [exact H2|split; [now rewrite flat_app, flat_cons|split; [|split; [|split; [reflexivity|exact H4]]]]]].
        -- unfold erase_at. rewrite Hst, Enx, Gm1. rewrite ref_eqb_neq.
           2: { apply (inv_notail _ _ _ _ _ m I). apply in_app_iff. left. exact Hmin. }
           cbn [negb]. rewrite <- Ma, Mr. cbv zeta. fold ta. fold tb. rewrite H1. reflexivity.
        -- change (map (val t0) (flat g1) = map Some v1). rewrite H3, map_set_ref by apply Nm. rewrite <- M1. apply map_ext_in.
           intros x Hx. apply Vb; intros ->; [apply (proj1 Nr Hx)|apply (proj1 Nm Hx)].
        -- change (map (val t0) (r :: ms ++ flat g2) = map Some (a :: v2')). rewrite H3. cbn [map]. f_equal.
           ++ rewrite set_ref_other by congruence. change (set_ref (set_ref (val t) m (Some v)) r (Some a) r = Some a). apply set_ref_same.
           ++ rewrite map_set_ref by apply Nm. rewrite M2. apply map_ext_in. intros x Hx. apply Vb.
              ** intros ->. apply (proj2 Nr). right. exact Hx.
              ** intros ->. apply (proj2 Nm Hx).
  - destruct (good_mis _ _ _ _ _ G Hrin Hst) as (g1 & b & m1 & m2 & g2 & Eg & G1).
    assert (Ef2 : flat gs = (flat g1 ++ b :: m1) ++ r :: (m2 ++ flat g2)).
    { rewrite Eg, flat_app, flat_cons. rewrite <- !app_assoc. cbn. rewrite <- app_assoc. reflexivity. }
    rewrite Ef in Ef2. destruct (split_unique _ _ _ _ _ Nu Ef2) as [-> ->].
    destruct (Plain (g1 ++ (b, m1 ++ m2) :: g2)) as (t' & free' & H).
    + rewrite flat_app, flat_cons, <- !app_assoc. cbn. rewrite <- app_assoc. reflexivity.
    + rewrite Eg in G. apply good_app in G as [Ga Gb]. apply good_cons in Gb as [(K1 & K2 & K3) Gb].
      apply good_app. split; [exact Ga|]. apply good_cons. split; [|exact Gb]. cbn [fst snd] in *.
      apply Forall_app in K2 as [K2 K4]. inversion K4; subst. inversion K3 as [|? ? K5 K6]; subst. apply Forall_app in K6 as [K6 K7].
      inversion K7; subst. split; [|split]; cbn [fst snd]; auto.
      * apply Forall_app. auto.
      * constructor; auto. apply Forall_app. auto.
    + destruct H as (t0 & H1 & -> & H2 & H3 & H4 & H5).
      exists (set_size t0 (size t0 - 1)), (next t r), (g1 ++ (b, m1 ++ m2) :: g2), free', (m2 ++ flat g2).
      split; [|split; [exact H2|split; [|split; [exact H3|split; [exact H4|split; [exact Enx|exact H5]]]]]].
      * unfold erase_at. rewrite Hst. cbv zeta. rewrite H1. reflexivity.
      * rewrite flat_app, flat_cons, <- !app_assoc. cbn. rewrite <- app_assoc. reflexivity.
Qed.
End Ops.
