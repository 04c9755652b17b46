(** cover, uncover, purify, unpurify: what they do to the lists, and that each undoes the other exactly. *)
From Verif Require Import Prelude Dlx_Model Dlx_Spec Dlx_Mem.
From Coq Require Import List Arith ZArith Lia Bool Permutation.
Import ListNotations.
Ltac Zify.zify_post_hook ::= idtac.

(** ** loops that visit the nodes of a circular list, forwards and backwards *)
Section Loops.
Context (nxt prv : mem -> nat -> nat) (c : nat) (L : list nat) (act un : nat -> mem -> option mem) (G : mem -> Prop).
Context (ND : NoDup (c :: L)).
Context (HN : forall m, G m -> forall l1 x l2, L = l1 ++ x :: l2 -> nxt m x = hd c l2).
Context (HP : forall m, G m -> forall l1 x l2, L = l1 ++ x :: l2 -> prv m x = last l1 c).
Inductive acts : list nat -> mem -> mem -> Prop :=
| acts_nil m : G m -> acts [] m m
| acts_cons x l m m1 m' : G m -> act x m = Some m1 -> un x m1 = Some m -> acts l m1 m' -> acts (x :: l) m m'.
Lemma acts_first l m m' : acts l m m' -> G m. Proof. destruct 1; auto. Qed.
Lemma acts_last l m m' : acts l m m' -> G m'. Proof. induction 1; auto. Qed.
Lemma acts_snoc l x m m1 m' : acts l m m1 -> act x m1 = Some m' -> un x m' = Some m1 -> G m' -> acts (l ++ [x]) m m'.
Proof. induction 1; intros; cbn; [|econstructor; eauto]. eapply acts_cons; eauto. now constructor. Qed.
Lemma acts_unsnoc l x m m' : acts (l ++ [x]) m m' -> exists m1, acts l m m1 /\ un x m' = Some m1.
Proof.
  revert m; induction l as [|y l IH]; intros m H; cbn in H; inversion H; subst.
  - match goal with K : acts [] _ _ |- _ => inversion K; subst end. exists m. split; [now constructor|auto].
  - match goal with K : acts (l ++ [x]) _ _ |- _ => destruct (IH _ K) as (m2 & A & B) end. exists m2. split; [econstructor; eauto|auto].
Qed.
Lemma loop_forward l : forall pre m m' f, acts l m m' -> L = pre ++ l -> length l < f -> loop f nxt c act (hd c l) m = Some m'.
Proof using ND HN.
  clear HP prv. induction l as [|x l IH]; intros pre m m' f H E F; (destruct f as [|f]; [cbn in F; lia|]); inversion H; subst; cbn [loop hd].
  - now rewrite Nat.eqb_refl.
  - destruct (Nat.eqb_spec x c) as [-> |N]; [exfalso; apply NoDup_cons_iff in ND as [ND1 _]; apply ND1; apply in_app_iff; right; now left|].
    match goal with K : act x m = Some ?m1, A : acts l ?m1 m' |- _ => rewrite K; rewrite (HN m1 (acts_first _ _ _ A) pre x l eq_refl); apply (IH (pre ++ [x])); auto end.
    + now rewrite <- app_assoc.
    + cbn in F. lia.
Qed.
Lemma loop_backward l : forall post m m' f, acts l m m' -> L = l ++ post -> length l < f -> loop f prv c un (last l c) m' = Some m.
Proof using ND HP.
  clear HN nxt. induction l as [|x l IH] using rev_ind; intros post m m' f H E F; (destruct f as [|f]; [cbn in F; lia|]).
  - inversion H; subst. cbn [loop last]. now rewrite Nat.eqb_refl.
  - apply acts_unsnoc in H as (m1 & H & K). cbn [loop]. rewrite last_last. rewrite <- app_assoc in E. cbn in E.
    destruct (Nat.eqb_spec x c) as [-> |N]; [exfalso; apply NoDup_cons_iff in ND as [ND1 _]; apply ND1; rewrite E; apply in_app_iff; right; now left|].
    rewrite K. rewrite (HP m1 (acts_last _ _ _ H) l x post E). apply (IH (x :: post)); auto. rewrite app_length in F. cbn in F. lia.
Qed.
End Loops.
Arguments acts act un G _ _ _ : clear implicits.

Definition mb (x : nat) (l : list nat) : bool := existsb (Nat.eqb x) l.
Lemma mb_in x l : mb x l = true <-> In x l.
Proof. unfold mb. rewrite existsb_exists. split; [intros (y & H & E); apply Nat.eqb_eq in E; now subst|]. intros H. exists x. now rewrite Nat.eqb_refl. Qed.
Lemma mb_out x l : mb x l = false <-> ~ In x l.
Proof. rewrite <- mb_in. destruct (mb x l); split; congruence. Qed.
Lemma filter_filter {A} (f g : A -> bool) l : filter f (filter g l) = filter (fun x => g x && f x) l.
Proof. induction l as [|x l IH]; cbn; [auto|]. destruct (g x); cbn; [destruct (f x); now rewrite IH|exact IH]. Qed.
Lemma filter_all {A} (f : A -> bool) l : (forall x, In x l -> f x = true) -> filter f l = l.
Proof. induction l as [|x l IH]; cbn; auto. intros H. rewrite H by auto. now rewrite IH by auto. Qed.
Lemma filter_mid j l1 l2 : NoDup (l1 ++ j :: l2) -> filter (fun x => negb (mb x [j])) (l1 ++ j :: l2) = l1 ++ l2.
Proof.
  intros N. apply NoDup_remove_2 in N. rewrite filter_app. cbn. rewrite Nat.eqb_refl. cbn. rewrite !filter_all; [reflexivity| |]; intros x H; cbn; (destruct (Nat.eqb_spec x j) as [-> |]; [exfalso; apply N, in_app_iff; auto|reflexivity]).
Qed.

Section Static.
(** nodes, the row of a node, the header of its column, the headers, the primary ones, the other nodes of the row in order *)
Context (node : nat -> Prop) (nrow ncol : nat -> nat) (isc : nat -> Prop) (prim : nat -> bool) (rest : nat -> list nat).
Context (H0 : ~ isc 0) (Hn0 : ~ node 0) (Hcn : forall x, node x -> isc (ncol x)) (Hdis : forall x, node x -> ~ isc x).
Context (Hrest : forall x, node x -> forall y, In y (rest x) <-> node y /\ nrow y = nrow x /\ y <> x).
Context (Huniq : forall x y, node x -> node y -> nrow x = nrow y -> ncol x = ncol y -> x = y).

Record Rep (m : mem) (P : list nat) (V : nat -> list nat) : Prop := {
  p_size : same_size m;
  p_col : forall x, node x -> rd (MC m) x = ncol x;
  p_low : forall x, node x \/ isc x -> x < length (MC m);
  p_hdr : ring (MR m) (ML m) 0 P;
  p_P : forall c, In c P -> isc c /\ prim c = true;
  p_sec : forall c, isc c -> prim c = false -> rd (MR m) c = c /\ rd (ML m) c = c;
  p_row : forall x, node x -> ring (MR m) (ML m) x (rest x);
  p_vert : forall c, isc c -> ring (MD m) (MU m) c (V c);
  p_V : forall c x, isc c -> In x (V c) -> node x /\ ncol x = c;
  p_z : forall c, isc c -> rdz (MZ m) c = Z.of_nat (length (V c)) }.
Lemma Rep_ext m P V V' : Rep m P V -> (forall c, isc c -> V' c = V c) -> Rep m P V'.
Proof.
  intros [A B C D E F G H I J] X. split; auto.
  - intros c K. rewrite X; auto.
  - intros c x K. rewrite X; auto.
  - intros c K. rewrite X; auto.
Qed.
(** what a step leaves alone *)
Definition frame (m m' : mem) : Prop := ML m' = ML m /\ MR m' = MR m /\ MC m' = MC m /\ MW m' = MW m /\ ncols m' = ncols m.
Lemma frame_refl m : frame m m. Proof. unfold frame. auto. Qed.
Lemma frame_trans a b c : frame a b -> frame b c -> frame a c. Proof. unfold frame. intuition congruence. Qed.

Definition minus (js : list nat) (V : nat -> list nat) (d : nat) : list nat := filter (fun x => negb (mb x js)) (V d).
Lemma hide_one m P V j : Rep m P V -> node j -> In j (V (ncol j)) ->
  Rep (hidden j m) P (minus [j] V) /\ hide1 j m = hidden j m /\ hide1' j m = hidden j m /\ show1 j (hidden j m) = m /\ show1' j (hidden j m) = m.
Proof.
  intros R N J. assert (R' := R). destruct R as [A B C D E F G H I K]. assert (Hc := Hcn j N). assert (HR := H _ Hc). apply in_split in J as (l1 & l2 & EV). rewrite EV in HR.
  destruct (ring_at _ _ _ _ _ _ HR) as (E1 & E2 & E3 & E4).
  assert (ND : ~ In j (ncol j :: l1 ++ l2)).
  { assert (X := r_nodup _ _ _ _ HR). apply NoDup_cons_iff in X as [X1 X2]. intros [Y|Y]; [rewrite Y in X1; apply X1, in_app_iff; right; now left|]. apply NoDup_remove_2 in X2. contradiction. }
  assert (N1 : rd (MD m) j <> j) by (rewrite E1; intros Y; assert (Z := in_hd l2 (ncol j)); rewrite Y in Z; apply ND; destruct Z as [Z|Z]; [now left|right; apply in_app_iff; auto]).
  assert (N2 : rd (MU m) j <> j) by (rewrite E2; intros Y; assert (Z := in_last l1 (ncol j)); rewrite Y in Z; apply ND; destruct Z as [Z|Z]; [now left|right; apply in_app_iff; auto]).
  assert (LC : rd (MC m) j < length (MC m)) by (rewrite B by auto; auto).
  assert (AD : In (rd (MD m) j) (ncol j :: V (ncol j))) by (rewrite E1, EV; assert (Z := in_hd l2 (ncol j)); destruct Z as [Z|Z]; [now left|right; apply in_app_iff; right; now right]).
  assert (AU : In (rd (MU m) j) (ncol j :: V (ncol j))) by (rewrite E2, EV; assert (Z := in_last l1 (ncol j)); destruct Z as [Z|Z]; [now left|right; apply in_app_iff; now left]).
  split; [|split; [apply hide1_eq; auto|split; [apply hide1'_eq; auto|split; [apply show1_hidden|apply show1'_hidden]; auto; rewrite ?E1, ?E2; auto]]].
  assert (V1 : minus [j] V (ncol j) = l1 ++ l2) by (unfold minus; rewrite EV; apply filter_mid; assert (X := r_nodup _ _ _ _ HR); apply NoDup_cons_iff in X; tauto).
  assert (V2 : forall d, isc d -> d <> ncol j -> minus [j] V d = V d).
  { intros d Kd Nd. apply filter_all. intros x X. apply negb_true_iff, mb_out. intros [<- |[]]. destruct (I d j Kd X). auto. }
  split; [now apply hidden_same_size|exact B|exact C|exact D|exact E|exact F|exact G| | |].
  - intros d Kd. destruct (Nat.eq_dec d (ncol j)) as [-> |Nd].
    + rewrite V1. apply ring_unlink. exact HR.
    + rewrite V2 by auto. unfold hidden. cbn [MD MU]. eapply ring_frame; [apply H; exact Kd|apply set_nth_length|apply set_nth_length| |].
      * intros a X. apply rd_other. intros <-. assert (Y : forall z, In z (ncol j :: V (ncol j)) -> In z (d :: V d) -> False).
        { intros z [<- |Z1] [Z2|Z2]; [congruence|destruct (I d _ Kd Z2) as [Y _]; destruct (Hdis _ Y); exact Hc| |destruct (I _ _ Hc Z1), (I _ _ Kd Z2); congruence].
          subst z. destruct (I _ _ Hc Z1) as [Y _]. destruct (Hdis _ Y). exact Kd. }
        first [exact (Y _ AU X)|exact (Y _ AD X)].
      * intros a X. apply rd_other. intros <-. assert (Y : forall z, In z (ncol j :: V (ncol j)) -> In z (d :: V d) -> False).
        { intros z [<- |Z1] [Z2|Z2]; [congruence|destruct (I d _ Kd Z2) as [Y _]; destruct (Hdis _ Y); exact Hc| |destruct (I _ _ Hc Z1), (I _ _ Kd Z2); congruence].
          subst z. destruct (I _ _ Hc Z1) as [Y _]. destruct (Hdis _ Y). exact Kd. }
        first [exact (Y _ AU X)|exact (Y _ AD X)].
  - intros d x Kd X. unfold minus in X. apply filter_In in X as [X _]. auto.
  - intros d Kd. unfold hidden. cbn [MZ]. rewrite B by auto. destruct (Nat.eq_dec d (ncol j)) as [-> |Nd].
    + rewrite V1, rdz_same by (destruct A as (_ & _ & _ & _ & _ & _ & ->); auto). rewrite K, EV, !app_length by auto. cbn. lia.
    + rewrite V2, rdz_other by auto. auto.
Qed.

(** ** a row *)
Definition fits (m : mem) (l : list nat) : Prop := NoDup l /\ forall x, In x l -> x < length (MC m).
Lemma fits_length m l : fits m l -> length l < many m.
Proof using. clear.
  intros [N W]. unfold many. assert (X : length l <= length (seq 0 (length (MC m)))) by (apply NoDup_incl_length; [exact N|]; intros x H; apply in_seq; specialize (W x H); lia). rewrite seq_length in X. lia.
Qed.
Lemma hide_list P i : node i -> forall post pre m V, rest i = pre ++ post -> Rep m P V -> (forall j, In j post -> In j (V (ncol j))) ->
  exists m', Rep m' P (minus post V) /\ frame m m' /\ MK m' = MK m /\
    acts (fun j m => Some (hide1 j m)) (fun j m => Some (show1 j m)) (fun m => ring (MR m) (ML m) i (rest i)) post m m' /\
    acts (fun j m => Some (hide1' j m)) (fun j m => Some (show1' j m)) (fun m => ring (MR m) (ML m) i (rest i)) post m m'.
Proof.
  intros N. induction post as [|j post IH]; intros pre m V E R J.
  - exists m. split; [eapply Rep_ext; [exact R|]; intros c _; apply filter_all; reflexivity|]. split; [apply frame_refl|]. split; [reflexivity|]. split; constructor; apply R; auto.
  - assert (NJ : node j) by (apply (Hrest i N j); rewrite E; apply in_app_iff; right; now left).
    destruct (hide_one m P V j R NJ (J j (or_introl eq_refl))) as (R1 & E1 & E2 & E3 & E4).
    assert (NDr : NoDup (rest i)) by (assert (X := r_nodup _ _ _ _ (p_row _ _ _ R i N)); apply NoDup_cons_iff in X; tauto).
    assert (Nj : ~ In j post) by (rewrite E in NDr; apply NoDup_remove_2 in NDr; intros X; apply NDr, in_app_iff; auto).
    destruct (IH (pre ++ [j]) (hidden j m) (minus [j] V)) as (m' & R' & F' & K' & A1 & A2); auto.
    + now rewrite <- app_assoc.
    + intros k Hk. unfold minus. apply filter_In. split; [apply J; now right|]. apply negb_true_iff, mb_out. intros [<- |[]]. contradiction.
    + exists m'. split; [|split; [|split; [|split]]].
      * eapply Rep_ext; [exact R'|]. intros c _. unfold minus. rewrite filter_filter. apply filter_ext. intros x. cbn. destruct (x =? j); cbn; reflexivity.
      * eapply frame_trans; [|exact F']. unfold frame, hidden. auto.
      * rewrite K'. reflexivity.
      * apply acts_cons with (hidden j m); auto; [apply R; auto|now rewrite E1|now rewrite E3].
      * apply acts_cons with (hidden j m); auto; [apply R; auto|now rewrite E2|now rewrite E4].
Qed.
Lemma ring_steps D U c L : ring D U c L -> forall l1 x l2, L = l1 ++ x :: l2 -> rd D x = hd c l2 /\ rd U x = last l1 c.
Proof using. clear. intros R l1 x l2 ->. apply ring_at in R. tauto. Qed.
Lemma path_end D U : forall l x y, path D U x l y -> rd U y = last l x.
Proof using. clear. induction l as [|z l IH]; intros x y; cbn [path]; [cbn; tauto|]. intros (_ & _ & H). apply IH in H. rewrite last_cons. exact H. Qed.
Lemma ring_start D U c L : ring D U c L -> rd D c = hd c L /\ rd U c = last L c.
Proof using. clear. intros [P _ _ _]. split; [destruct L; cbn in *; tauto|now apply path_end with D]. Qed.
Lemma hide_row_ok m P V i : Rep m P V -> node i -> (forall j, In j (rest i) -> In j (V (ncol j))) ->
  exists m', Rep m' P (minus (rest i) V) /\ frame m m' /\ MK m' = MK m /\
    hide_row i m = Some m' /\ show_row i m' = Some m /\ hide_row' i m = Some m' /\ show_row' i m' = Some m.
Proof.
  intros R N J. destruct (hide_list P i N (rest i) [] m V eq_refl R J) as (m' & R' & F & K & A1 & A2). exists m'. split; [exact R'|]. split; [exact F|]. split; [exact K|].
  assert (RR := p_row _ _ _ R i N). assert (RR' := p_row _ _ _ R' i N).
  assert (FT : fits m (rest i)).
  { split; [assert (X := r_nodup _ _ _ _ RR); apply NoDup_cons_iff in X; tauto|]. intros x X. apply (p_low _ _ _ R). left. apply (Hrest i N x) in X. tauto. }
  assert (FT' : fits m' (rest i)) by (destruct F as (_ & _ & FC & _); unfold fits in *; rewrite FC; exact FT).
  assert (HN : forall m0, ring (MR m0) (ML m0) i (rest i) -> forall l1 x l2, rest i = l1 ++ x :: l2 -> right_of m0 x = hd i l2) by (intros m0 X l1 x l2 Y; apply (ring_steps _ _ _ _ X l1 x l2 Y)).
  assert (HP : forall m0, ring (MR m0) (ML m0) i (rest i) -> forall l1 x l2, rest i = l1 ++ x :: l2 -> left_of m0 x = last l1 i) by (intros m0 X l1 x l2 Y; apply (ring_steps _ _ _ _ X l1 x l2 Y)).
  destruct (ring_start _ _ _ _ RR) as [S1 _]. destruct (ring_start _ _ _ _ RR') as [_ S2].
  unfold hide_row, show_row, hide_row', show_row', right_of at 2 4, left_of at 2 4. rewrite S1, S2. split; [|split; [|split]].
  - apply (loop_forward right_of i (rest i) (fun j m => Some (hide1 j m)) (fun j m => Some (show1 j m)) (fun m => ring (MR m) (ML m) i (rest i)) (r_nodup _ _ _ _ RR) HN (rest i) [] m m' (many m) A1 eq_refl). now apply fits_length.
  - apply (loop_backward left_of i (rest i) (fun j m => Some (hide1 j m)) (fun j m => Some (show1 j m)) (fun m => ring (MR m) (ML m) i (rest i)) (r_nodup _ _ _ _ RR) HP (rest i) [] m m' (many m') A1 (eq_sym (app_nil_r _))). now apply fits_length.
  - apply (loop_forward right_of i (rest i) (fun j m => Some (hide1' j m)) (fun j m => Some (show1' j m)) (fun m => ring (MR m) (ML m) i (rest i)) (r_nodup _ _ _ _ RR) HN (rest i) [] m m' (many m) A2 eq_refl). now apply fits_length.
  - apply (loop_backward left_of i (rest i) (fun j m => Some (hide1' j m)) (fun j m => Some (show1' j m)) (fun m => ring (MR m) (ML m) i (rest i)) (r_nodup _ _ _ _ RR) HP (rest i) [] m m' (many m') A2 (eq_sym (app_nil_r _))). now apply fits_length.
Qed.

(** ** the rows of a column *)
Definition out_of (l : list nat) (V : nat -> list nat) (d : nat) : list nat := filter (fun x => negb (existsb (fun i => mb x (rest i)) l)) (V d).
Lemma out_of_in l V d x : In x (out_of l V d) <-> In x (V d) /\ forall i, In i l -> ~ In x (rest i).
Proof.
  unfold out_of. rewrite filter_In, negb_true_iff. split; intros [A B]; (split; [exact A|]).
  - intros i I J. assert (X : existsb (fun i => mb x (rest i)) l = true) by (apply existsb_exists; exists i; split; [exact I|now apply mb_in]). congruence.
  - apply not_true_iff_false. intros X. apply existsb_exists in X as (i & I & J). apply mb_in in J. exact (B i I J).
Qed.
Lemma out_of_snoc l i V d : out_of (l ++ [i]) V d = minus (rest i) (out_of l V) d.
Proof.
  unfold out_of, minus. rewrite filter_filter. apply filter_ext. intros x. rewrite existsb_app. cbn. rewrite orb_false_r. now rewrite negb_orb.
Qed.
Lemma rest_other i x : node i -> In x (rest i) -> ncol x <> ncol i.
Proof. intros N X E. apply (Hrest i N) in X as (A & B & C). apply C. symmetry. apply Huniq; auto. Qed.
Lemma out_of_own m P V c l : Rep m P V -> isc c -> incl l (V c) -> out_of l V c = V c.
Proof.
  intros R K I. apply filter_all. intros x X. apply negb_true_iff, not_true_iff_false. intros Y. apply existsb_exists in Y as (i & A & B). apply mb_in in B.
  destruct (p_V _ _ _ R c i K (I i A)) as [C D]. destruct (p_V _ _ _ R c x K X) as [C' D']. apply (rest_other i x C B). congruence.
Qed.
Lemma rest_disjoint i i' x : node i -> node i' -> ncol i = ncol i' -> i <> i' -> In x (rest i) -> ~ In x (rest i').
Proof. intros N N' E D A B. apply (Hrest i N) in A as (_ & A & _). apply (Hrest i' N') in B as (_ & B & _). apply D, Huniq; congruence. Qed.
Lemma filter_incl {A} f (l : list A) : incl (filter f l) l. Proof using. clear. intros x X. apply filter_In in X. tauto. Qed.

(** the rows of the nodes in [sel] (chosen among those of the column) go, one after the other *)
Lemma hide_rows P c : isc c -> forall post pre m V, V c = pre ++ post -> Rep m P (out_of pre V) -> Rep m P (out_of pre V) -> (forall i j, In i (V c) -> In j (rest i) -> In j (V (ncol j))) ->
  (forall x d, isc d -> In x (V d) -> node x /\ ncol x = d) -> NoDup (V c) ->
  exists m', Rep m' P (out_of (V c) V) /\ frame m m' /\ MK m' = MK m /\ acts hide_row show_row (fun m => ring (MD m) (MU m) c (V c)) post m m'.
Proof.
  intros K. induction post as [|i post IH]; intros pre m V E R _ J HV N.
  - rewrite app_nil_r in E. rewrite <- E in R. assert (O : out_of (V c) V c = V c).
    { apply filter_all. intros x X. apply negb_true_iff, not_true_iff_false. intros Y. apply existsb_exists in Y as (i & A & B). apply mb_in in B. destruct (HV i c K A) as [C D], (HV x c K X) as [C' D']. apply (rest_other i x C B). congruence. }
    exists m. split; [exact R|]. split; [apply frame_refl|]. split; [reflexivity|]. constructor. rewrite <- O. apply R. exact K.
  - assert (Ii : In i (V c)) by (rewrite E; apply in_app_iff; right; now left). destruct (HV i c K Ii) as [Ni Ei].
    assert (Q : forall j, In j (rest i) -> In j (out_of pre V (ncol j))).
    { intros j Hj. apply out_of_in. split; [eapply J; eauto|]. intros i' I'. assert (In i' (V c)) by (rewrite E; apply in_app_iff; auto). destruct (HV i' c K H) as [Ni' Ei'].
      apply (rest_disjoint i i'); auto; [congruence|]. intros <-. rewrite E in N. apply NoDup_remove_2 in N. apply N, in_app_iff. auto. }
    destruct (hide_row_ok m P (out_of pre V) i R Ni Q) as (m1 & R1 & F1 & K1 & A1 & A2 & _).
    assert (R1' : Rep m1 P (out_of (pre ++ [i]) V)) by (eapply Rep_ext; [exact R1|]; intros d _; apply out_of_snoc).
    destruct (IH (pre ++ [i]) m1 V) as (m' & R' & F' & K' & A); auto; [now rewrite <- app_assoc|].
    exists m'. split; [exact R'|]. split; [eapply frame_trans; eauto|]. split; [congruence|]. apply acts_cons with m1; auto.
    assert (O : out_of pre V c = V c).
    { apply filter_all. intros x X. apply negb_true_iff, not_true_iff_false. intros Y. apply existsb_exists in Y as (i' & I' & B). apply mb_in in B. assert (I2 : In i' (V c)) by (rewrite E; apply in_app_iff; auto). destruct (HV i' c K I2) as [C D], (HV x c K X) as [C' D']. apply (rest_other i' x C B). congruence. }
    rewrite <- O at 1. apply R. exact K.
Qed.

(** ** column headers *)
Definition hdr_out (c : nat) (m : mem) : mem := let m := set_left (right_of m c) (left_of m c) m in set_right (left_of m c) (right_of m c) m.
Definition hdr_in (c : nat) (m : mem) : mem := let m := set_left (right_of m c) c m in set_right (left_of m c) c m.
Lemma remove_mid j l1 l2 : NoDup (l1 ++ j :: l2) -> remove Nat.eq_dec j (l1 ++ j :: l2) = l1 ++ l2.
Proof using. clear. intros N. apply NoDup_remove_2 in N. rewrite remove_app. cbn. destruct (Nat.eq_dec j j); [|contradiction]. rewrite !notin_remove; auto; intros X; apply N, in_app_iff; auto. Qed.
Lemma hdr_ok m P V c : Rep m P V -> isc c -> (prim c = true -> In c P) ->
  exists m', hdr_out c m = m' /\ Rep m' (remove Nat.eq_dec c P) V /\ hdr_in c m' = m /\ MK m' = MK m /\ MC m' = MC m /\ MW m' = MW m /\ ncols m' = ncols m /\ (prim c = false -> m' = m).
Proof.
  intros R K HP. exists (hdr_out c m). split; [reflexivity|]. destruct (prim c) eqn:PC.
  - specialize (HP eq_refl). apply in_split in HP as (l1 & l2 & EP). assert (HR := p_hdr _ _ _ R). rewrite EP in HR. destruct (ring_at _ _ _ _ _ _ HR) as (E1 & E2 & E3 & E4).
    assert (NDP := r_nodup _ _ _ _ HR). apply NoDup_cons_iff in NDP as [ND0 ND1].
    assert (NC : ~ In c (0 :: l1 ++ l2)) by (intros [X|X]; [apply H0; rewrite X; exact K|exact (NoDup_remove_2 _ _ _ ND1 X)]).
    assert (N1 : rd (MR m) c <> c) by (rewrite E1; intros Y; assert (Z := in_hd l2 0); rewrite Y in Z; apply NC; destruct Z as [Z|Z]; [now left|right; apply in_app_iff; auto]).
    assert (N2 : rd (ML m) c <> c) by (rewrite E2; intros Y; assert (Z := in_last l1 0); rewrite Y in Z; apply NC; destruct Z as [Z|Z]; [now left|right; apply in_app_iff; auto]).
    assert (AD : In (rd (MR m) c) (0 :: P)) by (rewrite E1, EP; assert (Z := in_hd l2 0); destruct Z as [Z|Z]; [now left|right; apply in_app_iff; right; now right]).
    assert (AU : In (rd (ML m) c) (0 :: P)) by (rewrite E2, EP; assert (Z := in_last l1 0); destruct Z as [Z|Z]; [now left|right; apply in_app_iff; now left]).
    assert (EQ : hdr_out c m = mk_mem (set_nth (rd (MR m) c) (rd (ML m) c) (ML m)) (set_nth (rd (ML m) c) (rd (MR m) c) (MR m)) (MU m) (MD m) (MC m) (MW m) (MK m) (MZ m) (ncols m)).
    { unfold hdr_out, set_left, set_right, left_of, right_of. cbn [ML MR MU MD MC MW MK MZ ncols]. rewrite (rd_other (ML m)); auto. }
    rewrite EQ. split; [|split; [|cbn; repeat split; auto; discriminate]].
    + assert (FR : forall a, ~ In a (0 :: P) -> rd (set_nth (rd (ML m) c) (rd (MR m) c) (MR m)) a = rd (MR m) a /\ rd (set_nth (rd (MR m) c) (rd (ML m) c) (ML m)) a = rd (ML m) a).
      { intros a X. split; apply rd_other; intros <-; contradiction. }
      assert (HX : forall a, node a -> ~ In a (0 :: P)) by (intros a Na [<- |X]; [contradiction|]; destruct (p_P _ _ _ R a X) as [Y _]; exact (Hdis a Na Y)).
      destruct R as [A B C D E F G H I J]. split; cbn [ML MR MU MD MC MW MK MZ]; auto.
      * unfold same_size in *. cbn [ML MR MU MD MC MW MK MZ]. now rewrite !set_nth_length.
      * rewrite EP, remove_mid by exact ND1. apply ring_unlink. exact HR.
      * intros d X. apply in_remove in X as [X _]. auto.
      * intros d Kd Pd. destruct (FR d) as [X Y]; [|rewrite X, Y; auto]. intros [Z|Z]; [subst d; contradiction|]. destruct (E d Z). congruence.
      * intros x Nx. eapply ring_frame; [apply G; exact Nx|apply set_nth_length|apply set_nth_length| |].
        -- intros a X. apply FR, HX. destruct X as [<- |X]; [exact Nx|]. apply (Hrest x Nx) in X. tauto.
        -- intros a X. apply FR, HX. destruct X as [<- |X]; [exact Nx|]. apply (Hrest x Nx) in X. tauto.
    + unfold hdr_in, set_left, set_right, left_of, right_of. cbn [ML MR MU MD MC MW MK MZ ncols]. rewrite (rd_other (MR m)) by auto. rewrite (rd_other _ (rd (MR m) c) c) by auto. rewrite (rd_other (ML m)) by auto.
      rewrite (set_back (ML m)) by (rewrite E1; exact E4). rewrite (set_back (MR m)) by (rewrite E2; exact E3). apply mem_eta.
  - destruct (p_sec _ _ _ R c K PC) as [S1 S2].
    assert (X1 : set_nth c c (ML m) = ML m) by (rewrite <- S2 at 2; apply set_id). assert (X2 : set_nth c c (MR m) = MR m) by (rewrite <- S1 at 2; apply set_id).
    assert (EQ : hdr_out c m = m).
    { unfold hdr_out, set_left, set_right, left_of, right_of. cbn [ML MR MU MD MC MW MK MZ ncols]. rewrite S1, S2, X1, S2, X2. apply mem_eta. }
    rewrite EQ. split; [|split; [|auto 6]].
    + rewrite notin_remove; [exact R|]. intros X. destruct (p_P _ _ _ R c X). congruence.
    + unfold hdr_in, set_left, set_right, left_of, right_of. cbn [ML MR MU MD MC MW MK MZ ncols]. rewrite S1, X1, S2, X2. apply mem_eta.
Qed.

(** ** cover *)
Lemma cover_ok m P V c : Rep m P V -> isc c -> (prim c = true -> In c P) -> (forall i j, In i (V c) -> In j (rest i) -> In j (V (ncol j))) ->
  exists m', cover_column c m = Some m' /\ uncover_column c m' = Some m /\ Rep m' (remove Nat.eq_dec c P) (out_of (V c) V) /\ MK m' = MK m /\ MC m' = MC m /\ MW m' = MW m /\ ncols m' = ncols m.
Proof.
  intros R K HP J. destruct (hdr_ok m P V c R K HP) as (m1 & E1 & R1 & E2 & K1 & C1 & W1 & n1 & _).
  assert (VR := p_vert _ _ _ R1 c K). assert (ND := r_nodup _ _ _ _ VR).
  destruct (hide_rows (remove Nat.eq_dec c P) c K (V c) [] m1 V eq_refl) as (m' & R' & F & K' & A); auto.
  { eapply Rep_ext; [exact R1|]. intros d _. apply filter_all. reflexivity. }
  { eapply Rep_ext; [exact R1|]. intros d _. apply filter_all. reflexivity. }
  { intros x d Kd X. exact (p_V _ _ _ R d x Kd X). }
  { apply NoDup_cons_iff in ND. tauto. }
  destruct F as (F1 & F2 & F3 & F4 & F5).
  exists m'. assert (VR' : ring (MD m') (MU m') c (V c)) by (apply (acts_last _ _ _ _ _ _ A)).
  assert (FT : fits m1 (V c)).
  { split; [apply NoDup_cons_iff in ND; tauto|]. intros x X. apply (p_low _ _ _ R1). left. apply (p_V _ _ _ R1 c x K X). }
  assert (HN : forall m0, ring (MD m0) (MU m0) c (V c) -> forall l1 x l2, V c = l1 ++ x :: l2 -> down_of m0 x = hd c l2) by (intros m0 X l1 x l2 Y; apply (ring_steps _ _ _ _ X l1 x l2 Y)).
  assert (HQ : forall m0, ring (MD m0) (MU m0) c (V c) -> forall l1 x l2, V c = l1 ++ x :: l2 -> up_of m0 x = last l1 c) by (intros m0 X l1 x l2 Y; apply (ring_steps _ _ _ _ X l1 x l2 Y)).
  destruct (ring_start _ _ _ _ VR) as [S1 _]. destruct (ring_start _ _ _ _ VR') as [_ S2].
  split; [|split; [|split; [exact R'|split; [congruence|split; [congruence|split; congruence]]]]].
  - unfold cover_column. change (set_right (left_of (set_left (right_of m c) (left_of m c) m) c) (right_of (set_left (right_of m c) (left_of m c) m) c) (set_left (right_of m c) (left_of m c) m)) with (hdr_out c m). rewrite E1. unfold down_of at 2. rewrite S1.
    apply (loop_forward down_of c (V c) hide_row show_row (fun m0 => ring (MD m0) (MU m0) c (V c)) ND HN (V c) [] m1 m' (many m1) A eq_refl). now apply fits_length.
  - unfold uncover_column. unfold up_of at 2. rewrite S2.
    rewrite (loop_backward up_of c (V c) hide_row show_row (fun m0 => ring (MD m0) (MU m0) c (V c)) ND HQ (V c) [] m1 m'); auto; [|now rewrite app_nil_r|].
    + change (set_right (left_of (set_left (right_of m1 c) c m1) c) c (set_left (right_of m1 c) c m1)) with (hdr_in c m1). now rewrite E2.
    + apply fits_length. unfold fits in *. rewrite F3. exact FT.
Qed.

(** ** purify *)
Lemma Rep_color m P V a v : Rep m P V -> Rep (set_color a v m) P V.
Proof.
  intros [A B C D E F G H I J]. split; auto. unfold same_size, set_color in *. cbn [ML MR MU MD MC MW MK MZ]. now rewrite !set_nth_length.
Qed.
Lemma frame_color m a v : frame m (set_color a v m). Proof. unfold frame, set_color. auto. Qed.
Section Purify.
Context (P : list nat) (c p : nat) (x : Z) (K0 : nat -> Z) (V : nat -> list nat).
Context (Kc : isc c) (Hx : (0 < x)%Z) (Np : ~ In p (V c)) (Hpos : forall i, In i (V c) -> (0 <= K0 i)%Z) (NV : NoDup (V c)).
Context (HV : forall d y, isc d -> In y (V d) -> node y /\ ncol y = d).
Definition bad (i : nat) : bool := negb (K0 i =? x)%Z.
Context (J : forall i j, In i (V c) -> bad i = true -> In j (rest i) -> In j (V (ncol j))).
Definition tint (pre : list nat) (y : nat) : Z := if mb y pre && (K0 y =? x)%Z then (-1)%Z else K0 y.
Lemma out_same l : incl l (V c) -> out_of l V c = V c.
Proof.
  intros I. apply filter_all. intros y Y. apply negb_true_iff, not_true_iff_false. intros X. apply existsb_exists in X as (i & A & B). apply mb_in in B.
  destruct (HV c i Kc (I i A)) as [C D], (HV c y Kc Y) as [C' D']. apply (rest_other i y C B). congruence.
Qed.
Lemma purify_rows : forall post pre m, V c = pre ++ post -> Rep m P (out_of (filter bad pre) V) -> (forall y, rdz (MK m) y = tint pre y) ->
  exists m', Rep m' P (out_of (filter bad (V c)) V) /\ frame m m' /\ (forall y, rdz (MK m') y = tint (V c) y) /\
    acts (purify_one p x) (unpurify_one p x) (fun m => ring (MD m) (MU m) c (V c)) post m m'.
Proof.
  induction post as [|i post IH]; intros pre m E R T.
  - rewrite app_nil_r in E. rewrite <- E in R, T. exists m. split; [exact R|]. split; [apply frame_refl|]. split; [exact T|]. constructor.
    assert (X := p_vert _ _ _ R c Kc). rewrite out_same in X; [exact X|]. apply filter_incl.
  - assert (Ii : In i (V c)) by (rewrite E; apply in_app_iff; right; now left). destruct (HV c i Kc Ii) as [Ni Ei].
    assert (IP : incl (filter bad pre) (V c)) by (intros y Y; apply filter_In in Y as [Y _]; rewrite E; apply in_app_iff; now left).
    assert (Npre : ~ In i pre) by (rewrite E in NV; apply NoDup_remove_2 in NV; intros X; apply NV, in_app_iff; now left).
    assert (Nip : i <> p) by (intros ->; contradiction).
    assert (Ci : color m i = K0 i).
    { unfold color. rewrite T. unfold tint. destruct (mb i pre) eqn:M; [apply mb_in in M; contradiction|reflexivity]. }
    assert (RG : ring (MD m) (MU m) c (V c)) by (assert (X := p_vert _ _ _ R c Kc); rewrite out_same in X by exact IP; exact X).
    assert (E' : V c = (pre ++ [i]) ++ post) by (now rewrite <- app_assoc).
    destruct (bad i) eqn:B.
    + assert (Q : forall j, In j (rest i) -> In j (out_of (filter bad pre) V (ncol j))).
      { intros j Hj. apply out_of_in. split; [now apply J with i|]. intros i' I'. assert (I2 := IP _ I'). destruct (HV c i' Kc I2) as [Ni' Ei'].
        apply (rest_disjoint i i'); auto; [congruence|]. intros <-. apply filter_In in I'. tauto. }
      destruct (hide_row_ok m P _ i R Ni Q) as (m1 & R1 & F1 & K1 & _ & _ & A1 & A2).
      destruct (IH (pre ++ [i]) m1 E') as (m' & R' & F' & T' & A).
      { rewrite filter_app. cbn. rewrite B. eapply Rep_ext; [exact R1|]. intros d _. apply out_of_snoc. }
      { intros y. rewrite K1, T. unfold tint. unfold mb. rewrite existsb_app. cbn. rewrite orb_false_r. destruct (Nat.eqb_spec y i) as [-> |]; [|now rewrite orb_false_r].
        apply negb_true_iff in B. rewrite B, !andb_false_r. reflexivity. }
      exists m'. split; [exact R'|]. split; [eapply frame_trans; eauto|]. split; [exact T'|]. apply acts_cons with m1; auto.
      * unfold purify_one. rewrite Ci. fold (bad i). rewrite B. exact A1.
      * unfold unpurify_one, color. rewrite K1. fold (color m i). rewrite Ci. specialize (Hpos i Ii). destruct (Z.ltb_spec (K0 i) 0); [lia|]. destruct (Nat.eqb_spec i p); [contradiction|]. exact A2.
    + assert (LK : i < length (MK m)) by (destruct (p_size _ _ _ R) as (_ & _ & _ & _ & _ & -> & _); apply (p_low _ _ _ R); now left).
      assert (Bx : K0 i = x) by (unfold bad in B; apply negb_false_iff, Z.eqb_eq in B; exact B).
      destruct (IH (pre ++ [i]) (set_color i (-1)%Z m) E') as (m' & R' & F' & T' & A).
      { rewrite filter_app. cbn. rewrite B, app_nil_r. now apply Rep_color. }
      { intros y. unfold set_color. cbn [MK]. unfold tint, mb. rewrite existsb_app. cbn. rewrite orb_false_r. destruct (Nat.eqb_spec y i) as [-> |Ny].
        - rewrite rdz_same by exact LK. rewrite orb_true_r. cbn. rewrite Bx, Z.eqb_refl. reflexivity.
        - rewrite orb_false_r, rdz_other by auto. rewrite T. reflexivity. }
      exists m'. split; [exact R'|]. split; [eapply frame_trans; [apply frame_color|exact F']|]. split; [exact T'|]. apply acts_cons with (set_color i (-1)%Z m); auto.
      * unfold purify_one. rewrite Ci. fold (bad i). rewrite B. destruct (Nat.eqb_spec i p); [contradiction|]. reflexivity.
      * unfold unpurify_one, color. unfold set_color at 1. cbn [MK]. rewrite rdz_same by exact LK. cbn [Z.ltb Z.compare]. unfold set_color. cbn [ML MR MU MD MC MW MK MZ ncols]. rewrite set_backz; [now rewrite mem_eta|]. fold (color m i). now rewrite Ci.
Qed.
End Purify.
Lemma purify_ok m P V p : Rep m P V -> node p -> (0 < color m p)%Z -> ~ In p (V (ncol p)) ->
  (forall i, In i (V (ncol p)) -> (0 <= color m i)%Z) -> color m (ncol p) = 0%Z ->
  (forall i j, In i (V (ncol p)) -> color m i <> color m p -> In j (rest i) -> In j (V (ncol j))) ->
  exists m', purify p m = Some m' /\ unpurify p m' = Some m /\ Rep m' P (out_of (filter (bad (color m p) (color m)) (V (ncol p))) V) /\
    (forall y, color m' y = if mb y (V (ncol p)) && (color m y =? color m p)%Z then (-1)%Z else if y =? ncol p then color m p else color m y) /\
    MC m' = MC m /\ MW m' = MW m /\ ncols m' = ncols m.
Proof.
  intros R N Hx Np Hpos H1 J. set (c := ncol p) in *. set (x := color m p) in *. assert (Kc : isc c) by (apply Hcn; exact N).
  assert (VR := p_vert _ _ _ R c Kc). assert (ND := r_nodup _ _ _ _ VR). assert (NV : NoDup (V c)) by (apply NoDup_cons_iff in ND; tauto).
  assert (Nc : ~ In c (V c)) by (apply NoDup_cons_iff in ND; tauto).
  assert (Lc : c < length (MK m)) by (destruct (p_size _ _ _ R) as (_ & _ & _ & _ & _ & -> & _); apply (p_low _ _ _ R); now right).
  assert (Npc : p <> c) by (intros E; apply (Hdis p N); rewrite E; exact Kc).
  set (m1 := set_color c x m). assert (R1 : Rep m1 P V) by (now apply Rep_color).
  set (K0 := color m1). assert (K0o : forall y, y <> c -> K0 y = color m y).
  { intros y Y. unfold K0, color, m1, set_color. cbn [MK]. apply rdz_other. auto. }
  assert (K0c : K0 c = x) by (unfold K0, color, m1, set_color; cbn [MK]; now apply rdz_same).
  assert (NcV : forall i, In i (V c) -> i <> c) by (intros i Y ->; contradiction).
  destruct (purify_rows P c p x K0 V Kc Np) with (post := V c) (pre := @nil nat) (m := m1) as (m' & R' & F & T & A); auto.
  { intros i Y. rewrite K0o; auto. }
  { intros d y Kd Y. exact (p_V _ _ _ R d y Kd Y). }
  { intros i j Y B. apply J; auto. unfold bad in B. apply negb_true_iff, Z.eqb_neq in B. rewrite <- (K0o i); auto. }
  { eapply Rep_ext; [exact R1|]. intros d _. apply filter_all. reflexivity. }
  assert (C' : rd (MC m') p = c) by (apply (p_col _ _ _ R' p N)).
  assert (X' : color m' p = x).
  { unfold color. rewrite T. unfold tint. destruct (mb p (V c)) eqn:M; [apply mb_in in M; contradiction|]. exact (K0o p Npc). }
  assert (VR' : ring (MD m') (MU m') c (V c)) by (apply (acts_last _ _ _ _ _ _ A)).
  assert (FT : fits m1 (V c)).
  { split; [exact NV|]. intros y Y. apply (p_low _ _ _ R1). left. apply (p_V _ _ _ R1 c y Kc Y). }
  assert (HN : forall m0, ring (MD m0) (MU m0) c (V c) -> forall l1 x l2, V c = l1 ++ x :: l2 -> down_of m0 x = hd c l2) by (intros m0 Y l1 y l2 Z; apply (ring_steps _ _ _ _ Y l1 y l2 Z)).
  assert (HQ : forall m0, ring (MD m0) (MU m0) c (V c) -> forall l1 x l2, V c = l1 ++ x :: l2 -> up_of m0 x = last l1 c) by (intros m0 Y l1 y l2 Z; apply (ring_steps _ _ _ _ Y l1 y l2 Z)).
  destruct (ring_start _ _ _ _ (p_vert _ _ _ R1 c Kc)) as [S1 _]. destruct (ring_start _ _ _ _ VR') as [_ S2].
  destruct F as (F1 & F2 & F3 & F4 & F5).
  exists m'. split; [|split; [|split; [|split; [|auto]]]].
  - unfold purify. unfold column_of. rewrite (p_col _ _ _ R p N). fold c x m1. unfold down_of at 2. rewrite S1.
    apply (loop_forward down_of c (V c) (purify_one p x) (unpurify_one p x) (fun m0 => ring (MD m0) (MU m0) c (V c)) ND HN (V c) [] m1 m' (many m1) A eq_refl). now apply fits_length.
  - unfold unpurify. unfold column_of. rewrite C', X'. unfold up_of at 2. rewrite S2.
    rewrite (loop_backward up_of c (V c) (purify_one p x) (unpurify_one p x) (fun m0 => ring (MD m0) (MU m0) c (V c)) ND HQ (V c) [] m1 m' (many m') A (eq_sym (app_nil_r _))).
    + unfold m1, set_color. cbn [ML MR MU MD MC MW MK MZ ncols]. rewrite set_backz by exact H1. now rewrite mem_eta.
    + apply fits_length. unfold fits in *. rewrite F3. exact FT.
  - assert (EB : filter (bad x (color m)) (V c) = filter (bad x K0) (V c)); [|rewrite EB; exact R'].
    apply filter_ext_in. intros i Y. unfold bad. rewrite K0o; auto.
  - intros y. unfold color at 1. rewrite T. unfold tint. destruct (Nat.eqb_spec y c) as [-> |Ny].
    + destruct (mb c (V c)) eqn:M; [apply mb_in in M; contradiction|]. exact K0c.
    + rewrite !K0o by exact Ny. reflexivity.
Qed.

(** ** what is left to choose from: the rows still allowed, and what has become of each column *)
Context (kol : nat -> Z) (Hkol : forall x, node x -> (0 <= kol x)%Z) (Hprim : forall x, node x -> prim (ncol x) = true -> kol x = 0%Z).
Inductive stat := Open | Gone | Pure (k : Z).
Record Inv (m : mem) (A : nat -> Prop) (st : nat -> stat) (P : list nat) (V : nat -> list nat) : Prop := {
  i_rep : Rep m P V;
  i_P : forall c, isc c -> prim c = true -> (In c P <-> st c = Open);
  i_act : forall x, node x -> A (nrow x) -> In x (V (ncol x)) /\ match st (ncol x) with Open => color m x = kol x | Gone => False | Pure k => kol x = k /\ (0 < k)%Z /\ color m x = (-1)%Z end;
  i_open : forall c, isc c -> st c = Open -> color m c = 0%Z /\ forall x, In x (V c) -> A (nrow x);
  i_row : forall x, node x -> rd (MW m) x = row_addr (ncols m) (nrow x) }.
Lemma Inv_ext m A A' st st' P V : Inv m A st P V -> (forall r, A' r <-> A r) -> (forall c, st' c = st c) -> Inv m A' st' P V.
Proof.
  intros [R IP IA IO IW] E F. split; auto.
  - intros c K X. rewrite F. auto.
  - intros x N X. rewrite F. apply IA; auto. now apply E.
  - intros c K X. rewrite F in X. destruct (IO c K X) as [Y Z]. split; auto. intros x I. apply E. auto.
Qed.
Definition upd (st : nat -> stat) (c : nat) (v : stat) (d : nat) : stat := if d =? c then v else st d.
Lemma upd_same st c v : upd st c v c = v. Proof. unfold upd. now rewrite Nat.eqb_refl. Qed.
Lemma upd_other st c v d : d <> c -> upd st c v d = st d. Proof. unfold upd. destruct (Nat.eqb_spec d c); [contradiction|auto]. Qed.
Lemma remove_in c P (d : nat) : In d (remove Nat.eq_dec c P) <-> In d P /\ d <> c.
Proof using. clear. split; [apply in_remove|]. intros [A B]. now apply in_in_remove. Qed.
Definition kept (m m' : mem) : Prop := MC m' = MC m /\ MW m' = MW m /\ ncols m' = ncols m.
Lemma kept_trans a b c : kept a b -> kept b c -> kept a c. Proof. unfold kept. intuition congruence. Qed.

Lemma cover_step m A st P V c : Inv m A st P V -> isc c -> st c = Open ->
  exists m', cover_column c m = Some m' /\ uncover_column c m' = Some m /\
    Inv m' (fun r => A r /\ forall i, node i -> nrow i = r -> ncol i <> c) (upd st c Gone) (remove Nat.eq_dec c P) (out_of (V c) V) /\
    out_of (V c) V c = V c /\ MK m' = MK m /\ kept m m'.
Proof.
  intros I K E. destruct I as [R IP IA IO IW]. destruct (IO c K E) as [HC HA].
  assert (J : forall i j, In i (V c) -> In j (rest i) -> In j (V (ncol j))).
  { intros i j X Y. destruct (p_V _ _ _ R c i K X) as [Ni Ei]. apply (Hrest i Ni) in Y as (Nj & Rj & _). apply IA; auto. rewrite Rj. auto. }
  destruct (cover_ok m P V c R K) as (m' & A1 & A2 & R' & KK & CC & WW & NN); auto; [intros X; apply IP; auto|].
  exists m'. split; [exact A1|]. split; [exact A2|]. split; [|split; [eapply out_of_own; eauto; apply incl_refl|split; [exact KK|unfold kept; auto]]].
  split; auto.
  - intros d Kd X. rewrite remove_in, (IP d Kd X). unfold upd. destruct (Nat.eqb_spec d c); intuition congruence.
  - intros x N [X Y]. assert (Yx := Y x N eq_refl). rewrite upd_other by exact Yx. destruct (IA x N X) as [Z W]. split; [|unfold color in *; rewrite KK; exact W].
    apply out_of_in. split; [exact Z|]. intros i Ii Xi. destruct (p_V _ _ _ R c i K Ii) as [Ni Ei]. apply (Hrest i Ni) in Xi as (_ & Rx & _).
    exact (Y i Ni (eq_sym Rx) Ei).
  - intros d Kd X. destruct (Nat.eq_dec d c) as [-> |Nd]; [rewrite upd_same in X; discriminate|]. rewrite upd_other in X by exact Nd. destruct (IO d Kd X) as [Y Z]. split; [unfold color in *; now rewrite KK|].
    intros x Ix. apply out_of_in in Ix as [Ix Jx]. split; [auto|]. intros i Ni Ri Ei. destruct (p_V _ _ _ R d x Kd Ix) as [Nx Ex].
    assert (Ii : In i (V c)) by (rewrite <- Ei; apply IA; auto; rewrite Ri; auto). apply (Jx i Ii). apply (Hrest i Ni). split; [exact Nx|]. split; [auto|]. intros ->. congruence.
  - intros x N. rewrite WW, NN. auto.
Qed.

(** a row agrees with a node if its own node in that column, if any, has the same colour, not 0 *)
Definition agree (j r : nat) : Prop := forall i, node i -> nrow i = r -> ncol i = ncol j -> kol i = kol j /\ (0 < kol j)%Z.
Definition ready (m : mem) (st : nat -> stat) (j : nat) : Prop :=
  (st (ncol j) = Open /\ color m j = kol j) \/ (st (ncol j) = Pure (kol j) /\ (0 < kol j)%Z /\ color m j = (-1)%Z).
Lemma step_ok m A st P V j : Inv m A st P V -> node j -> ~ A (nrow j) -> ready m st j ->
  exists m' V', do_one j m = Some m' /\ undo_one j m' = Some m /\
    Inv m' (fun r => A r /\ agree j r) (upd st (ncol j) (if (kol j =? 0)%Z then Gone else Pure (kol j))) (remove Nat.eq_dec (ncol j) P) V' /\
    (forall y, node y -> ncol y <> ncol j -> color m' y = color m y) /\ kept m m'.
Proof.
  intros I N NA [[S C]|(S & Kp & C)]; assert (Kc := Hcn j N); assert (Hk := Hkol j N).
  - destruct (Z.eqb_spec (kol j) 0) as [Kz|Kz].
    + destruct (cover_step m A st P V (ncol j) I Kc S) as (m' & A1 & A2 & I' & _ & KK & KP). exists m', (out_of (V (ncol j)) V).
      assert (CO := p_col _ _ _ (i_rep _ _ _ _ _ I) j N). assert (CO' := p_col _ _ _ (i_rep _ _ _ _ _ I') j N).
      split; [unfold do_one, column_of; now rewrite C, Kz, Z.eqb_refl, CO|]. split; [unfold undo_one, column_of, color; rewrite KK; fold (color m j); now rewrite C, Kz, Z.eqb_refl, CO'|].
      split; [|split; [intros y _ _; unfold color; now rewrite KK|exact KP]].
      eapply Inv_ext; [exact I'| |reflexivity]. intros r. cbn beta. unfold agree. split; intros [X Y]; (split; [exact X|]); intros i Ni Ri.
      * intros Ei. specialize (Y i Ni Ri Ei). lia.
      * intros Ei. exfalso. exact (Y i Ni Ri Ei).
    + assert (Kp : (0 < kol j)%Z) by lia. destruct I as [R IP IA IO IW]. destruct (IO _ Kc S) as [HC HA].
      assert (Nj : ~ In j (V (ncol j))) by (intros X; apply NA, HA; exact X).
      assert (CV : forall i, In i (V (ncol j)) -> color m i = kol i).
      { intros i Ii. destruct (p_V _ _ _ R _ i Kc Ii) as [Ni Ei]. destruct (IA i Ni (HA i Ii)) as [_ X]. rewrite Ei, S in X. exact X. }
      assert (NP : ~ In (ncol j) P) by (intros X; destruct (p_P _ _ _ R _ X) as [_ Y]; apply Kz, Hprim; auto).
      destruct (purify_ok m P V j R N) as (m' & A1 & A2 & R' & KK & CC & WW & NN); auto.
      { rewrite C. exact Kp. }
      { intros i Ii. rewrite CV by exact Ii. apply Hkol. apply (p_V _ _ _ R _ i Kc Ii). }
      { intros i k Ii _ Yk. destruct (p_V _ _ _ R _ i Kc Ii) as [Ni Ei]. apply (Hrest i Ni) in Yk as (Nk & Rk & _). apply IA; auto. rewrite Rk. auto. }
      exists m', (out_of (filter (bad (color m j) (color m)) (V (ncol j))) V). rewrite C in *.
      assert (Cj : color m' j = kol j).
      { rewrite KK. destruct (mb j (V (ncol j))) eqn:M; [apply mb_in in M; contradiction|]. cbn [andb]. destruct (Nat.eqb_spec j (ncol j)) as [E|_]; [exfalso; apply (Hdis j N); rewrite E; exact Kc|exact C]. }
      assert (BAD : forall i, In i (V (ncol j)) -> (bad (kol j) (color m) i = true <-> kol i <> kol j)).
      { intros i Ii. unfold bad. rewrite CV by exact Ii. rewrite negb_true_iff, Z.eqb_neq. tauto. }
      split; [unfold do_one; rewrite C; destruct (Z.eqb_spec (kol j) 0); [lia|]; destruct (Z.ltb_spec 0 (kol j)); [exact A1|lia]|].
      split; [unfold undo_one; rewrite Cj; destruct (Z.eqb_spec (kol j) 0); [lia|]; destruct (Z.ltb_spec 0 (kol j)); [exact A2|lia]|].
      assert (CO : forall y, node y -> ncol y <> ncol j -> color m' y = color m y).
      { intros y Ny Ey. rewrite KK. destruct (mb y (V (ncol j))) eqn:M; [apply mb_in in M; destruct (p_V _ _ _ R _ y Kc M); contradiction|]. cbn [andb]. destruct (Nat.eqb_spec y (ncol j)) as [E|_]; [exfalso; apply (Hdis y Ny); rewrite E; exact Kc|reflexivity]. }
      split; [|split; [exact CO|unfold kept; auto]].
      rewrite notin_remove by exact NP. split; auto.
      * intros d Kd X. rewrite (IP d Kd X). unfold upd. destruct (Nat.eqb_spec d (ncol j)) as [-> |]; [|tauto]. split; [|discriminate]. intros _. exfalso. apply Kz. auto.
      * intros x Nx [X Y]. destruct (IA x Nx X) as [Z W]. split.
        -- apply out_of_in. split; [exact Z|]. intros i Ii Xi. apply filter_In in Ii as [Ii Bi]. apply BAD in Bi; [|exact Ii]. destruct (p_V _ _ _ R _ i Kc Ii) as [Ni Ei]. apply (Hrest i Ni) in Xi as (_ & Rx & _).
           apply Bi. apply (Y i Ni (eq_sym Rx) Ei).
        -- destruct (Nat.eq_dec (ncol x) (ncol j)) as [E|E].
           ++ rewrite E, upd_same. destruct (Y x Nx eq_refl E) as [Y1 _]. split; [exact Y1|]. split; [exact Kp|]. rewrite KK. rewrite E in Z, W. rewrite S in W. rewrite (proj2 (mb_in _ _) Z), W, Y1, Z.eqb_refl. reflexivity.
           ++ rewrite upd_other by exact E. rewrite CO by auto. exact W.
      * intros d Kd X. destruct (Nat.eq_dec d (ncol j)) as [-> |Nd]; [rewrite upd_same in X; discriminate|]. rewrite upd_other in X by exact Nd. destruct (IO d Kd X) as [Y Z]. split.
        -- rewrite KK. destruct (mb d (V (ncol j))) eqn:M; [apply mb_in in M; destruct (p_V _ _ _ R _ d Kc M) as [Q _]; exfalso; exact (Hdis d Q Kd)|]. cbn [andb]. destruct (Nat.eqb_spec d (ncol j)); [contradiction|exact Y].
        -- intros x Ix. apply out_of_in in Ix as [Ix Jx]. split; [auto|]. intros i Ni Ri Ei. split; [|exact Kp]. destruct (p_V _ _ _ R d x Kd Ix) as [Nx Ex].
           assert (Ii : In i (V (ncol j))) by (rewrite <- Ei; apply IA; auto; rewrite Ri; auto). destruct (Z.eq_dec (kol i) (kol j)) as [|B]; [auto|]. exfalso.
           apply (Jx i); [apply filter_In; split; [exact Ii|now apply BAD]|]. apply (Hrest i Ni). split; [exact Nx|]. split; [auto|]. intros ->. congruence.
      * intros x Nx. rewrite WW, NN. auto.
  - exists m, V. unfold do_one, undo_one. rewrite C. cbn [Z.eqb Z.ltb Z.compare]. split; [reflexivity|]. split; [reflexivity|].
    destruct (Z.eqb_spec (kol j) 0); [lia|]. assert (Q : forall r, A r -> agree j r).
    { intros r Ar i Ni Ri Ei. split; [|exact Kp]. destruct (i_act _ _ _ _ _ I i Ni) as [_ X]; [now rewrite Ri|]. rewrite Ei, S in X. tauto. }
    split; [|split; [auto|unfold kept; auto]]. rewrite notin_remove.
    + eapply Inv_ext; [exact I| |].
      * intros r. split; [tauto|]. intros Ar. auto.
      * intros c. unfold upd. destruct (Nat.eqb_spec c (ncol j)) as [-> |]; [congruence|reflexivity].
    + intros X. destruct (p_P _ _ _ (i_rep _ _ _ _ _ I) _ X) as [_ Y]. apply n. auto.
Qed.

(** ** a row is chosen *)
Lemma steps_ok r0 : node r0 -> forall post pre m A st P V, rest r0 = pre ++ post -> Inv m A st P V -> ~ A (nrow r0) -> (forall j, In j post -> ready m st j) ->
  exists m' st' P' V', acts do_one undo_one (fun m => ring (MR m) (ML m) r0 (rest r0)) post m m' /\ Inv m' (fun r => A r /\ forall j, In j post -> agree j r) st' P' V' /\
    (forall c, In c P' <-> In c P /\ forall j, In j post -> ncol j <> c) /\ length P' <= length P /\ kept m m'.
Proof.
  intros N0. induction post as [|j post IH]; intros pre m A st P V E I NA RD.
  - exists m, st, P, V. split; [constructor; apply (i_rep _ _ _ _ _ I); exact N0|]. split; [eapply Inv_ext; [exact I| |reflexivity]; intros r; cbn; intuition|]. split; [intros c; cbn; intuition|]. split; [lia|unfold kept; auto].
  - assert (Ij : In j (rest r0)) by (rewrite E; apply in_app_iff; right; now left). assert (X := Ij). apply (Hrest r0 N0) in X as (Nj & Rj & Dj).
    assert (NDr : NoDup (rest r0)) by (assert (X := r_nodup _ _ _ _ (p_row _ _ _ (i_rep _ _ _ _ _ I) r0 N0)); apply NoDup_cons_iff in X; tauto).
    destruct (step_ok m A st P V j I Nj) as (m1 & V1 & A1 & A2 & I1 & C1 & K1); [now rewrite Rj|apply RD; now left|].
    destruct (fun E0 => IH (pre ++ [j]) m1 _ _ _ V1 E0 I1) as (m' & st' & P' & V' & AC & I' & HP & HL & K').
    + now rewrite <- app_assoc.
    + tauto.
    + intros k Hk. assert (Ik : In k (rest r0)) by (rewrite E; apply in_app_iff; right; now right). apply (Hrest r0 N0) in Ik as (Nk & Rk & Dk).
      assert (Nkj : ncol k <> ncol j).
      { intros X. assert (k = j) by (apply Huniq; auto; congruence). subst k. rewrite E in NDr. apply NoDup_remove_2 in NDr. apply NDr, in_app_iff. auto. }
      assert (RK := RD k (or_intror Hk)). unfold ready in *. rewrite upd_other by exact Nkj. rewrite C1 by auto. exact RK.
    + exists m', st', P', V'. split; [apply acts_cons with m1; auto; apply (i_rep _ _ _ _ _ I); exact N0|]. split; [|split; [|split]].
      * eapply Inv_ext; [exact I'| |reflexivity]. intros r. cbn beta. split.
        -- intros [X Y]. split; [split; [exact X|apply Y; now left]|]. intros k Hk. apply Y. now right.
        -- intros [[X Y] Z]. split; [exact X|]. intros k [<- |Hk]; auto.
      * intros c. rewrite HP, remove_in. split.
        -- intros [[X Y] Z]. split; [exact X|]. intros k [<- |Hk]; auto.
        -- intros [X Y]. split; [split; [exact X|]|]; [intros ->; apply (Y j); [now left|reflexivity]|]. intros k Hk. apply Y. now right.
      * assert (X := remove_length_le Nat.eq_dec P (ncol j)). lia.
      * eapply kept_trans; eauto.
Qed.
(** two rows can be chosen together *)
Definition compat (r r' : nat) : Prop := forall x i, node x -> nrow x = r -> node i -> nrow i = r' -> ncol i = ncol x -> kol i = kol x /\ (0 < kol x)%Z.

Lemma choose_ok m A st P V c : Inv m A st P V -> In c P ->
  exists m1, cover_column c m = Some m1 /\ uncover_column c m1 = Some m /\ ring (MD m1) (MU m1) c (V c) /\ kept m m1 /\ length (V c) < many m1 /\
    (forall x, In x (V c) <-> node x /\ ncol x = c /\ A (nrow x)) /\
    forall r0, In r0 (V c) -> exists m2 st' P' V', do_row r0 m1 = Some m2 /\ undo_row r0 m2 = Some m1 /\ rd (MC m2) r0 = c /\
      Inv m2 (fun r => A r /\ compat (nrow r0) r) st' P' V' /\
      (forall d, In d P' <-> In d P /\ forall x, node x -> nrow x = nrow r0 -> ncol x <> d) /\ length P' < length P /\ kept m m2.
Proof.
  intros I Ic. destruct (p_P _ _ _ (i_rep _ _ _ _ _ I) c Ic) as [Kc Pc]. assert (S : st c = Open) by (apply (i_P _ _ _ _ _ I); auto).
  destruct (cover_step m A st P V c I Kc S) as (m1 & A1 & A2 & I1 & OV & KK & KP). assert (R := i_rep _ _ _ _ _ I). assert (R1 := i_rep _ _ _ _ _ I1).
  assert (RV := p_vert _ _ _ R1 c Kc). rewrite OV in RV. destruct (i_open _ _ _ _ _ I c Kc S) as [_ HO].
  exists m1. split; [exact A1|]. split; [exact A2|]. split; [exact RV|]. split; [exact KP|]. split; [|split].
  - apply fits_length. split; [assert (X := r_nodup _ _ _ _ RV); apply NoDup_cons_iff in X; tauto|]. intros x X. apply (p_low _ _ _ R1). left. apply (p_V _ _ _ R c x Kc X).
  - intros x. split; [intros X; destruct (p_V _ _ _ R c x Kc X); auto|]. intros (X & <- & Z). apply (i_act _ _ _ _ _ I); auto.
  - intros r0 Ir. destruct (p_V _ _ _ R c r0 Kc Ir) as [N0 E0]. assert (AR := HO r0 Ir).
    destruct (steps_ok r0 N0 (rest r0) [] m1 _ _ _ _ eq_refl I1) as (m2 & st' & P' & V' & AC & I' & HP & HL & K').
    { intros [_ X]. exact (X r0 N0 eq_refl E0). }
    { intros j Ij. assert (Nc := rest_other r0 j N0 Ij). apply (Hrest r0 N0) in Ij as (Nj & Rj & Dj). destruct (i_act _ _ _ _ _ I j Nj) as [_ X]; [now rewrite Rj|].
      unfold ready. rewrite upd_other by congruence. unfold color. rewrite KK. fold (color m j). destruct (st (ncol j)) as [| |k]; [now left|contradiction|right]. destruct X as (X & Y & Z). subst k. auto. }
    exists m2, st', P', V'. assert (RR := p_row _ _ _ R1 r0 N0). assert (RR' := p_row _ _ _ (i_rep _ _ _ _ _ I') r0 N0).
    assert (FT : fits m1 (rest r0)).
    { split; [assert (X := r_nodup _ _ _ _ RR); apply NoDup_cons_iff in X; tauto|]. intros x X. apply (p_low _ _ _ R1). left. apply (Hrest r0 N0 x) in X. tauto. }
    assert (HN : forall m0, ring (MR m0) (ML m0) r0 (rest r0) -> forall l1 x l2, rest r0 = l1 ++ x :: l2 -> right_of m0 x = hd r0 l2) by (intros m0 X l1 x l2 Y; apply (ring_steps _ _ _ _ X l1 x l2 Y)).
    assert (HQ : forall m0, ring (MR m0) (ML m0) r0 (rest r0) -> forall l1 x l2, rest r0 = l1 ++ x :: l2 -> left_of m0 x = last l1 r0) by (intros m0 X l1 x l2 Y; apply (ring_steps _ _ _ _ X l1 x l2 Y)).
    destruct (ring_start _ _ _ _ RR) as [S1 _]. destruct (ring_start _ _ _ _ RR') as [_ S2].
    split; [|split; [|split; [|split; [|split; [|split]]]]].
    + unfold do_row, right_of at 2. rewrite S1. apply (loop_forward right_of r0 (rest r0) do_one undo_one (fun m => ring (MR m) (ML m) r0 (rest r0)) (r_nodup _ _ _ _ RR) HN (rest r0) [] m1 m2 (many m1) AC eq_refl). now apply fits_length.
    + unfold undo_row, left_of at 2. rewrite S2. apply (loop_backward left_of r0 (rest r0) do_one undo_one (fun m => ring (MR m) (ML m) r0 (rest r0)) (r_nodup _ _ _ _ RR) HQ (rest r0) [] m1 m2 (many m2) AC (eq_sym (app_nil_r _))).
      apply fits_length. unfold fits in *. destruct K' as (-> & _). exact FT.
    + rewrite (p_col _ _ _ (i_rep _ _ _ _ _ I') r0 N0). exact E0.
    + eapply Inv_ext; [exact I'| |reflexivity]. intros r. cbn beta. split.
      * intros [X Y]. split; [split; [exact X|]|].
        -- intros i Ni Ri Ei. destruct (Y r0 i N0 eq_refl Ni Ri) as [_ Z]; [congruence|]. rewrite (Hprim r0 N0) in Z by congruence. lia.
        -- intros j Ij i Ni Ri Ei. apply (Hrest r0 N0) in Ij as (Nj & Rj & _). apply (Y j i); auto.
      * intros [[X Y] Z]. split; [exact X|]. intros x i Nx Rx Ni Ri Ei. destruct (Nat.eq_dec x r0) as [-> |Nx0]; [exfalso; apply (Y i Ni Ri); congruence|]. apply (Z x); auto. apply (Hrest r0 N0). auto.
    + intros d. rewrite HP, remove_in. split.
      * intros [[X Y] Z]. split; [exact X|]. intros x Nx Rx. destruct (Nat.eq_dec x r0) as [-> |Nx0]; [congruence|]. apply Z. apply (Hrest r0 N0). auto.
      * intros [X Y]. split; [split; [exact X|]|]; [specialize (Y r0 N0 eq_refl); congruence|]. intros j Ij. apply (Hrest r0 N0) in Ij as (Nj & Rj & _). auto.
    + assert (X := remove_length_lt Nat.eq_dec P c Ic). lia.
    + eapply kept_trans; eauto.
Qed.

(** ** the search *)
Definition has_primary (r : nat) : Prop := exists x, node x /\ nrow x = r /\ prim (ncol x) = true.
Definition sol (P : list nat) (A : nat -> Prop) (S : list nat) : Prop :=
  NoDup S /\ (forall r, In r S -> A r /\ has_primary r) /\ (forall r r', In r S -> In r' S -> r <> r' -> compat r r') /\ (forall c, In c P -> exists x, node x /\ ncol x = c /\ In (nrow x) S).
Definition good (P : list nat) (A : nat -> Prop) (sols : list (list nat)) : Prop :=
  (forall S, In S sols -> sol P A S) /\ (forall S, sol P A S -> exists S', In S' sols /\ Permutation S S') /\ ForallOrdPairs (fun a b => ~ Permutation a b) sols.

Lemma good_nil m A st V : Inv m A st [] V -> good [] A [[]].
Proof.
  intros I. split; [|split].
  - intros S [<- |[]]. split; [constructor|]. repeat split; intros; contradiction.
  - intros S (_ & HA & _). exists []. split; [now left|]. destruct S as [|r S]; [constructor|]. exfalso. destruct (HA r (or_introl eq_refl)) as [Ar (x & Nx & Rx & Px)].
    destruct (i_act _ _ _ _ _ I x Nx) as [_ Y]; [now rewrite Rx|]. destruct (st (ncol x)) as [| |k] eqn:E; [|contradiction|].
    + apply (i_P _ _ _ _ _ I) in E; auto.
    + rewrite (Hprim x Nx Px) in Y. lia.
  - repeat constructor.
Qed.
Fixpoint weave (post : list nat) (ss : list (list (list nat))) : list (list nat) :=
  match post, ss with x :: p, s :: q => map (List.cons (nrow x)) s ++ weave p q | _, _ => [] end.
Lemma weave_in post ss S : In S (weave post ss) -> exists x s S', In (x, s) (combine post ss) /\ In S' s /\ S = nrow x :: S'.
Proof.
  revert ss; induction post as [|x post IH]; intros [|s ss]; cbn; try tauto. intros H. apply in_app_iff in H as [H|H].
  - apply in_map_iff in H as (S' & <- & H). exists x, s, S'. auto.
  - destruct (IH ss H) as (y & t & S' & A & B & C). exists y, t, S'. auto.
Qed.
Lemma in_weave post ss x s S : In (x, s) (combine post ss) -> In S s -> In (nrow x :: S) (weave post ss).
Proof.
  revert ss; induction post as [|y post IH]; intros [|t ss]; cbn; try tauto. intros [E|H] K; apply in_app_iff; [left|right; eauto]. inversion E; subst. now apply in_map.
Qed.
Lemma FOP_app {T} (Q : T -> T -> Prop) a b : ForallOrdPairs Q a -> ForallOrdPairs Q b -> (forall x y, In x a -> In y b -> Q x y) -> ForallOrdPairs Q (a ++ b).
Proof using. clear.
  induction 1 as [|x a F H IH]; cbn; intros HB HX; [exact HB|]. constructor; [apply Forall_app; split; [exact F|apply Forall_forall; intros y Hy; apply HX; [now left|exact Hy]]|]. apply IH; [exact HB|]. intros y z Hy Hz. apply HX; [now right|exact Hz].
Qed.
Lemma good_branch P A c Vc ss : In c P -> prim c = true -> NoDup Vc -> (forall x, In x Vc <-> node x /\ ncol x = c /\ A (nrow x)) ->
  Forall2 (fun x s => exists P', good P' (fun r => A r /\ compat (nrow x) r) s /\ forall d, In d P' <-> In d P /\ forall y, node y -> nrow y = nrow x -> ncol y <> d) Vc ss ->
  good P A (weave Vc ss).
Proof.
  intros Ic Pc NV HV F.
  assert (CO : forall x s, In (x, s) (combine Vc ss) -> In x Vc /\ exists P', good P' (fun r => A r /\ compat (nrow x) r) s /\ forall d, In d P' <-> In d P /\ forall y, node y -> nrow y = nrow x -> ncol y <> d).
  { clear - F. induction F; cbn; [tauto|]. intros x0 s0 [E|E]; [inversion E; subst; auto|]. destruct (IHF x0 s0 E). auto. }
  assert (HX : forall x, In x Vc -> exists s, In (x, s) (combine Vc ss)).
  { clear - F. induction F; cbn; [tauto|]. intros x0 [<- |E]; [eauto|]. destruct (IHF x0 E) as (s0 & K). eauto. }
  assert (SELF : forall x, In x Vc -> ~ compat (nrow x) (nrow x)).
  { intros x Ix X. apply HV in Ix as (Nx & Ex & _). destruct (X x x Nx eq_refl Nx eq_refl eq_refl) as [_ Y]. rewrite (Hprim x Nx) in Y by congruence. lia. }
  assert (CL : forall x y, In x Vc -> In y Vc -> ~ compat (nrow x) (nrow y)).
  { intros x y Ix Iy X. apply HV in Ix as (Nx & Ex & _). apply HV in Iy as (Ny & Ey & _). destruct (X x y Nx eq_refl Ny eq_refl) as [_ Y]; [congruence|]. rewrite (Hprim x Nx) in Y by congruence. lia. }
  split; [|split].
  - intros S H. apply weave_in in H as (x & s & S' & HC & HS & ->). destruct (CO x s HC) as [Ix (P' & (G1 & _ & _) & HP)]. destruct (G1 S' HS) as (N & HA & HC' & HK).
    assert (Ix' := Ix). apply HV in Ix' as (Nx & Ex & Ax). split; [|split; [|split]].
    + constructor; [|exact N]. intros X. destruct (HA _ X) as [[_ Y] _]. exact (SELF x Ix Y).
    + intros r [<- |H]; [split; [exact Ax|exists x; rewrite Ex; auto]|]. destruct (HA r H) as [[Y _] Z]. auto.
    + assert (SY : forall r r', compat r r' -> compat r' r).
      { intros r r' X y i Ny Ry Ni Ri Ei. destruct (X i y Ni Ri Ny Ry (eq_sym Ei)) as [X1 X2]. lia. }
      intros r r' [<- |H] [<- |H'] D; [congruence| | |auto].
      * destruct (HA r' H') as [[_ Y] _]. exact Y.
      * destruct (HA r H) as [[_ Y] _]. auto.
    + intros d Hd. destruct (in_dec Nat.eq_dec d P') as [I'|I'].
      * destruct (HK d I') as (y & Ny & Ey & Iy). exists y. split; [exact Ny|]. split; [exact Ey|now right].
      * assert (W : ~ forall y, In y (x :: rest x) -> ncol y <> d).
        { intros W. apply I', HP. split; [exact Hd|]. intros y Ny Ry. apply W. destruct (Nat.eq_dec y x) as [-> |]; [now left|right]. apply (Hrest x Nx). auto. }
        assert (Y : exists y, In y (x :: rest x) /\ ncol y = d).
        { clear - W. induction (x :: rest x) as [|y l IH]; [exfalso; apply W; intros ? []|]. destruct (Nat.eq_dec (ncol y) d) as [E|E]; [exists y; split; [now left|exact E]|]. destruct IH as (z & A & B); [|exists z; split; [now right|exact B]]. intros V. apply W. intros z [<- |Z]; auto. }
        destruct Y as (y & [<- |Iy] & Ey); [exists x; split; [exact Nx|]; split; [exact Ey|now left]|]. apply (Hrest x Nx) in Iy as (Ny & Ry & _). exists y. split; [exact Ny|]. split; [exact Ey|]. left. congruence.
  - intros S (N & HA & HC & HK). destruct (HK c Ic) as (x & Nx & Ex & Ix). assert (Vx : In x Vc) by (apply HV; split; [exact Nx|]; split; [exact Ex|]; apply HA; exact Ix).
    destruct (HX x Vx) as (s & Hs). destruct (CO x s Hs) as [_ (P' & (_ & G2 & _) & HP)]. apply in_split in Ix as (S1 & S2 & ->).
    destruct (G2 (S1 ++ S2)) as (S' & IS & PS).
    + split; [now apply NoDup_remove_1 in N|]. assert (IN : forall r, In r (S1 ++ S2) -> In r (S1 ++ nrow x :: S2)) by (intros r X; apply in_app_iff in X; apply in_app_iff; cbn; tauto).
      split; [|split].
      * intros r X. destruct (HA r (IN r X)) as [Y Z]. split; [split; [exact Y|]|exact Z]. apply HC; [apply in_app_iff; right; now left|auto|]. intros E. subst r. apply NoDup_remove_2 in N. contradiction.
      * intros r r' X X' D. apply HC; auto.
      * intros d Hd. apply HP in Hd as [Hd1 Hd2]. destruct (HK d Hd1) as (y & Ny & Ey & Iy). exists y. split; [exact Ny|]. split; [exact Ey|]. apply in_app_iff in Iy as [Iy|[Iy|Iy]]; [apply in_app_iff; now left| |apply in_app_iff; now right].
        exfalso. apply (Hd2 y Ny (eq_sym Iy)). exact Ey.
    + exists (nrow x :: S'). split; [eapply in_weave; eauto|]. rewrite <- PS. symmetry. apply Permutation_middle.
  - assert (CL2 : forall x y s S T, In x Vc -> In y Vc -> In (x, s) (combine Vc ss) -> nrow x <> nrow y -> In S s -> ~ Permutation (nrow x :: S) (nrow y :: T)).
    { intros x y s S T Ix Iy Hs D HS Q. destruct (CO x s Hs) as [_ (P' & (G1 & _ & _) & _)]. destruct (G1 S HS) as (_ & HA & _). assert (W : In (nrow y) (nrow x :: S)) by (rewrite Q; now left).
      destruct W as [W|W]; [contradiction|]. destruct (HA _ W) as [[_ W2] _]. exact (CL x y Ix Iy W2). }
    assert (ROW : forall x y, In x Vc -> In y Vc -> x <> y -> nrow x <> nrow y).
    { intros x y Ix Iy D E. apply HV in Ix as (Nx & Ex & _). apply HV in Iy as (Ny & Ey & _). apply D, Huniq; congruence. }
    assert (SUB : forall V' s', incl (combine V' s') (combine Vc ss) -> incl V' Vc -> NoDup V' -> length V' = length s' -> ForallOrdPairs (fun a b => ~ Permutation a b) (weave V' s')).
    { induction V' as [|x V' IH]; intros [|s s'] IN IV ND L; cbn in *; try constructor; try discriminate. apply NoDup_cons_iff in ND as [ND1 ND2].
      assert (Hs : In (x, s) (combine Vc ss)) by (apply IN; now left). assert (Ix : In x Vc) by (apply IV; now left).
      apply FOP_app.
      - destruct (CO x s Hs) as [_ (P' & (_ & _ & G3) & _)]. clear - G3. induction G3 as [|a l F G IH]; cbn; constructor; auto. apply Forall_forall. intros b Hb. apply in_map_iff in Hb as (b' & <- & Hb). intros Q. apply Permutation_cons_inv in Q.
        rewrite Forall_forall in F. exact (F b' Hb Q).
      - apply IH; auto; [intros z Z; apply IN; now right|intros z Z; apply IV; now right].
      - intros a b Ha Hb. apply in_map_iff in Ha as (S & <- & HS). apply weave_in in Hb as (y & t & T & Ht & HT & ->). assert (Iy : In y V') by (apply in_combine_l in Ht; exact Ht).
        apply CL2 with (s := s); auto; [apply IV; now right|]. apply ROW; auto; [apply IV; now right|]. intros ->. contradiction. }
    apply SUB; auto; [apply incl_refl|apply incl_refl|]. clear - F. induction F; cbn; congruence.
Qed.

Section Run.
Context (heuristic : mem -> nat) (max : nat).
Context (Hh : forall m P V, Rep m P V -> P <> [] -> In (heuristic m) P).
Definition branch (rec : nat -> ss -> option ss) (k : nat) : nat -> nat -> nat -> ss -> option ss :=
  fix branch (g : nat) (c r : nat) (s : ss) {struct g} : option ss :=
    match g with
    | O => None
    | S g' =>
      if r =? c then match uncover_column c (mm s) with Some m => Some (with_mem m s) | None => None end
      else if length (out s) <=? k then None
      else let s := mk_ss (mm s) (set_nth k r (out s)) (found s) (told s) in
        match do_row r (mm s) with
        | None => None
        | Some m2 =>
          match rec (S k) (with_mem m2 s) with
          | None => None
          | Some s2 =>
            if max <=? found s2 then Some s2
            else let r := nth k (out s2) 0 in let c := column_of (mm s2) r in
              match undo_row r (mm s2) with
              | None => None
              | Some m3 => branch g' c (down_of m3 r) (with_mem m3 s2)
              end
          end
        end
    end.
Lemma do_search_S f k s : do_search heuristic max (S f) k s =
  if right_of (mm s) 0 =? 0 then Some (report k s)
  else match cover_column (heuristic (mm s)) (mm s) with
       | None => None
       | Some m1 => branch (do_search heuristic max f) k (many m1) (heuristic (mm s)) (down_of m1 (heuristic (mm s))) (with_mem m1 s)
       end.
Proof. reflexivity. Qed.

Definition prefix (m : mem) (k : nat) (s : ss) : list nat := map (row_index_of m) (firstn k (out s)).
(** [s'] is [s] after the first [max - found] of the solutions have been reported, each after the rows already chosen *)
Definition after (m : mem) (k : nat) (s s' : ss) (sols : list (list nat)) : Prop :=
  found s' = found s + Nat.min (length sols) (max - found s) /\
  told s' = told s ++ flat_map (fun S => tag (prefix m k s ++ S)) (firstn (max - found s) sols) /\
  length (out s') = length (out s) /\ firstn k (out s') = firstn k (out s) /\ (found s' < max -> mm s' = m).
Lemma map_tag f : forall k (l : list nat), k <= length l -> map (fun i => (f (nth i l 0), S i =? k)) (seq 0 k) = tag (map f (firstn k l)).
Proof using.
  clear. intros k l. revert k. induction l as [|x l IH]; intros [|k] L; cbn in L; try reflexivity; [lia|].
  cbn [seq map firstn]. rewrite <- seq_shift, map_map. cbn [nth]. specialize (IH k ltac:(lia)). cbn [tag]. destruct k as [|k]; [reflexivity|]. destruct l as [|y l]; [cbn in L; lia|].
  change (S 0 =? S (S k)) with false. cbn [firstn map] in IH |- *. rewrite <- IH. reflexivity.
Qed.
Lemma kept_index m m' a : kept m m' -> row_index_of m' a = row_index_of m a.
Proof. intros (_ & B & C). unfold row_index_of. now rewrite B, C. Qed.
Lemma kept_prefix m m' k s : kept m m' -> prefix m' k s = prefix m k s.
Proof. intros K. apply map_ext. intros a. now apply kept_index. Qed.

Definition goes (fuel : nat) (m : mem) (P : list nat) (sols : list (list nat)) : Prop :=
  forall k s, mm s = m -> k + length P <= length (out s) -> found s < max -> exists s', do_search heuristic max fuel k s = Some s' /\ after m k s s' sols.
Lemma firstn_set k (x : nat) : forall l, k < length l -> firstn (S k) (set_nth k x l) = firstn k l ++ [x].
Proof using. clear. induction k as [|k IH]; intros [|y l] L; cbn in L; try lia; [reflexivity|]. cbn [set_nth]. rewrite firstn_cons, IH by lia. reflexivity. Qed.
Lemma firstn_set_pre k (x : nat) : forall l, firstn k (set_nth k x l) = firstn k l.
Proof using. clear. induction k as [|k IH]; intros [|y l]; try reflexivity. cbn [set_nth]. now rewrite !firstn_cons, IH. Qed.
Lemma firstn_weaker {T} k (l l' : list T) : firstn (S k) l = firstn (S k) l' -> firstn k l = firstn k l'.
Proof using. clear. intros H. assert (E : forall l : list T, firstn k l = firstn k (firstn (S k) l)) by (intros; rewrite firstn_firstn; f_equal; lia). rewrite (E l), (E l'), H. reflexivity. Qed.
Lemma nth_from_firstn k (l l' : list nat) : k < length l' -> firstn (S k) l = firstn (S k) l' -> nth k l 0 = nth k l' 0.
Proof using.
  clear. revert l l'. induction k as [|k IH]; intros l l' L E.
  - destruct l as [|y l], l' as [|z l']; cbn in *; try discriminate; try lia. congruence.
  - destruct l as [|y l], l' as [|z l']; rewrite ?firstn_cons in E; cbn in L; try discriminate; try lia. cbn [nth]. inversion E. apply IH; auto. lia.
Qed.
Lemma flat_map_prefix (p : list nat) x l : flat_map (fun S => tag (p ++ S)) (map (List.cons x) l) = flat_map (fun S => tag ((p ++ [x]) ++ S)) l.
Proof using. clear. induction l as [|S l IH]; cbn; [reflexivity|]. rewrite IH, <- app_assoc. reflexivity. Qed.

Lemma branch_ok f k m m1 c (P Vc : list nat) : uncover_column c m1 = Some m -> kept m m1 -> ring (MD m1) (MU m1) c Vc -> (forall x, In x Vc -> node x /\ row_index_of m1 x = nrow x) ->
  forall post ss, Forall2 (fun x sols => exists m2 P', do_row x m1 = Some m2 /\ undo_row x m2 = Some m1 /\ rd (MC m2) x = c /\ kept m m2 /\ length P' < length P /\ goes f m2 P' sols) post ss ->
  forall pre g s, Vc = pre ++ post -> length post < g -> mm s = m1 -> k + length P <= length (out s) -> 0 < length P -> found s < max ->
  exists s', branch (do_search heuristic max f) k g c (hd c post) s = Some s' /\ after m k s s' (weave post ss).
Proof.
  intros UN KP RV HV. induction 1 as [|x sols post ss (m2 & P' & D1 & D2 & CC & KP2 & LP & GO) F IH]; intros pre g s E G M1 L LP0 FM; (destruct g as [|g]; [cbn in G; lia|]).
  - cbn [branch hd]. rewrite Nat.eqb_refl, M1, UN. eexists. split; [reflexivity|]. unfold after, with_mem. cbn [mm out found told weave length]. rewrite firstn_nil. cbn [flat_map]. rewrite app_nil_r. repeat split; auto.
  - assert (Ix : In x Vc) by (rewrite E; apply in_app_iff; right; now left). destruct (HV x Ix) as [Nx Rx].
    cbn [branch hd]. assert (Nxc : x <> c) by (intros ->; assert (X := r_nodup _ _ _ _ RV); apply NoDup_cons_iff in X; tauto). destruct (Nat.eqb_spec x c); [contradiction|].
    destruct (Nat.leb_spec (length (out s)) k); [lia|]. cbn [mm out found told]. rewrite M1, D1.
    destruct (GO (S k) (with_mem m2 (mk_ss m1 (set_nth k x (out s)) (found s) (told s)))) as (s2 & E2 & A1 & A2 & A3 & A4 & A5); [reflexivity|cbn [with_mem out]; rewrite set_nth_length; lia|exact FM|].
    rewrite E2. unfold with_mem in A1, A2, A3, A4, A5. cbn [mm out found told] in A1, A2, A3, A4, A5. rewrite set_nth_length in A3.
    assert (PX : prefix m2 (S k) (mk_ss m2 (set_nth k x (out s)) (found s) (told s)) = prefix m k s ++ [nrow x]).
    { rewrite (kept_prefix m m2) by exact KP2. unfold prefix. cbn [out]. rewrite firstn_set by lia. rewrite map_app. cbn [map]. rewrite <- Rx. rewrite (kept_index m m1) by exact KP. reflexivity. }
    unfold with_mem in A2. cbn [mm out found told] in A2. rewrite PX in A2.
    assert (W4 : firstn k (out s2) = firstn k (out s)) by (apply firstn_weaker in A4; rewrite A4; apply firstn_set_pre).
    cbn [weave]. destruct (Nat.leb_spec max (found s2)) as [Q|Q].
    + exists s2. split; [reflexivity|]. assert (LS : max - found s <= length sols) by lia. unfold after. rewrite app_length, map_length. split; [lia|]. split; [|split; [exact A3|split; [exact W4|lia]]].
      rewrite A2. f_equal. rewrite firstn_app, map_length. replace (max - found s - length sols) with 0 by lia. cbn [firstn]. rewrite app_nil_r, firstn_map. symmetry. apply flat_map_prefix.
    + assert (LS : length sols < max - found s) by lia. specialize (A5 Q).
      assert (NT : nth k (out s2) 0 = x).
      { rewrite (nth_from_firstn k (out s2) (set_nth k x (out s))); [apply nth_set_same; lia|rewrite set_nth_length; lia|exact A4]. }
      rewrite NT, A5. unfold column_of. rewrite CC, D2.
      assert (DN : down_of m1 x = hd c post) by (apply (ring_steps _ _ _ _ RV pre x post E)). rewrite DN.
      destruct (IH (pre ++ [x]) g (with_mem m1 s2)) as (s' & E3 & B1 & B2 & B3 & B4 & B5); auto.
      { now rewrite <- app_assoc. }
      { cbn in G. lia. }
      { unfold with_mem. cbn [out]. lia. }
      exists s'. split; [exact E3|]. unfold with_mem in B1, B2, B3, B4, B5. cbn [mm out found told] in B1, B2, B3, B4, B5. unfold after. rewrite app_length, map_length.
      rewrite Nat.min_l in A1 by lia. split; [lia|]. split; [|split; [lia|split; [congruence|exact B5]]].
      rewrite B2, A2, <- app_assoc. f_equal. rewrite firstn_app, map_length. rewrite (firstn_all2 (n := max - found s) sols) by lia. rewrite (firstn_all2 (n := max - found s) (map _ sols)) by (rewrite map_length; lia). rewrite flat_map_app. f_equal.
      * symmetry. apply flat_map_prefix.
      * rewrite A1. replace (max - found s - length sols) with (max - (found s + length sols)) by lia. unfold prefix. cbn [out]. rewrite W4. reflexivity.
Qed.

Lemma list_choice {S T} (Q : S -> T -> Prop) l : (forall x, In x l -> exists y, Q x y) -> exists ys, Forall2 Q l ys.
Proof using. clear. induction l as [|x l IH]; intros H; [exists []; constructor|]. destruct (H x (or_introl eq_refl)) as (y & Y). destruct IH as (ys & Z); [intros; apply H; now right|]. exists (y :: ys). now constructor. Qed.
Lemma Forall2_weaken {S T} (Q Q' : S -> T -> Prop) l l' : (forall x y, Q x y -> Q' x y) -> Forall2 Q l l' -> Forall2 Q' l l'.
Proof using. clear. intros H. induction 1; constructor; auto. Qed.
Lemma do_search_ok : forall fuel m A st P V, Inv m A st P V -> length P < fuel -> exists sols, good P A sols /\ goes fuel m P sols.
Proof.
  induction fuel as [|f IH]; intros m A st P V I LF; [lia|]. assert (R := i_rep _ _ _ _ _ I). destruct (ring_start _ _ _ _ (p_hdr _ _ _ R)) as [S0 _].
  destruct P as [|c0 P0] eqn:EP.
  - exists [[]]. split; [eapply good_nil; eauto|]. intros k s M L FM. exists (report k s). split.
    + rewrite do_search_S, M. unfold right_of. rewrite S0. reflexivity.
    + unfold after, report. cbn [mm out found told]. rewrite M. split; [cbn [length]; lia|]. split; [|auto].
      f_equal. destruct (max - found s) eqn:X; [lia|]. cbn [firstn flat_map]. rewrite firstn_nil. cbn [flat_map]. rewrite !app_nil_r. unfold prefix. cbn in L. apply map_tag. lia.
  - rewrite <- EP in *. assert (NP : P <> []) by congruence. assert (Ic := Hh m P V R NP). set (c := heuristic m) in *. destruct (p_P _ _ _ R c Ic) as [Kc Pc].
    destruct (choose_ok m A st P V c I Ic) as (m1 & C1 & C2 & RV & KP & LV & HV & CH).
    assert (EX : exists ss, Forall2 (fun x sols => exists m2 P', do_row x m1 = Some m2 /\ undo_row x m2 = Some m1 /\ rd (MC m2) x = c /\ kept m m2 /\ length P' < length P /\ goes f m2 P' sols /\
        good P' (fun r => A r /\ compat (nrow x) r) sols /\ forall d, In d P' <-> In d P /\ forall y, node y -> nrow y = nrow x -> ncol y <> d) (V c) ss).
    { apply list_choice. intros x Ix. destruct (CH x Ix) as (m2 & st' & P' & V' & D1 & D2 & CC & I' & HP & HL & KP2). destruct (IH m2 _ st' P' V' I' ltac:(lia)) as (sols & G & GO). exists sols, m2, P'. auto 10. }
    destruct EX as (ss & F). exists (weave (V c) ss). split.
    + apply good_branch with c; auto.
      * assert (X := r_nodup _ _ _ _ RV). apply NoDup_cons_iff in X. tauto.
      * eapply Forall2_weaken; [|exact F]. intros x sols (m2 & P' & _ & _ & _ & _ & _ & _ & G & HP). exists P'. auto.
    + intros k s M L FM. rewrite do_search_S, M. fold c. unfold right_of. rewrite S0, EP. cbn [hd].
      destruct (Nat.eqb_spec c0 0) as [Z|_]; [exfalso; apply H0; rewrite <- Z; apply (p_P _ _ _ R c0); rewrite EP; now left|]. rewrite C1.
      unfold down_of. destruct (ring_start _ _ _ _ RV) as [-> _].
      destruct (branch_ok f k m m1 c P (V c)) with (post := V c) (ss := ss) (pre := @nil nat) (g := many m1) (s := with_mem m1 s) as (s' & E & AF); auto.
      { intros x Ix. apply HV in Ix as (Nx & _ & _). split; [exact Nx|]. rewrite (kept_index m m1) by exact KP. unfold row_index_of. rewrite (i_row _ _ _ _ _ I x Nx). unfold row_addr. lia. }
      { eapply Forall2_weaken; [|exact F]. intros x sols (m2 & P' & X1 & X2 & X3 & X4 & X5 & X6 & _). exists m2, P'. auto 8. }
      { rewrite EP. cbn. lia. }
      exists s'. split; [exact E|exact AF].
Qed.
End Run.
End Static.
