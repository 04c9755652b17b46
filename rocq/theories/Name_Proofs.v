From Verif Require Import Prelude Name_Model.
Local Open Scope nat_scope.
Ltac Zify.zify_post_hook ::= idtac.

Lemma upd_upd {A} (l : list A) i x y : upd (upd l i x) i y = upd l i y.
Proof. revert i; induction l as [|a l IH]; intros [|i]; simpl; auto. now rewrite IH. Qed.
Lemma upd_same {A} (l : list A) i x : nth_error l i = Some x -> upd l i x = l.
Proof. revert i; induction l as [|a l IH]; intros [|i] H; simpl in *; try discriminate; auto.
  - now injection H as ->. - now rewrite IH. Qed.

Lemma copy_n_spec s : forall bs b off blk, nth_error bs b = Some blk -> off + length s <= length blk ->
  exists blk', copy_n bs b off s = Some (upd bs b blk') /\ length blk' = length blk /\
    forall i, nth_error blk' i = if (off <=? i) && (i <? off + length s) then nth_error (map Some s) (i - off) else nth_error blk i.
Proof.
  induction s as [|x s IH]; intros bs b off blk Hb Hl; cbn [copy_n length] in *.
  - exists blk. rewrite (upd_same bs b blk Hb). split; [reflexivity|]. split; [reflexivity|].
    intros i. destruct (Nat.leb_spec off i); destruct (Nat.ltb_spec i (off + 0)); cbn [andb]; try reflexivity. lia.
  - unfold store. rewrite Hb. destruct (Nat.ltb_spec off (length blk)); [|lia].
    assert (Hb' : nth_error (upd bs b (upd blk off (Some x))) b = Some (upd blk off (Some x))).
    { apply nth_error_upd_same. apply nth_error_Some. congruence. }
    destruct (IH _ _ (S off) _ Hb') as (blk' & E & Hl' & Hn); [rewrite upd_length; lia|].
    exists blk'. rewrite E, upd_upd. split; [reflexivity|]. rewrite upd_length in Hl'. split; [exact Hl'|].
    intros i. rewrite Hn. 
    destruct (Nat.leb_spec (S off) i); destruct (Nat.ltb_spec i (S off + length s)); cbn [andb];
    destruct (Nat.leb_spec off i); destruct (Nat.ltb_spec i (off + S (length s))); cbn [andb]; try lia.
    + replace (i - off) with (S (i - S off)) by lia. reflexivity.
    + apply nth_error_upd_other. lia.
    + assert (i = off) as -> by lia. rewrite Nat.sub_diag. cbn [map nth_error]. now apply nth_error_upd_same.
    + apply nth_error_upd_other. lia.
Qed.

(** [s] and its terminator sit at offset [off] of block [b], in the already used part. *)
Definition placed (p : string_pool) (b off : nat) (s : list N) : Prop :=
  exists blk, nth_error (blocks p) b = Some blk /\ off + length s + 1 <= length blk /\
    (forall i, i < length s + 1 -> nth_error blk (off + i) = option_map Some (nth_error (s ++ [0%N]) i)) /\
    (S b = length (blocks p) -> off + length s + 1 <= next_m p).

Definition Wf (p : string_pool) : Prop :=
  next_m p <= end_m p /\
  (blocks p = [] /\ end_m p = 0 \/
   exists blk, nth_error (blocks p) (length (blocks p) - 1) = Some blk /\ length blk = end_m p).

Definition disjoint (b1 o1 l1 b2 o2 l2 : nat) : Prop :=
  b1 <> b2 \/ o1 + l1 + 1 <= o2 \/ o2 + l2 + 1 <= o1.

Lemma pool_add_spec size p s : Wf p ->
  exists b off p', pool_add size p s = Some (Pool b off, p') /\ Wf p' /\ placed p' b off s /\
    forall b0 o0 s0, placed p b0 o0 s0 -> placed p' b0 o0 s0 /\ disjoint b0 o0 (length s0) b off (length s).
Proof.
  intros (Hne & Hb). unfold pool_add, allocate.
  set (p1 := if end_m p - next_m p <? length s + 1 then _ else p).
  assert (H1 : exists blk, nth_error (blocks p1) (length (blocks p1) - 1) = Some blk /\ length blk = end_m p1 /\
     next_m p1 + length s + 1 <= end_m p1 /\ 0 < length (blocks p1) /\
     (forall b0 o0 s0, placed p b0 o0 s0 -> placed p1 b0 o0 s0)).
  { unfold p1. destruct (Nat.ltb_spec (end_m p - next_m p) (length s + 1)) as [Hlt|Hge]; cbn [blocks next_m end_m].
    - exists (repeat None (Nat.max size (length s + 1))). rewrite app_length. cbn [length].
      replace (length (blocks p) + 1 - 1) with (length (blocks p)) by lia.
      split; [rewrite nth_error_app2 by lia; now rewrite Nat.sub_diag|].
      split; [apply repeat_length|]. split; [lia|]. split; [lia|].
      intros b0 o0 s0 (blk & E & Hl & Hn & Hlast). exists blk. cbn [blocks next_m].
      assert (b0 < length (blocks p)) by (apply nth_error_Some; congruence).
      rewrite nth_error_app1 by lia. rewrite app_length. cbn [length].
      split; [exact E|]. split; [exact Hl|]. split; [exact Hn|]. lia.
    - destruct Hb as [[Hb He]|(blk & E & Hl)]; [lia|]. exists blk.
      assert (length (blocks p) - 1 < length (blocks p)) by (apply nth_error_Some; congruence).
      repeat split; auto; lia. }
  clearbody p1. destruct H1 as (blk & E & Hl & Hfit & Hpos & Hold).
  set (b := length (blocks p1) - 1) in *. set (off := next_m p1) in *.
  unfold store at 1. rewrite E.
  destruct (Nat.ltb_spec (off + length s) (length blk)); [|lia]. cbn [blocks].
  assert (E1 : nth_error (upd (blocks p1) b (upd blk (off + length s) (Some 0%N))) b = Some (upd blk (off + length s) (Some 0%N))).
  { apply nth_error_upd_same. lia. }
  destruct (copy_n_spec s _ _ off _ E1) as (blk' & -> & Hl' & Hn'); [rewrite upd_length; lia|].
  rewrite upd_upd. rewrite upd_length in Hl'. cbn [next_m end_m].
  eexists b, off, _. split; [reflexivity|].
  assert (Hb' : nth_error (upd (blocks p1) b blk') b = Some blk') by (apply nth_error_upd_same; lia).
  split; [|split].
  - split; cbn [blocks next_m end_m]; [lia|]. right. exists blk'. rewrite upd_length. fold b. split; [exact Hb'|lia].
  - exists blk'. cbn [blocks next_m]. split; [exact Hb'|]. split; [lia|]. split; [|lia].
    intros i Hi. rewrite Hn'.
    destruct (Nat.leb_spec off (off + i)); [|lia]. destruct (Nat.ltb_spec (off + i) (off + length s)); cbn [andb].
    + replace (off + i - off) with i by lia. rewrite nth_error_map. rewrite nth_error_app1 by lia. reflexivity.
    + assert (i = length s) as -> by lia. rewrite nth_error_app2 by lia. rewrite Nat.sub_diag.
      cbn [nth_error option_map]. apply nth_error_upd_same. lia.
  - intros b0 o0 s0 Hp. destruct (Hold _ _ _ Hp) as (blk0 & E0 & Hl0 & Hn0 & Hlast0).
    assert (Hb0 : b0 < length (blocks p1)) by (apply nth_error_Some; congruence).
    destruct (Nat.eq_dec b0 b) as [->|Hbne].
    + assert (blk0 = blk) as -> by congruence. specialize (Hlast0 ltac:(lia)). fold off in Hlast0.
      split; [|right; lia]. exists blk'. cbn [blocks next_m]. split; [exact Hb'|]. split; [lia|]. split; [|lia].
      intros i Hi. rewrite Hn'. destruct (Nat.leb_spec off (o0 + i)); [lia|]. cbn [andb].
      rewrite nth_error_upd_other by lia. now apply Hn0.
    + split; [|now left]. exists blk0. cbn [blocks next_m].
      rewrite nth_error_upd_other by congruence. rewrite upd_length.
      split; [exact E0|]. split; [exact Hl0|]. split; [exact Hn0|]. intros. exfalso. lia.
Qed.

Definition nul_free (s : list N) : Prop := Forall (fun c => (0 < c < 256)%N) s.

Lemma nth_error_nil_lem {A} i : nth_error (@nil A) i = None.
Proof. destruct i; reflexivity. Qed.

Lemma NoDup_app_snoc {A} (l : list A) x : NoDup l -> ~ In x l -> NoDup (l ++ [x]).
Proof.
  intros Hn Hx. apply NoDup_rev in Hn. rewrite <- (rev_involutive (l ++ [x])). apply NoDup_rev.
  rewrite rev_app_distr. cbn. constructor; [now rewrite <- in_rev|exact Hn].
Qed.

Lemma c_string_spec s : forall mem, nul_free s ->
  (forall i, i < length s + 1 -> nth_error mem i = option_map Some (nth_error (s ++ [0%N]) i)) ->
  c_string mem = Some s.
Proof.
  induction s as [|c s IH]; intros mem Hf Hm.
  - specialize (Hm 0 ltac:(simpl; lia)). destruct mem as [|x mem]; [discriminate|]. cbn in Hm. injection Hm as ->. reflexivity.
  - pose proof (Hm 0 ltac:(simpl; lia)) as H0. destruct mem as [|x mem]; [discriminate|].
    cbn in H0. injection H0 as ->. inversion Hf as [|? ? Hc Hf']; subst. cbn [c_string].
    destruct c as [|c]; [lia|]. rewrite (IH mem Hf'); [reflexivity|].
    intros i Hi. exact (Hm (S i) ltac:(simpl; lia)).
Qed.

Lemma placed_c_str p b off s : nul_free s -> placed p b off s -> c_str p (Pool b off) = Some s.
Proof.
  intros Hf (blk & E & Hl & Hn & _). cbn [c_str]. rewrite E. apply c_string_spec; [exact Hf|].
  intros i Hi. rewrite <- (Hn i Hi).
  clear. revert off; induction blk as [|x blk IH]; intros [|off]; cbn [skipn]; try reflexivity.
  - rewrite nth_error_nil_lem. destruct i; reflexivity.
  - apply IH.
Qed.

Lemma str_less_equiv x : forall y, nul_free x -> nul_free y ->
  negb (str_less x y) && negb (str_less y x) = true <-> x = y.
Proof.
  assert (Hs : forall c d, (0 < c < 256)%N -> (0 < d < 256)%N -> schar c = schar d -> c = d).
  { intros c d Hc Hd. unfold schar. destruct (N.ltb_spec c 128); destruct (N.ltb_spec d 128); lia. }
  assert (H0 : forall c, (0 < c < 256)%N -> schar c <> 0%Z).
  { intros c Hc. unfold schar. destruct (N.ltb_spec c 128); lia. }
  induction x as [|a x IH]; intros [|b y] Hx Hy; cbn [str_less].
  - split; reflexivity.
  - inversion Hy as [|? ? Hb Hy']; subst. specialize (H0 b Hb). split; [|discriminate].
    intros H. apply andb_prop in H as [H1 H2]. apply negb_true_iff in H1, H2. lia.
  - inversion Hx as [|? ? Ha Hx']; subst. specialize (H0 a Ha). split; [|discriminate].
    intros H. apply andb_prop in H as [H1 H2]. apply negb_true_iff in H1, H2. lia.
  - inversion Hx as [|? ? Ha Hx']; subst. inversion Hy as [|? ? Hb Hy']; subst.
    rewrite (N.eqb_sym b a). destruct (N.eqb_spec a b) as [->|Hne].
    + rewrite IH by assumption. split; [intros ->; reflexivity|congruence].
    + split; [|congruence]. intros H. exfalso. apply Hne. apply Hs; auto.
      apply andb_prop in H as [H1 H2]. apply negb_true_iff in H1, H2. lia.
Qed.

(** Invariant of the unique pool: [E] lists the strings of store_m, in order. *)
Record UInv (u : unique_pool) (E : list (list N)) : Prop := {
  U_wf : Wf (pool_m u);
  U_ent : Forall2 (fun a s => exists b off, a = Pool b off /\ placed (pool_m u) b off s /\ nul_free s /\ s <> []) (store_m u) E;
  U_nodup : NoDup E;
  U_disj : forall i j b1 o1 s1 b2 o2 s2, i <> j -> nth_error (store_m u) i = Some (Pool b1 o1) -> nth_error E i = Some s1 ->
     nth_error (store_m u) j = Some (Pool b2 o2) -> nth_error E j = Some s2 -> disjoint b1 o1 (length s1) b2 o2 (length s2) }.

Lemma UInv_empty : UInv empty_pool [].
Proof.
  constructor; cbn.
  - split; cbn; auto.
  - constructor.
  - constructor.
  - intros [|i]; discriminate.
Qed.

Lemma F2_length {A B} (R : A -> B -> Prop) l l' : Forall2 R l l' -> length l = length l'.
Proof. induction 1; simpl; auto. Qed.
Lemma F2_impl {A B} (R R' : A -> B -> Prop) l l' : (forall a b, R a b -> R' a b) -> Forall2 R l l' -> Forall2 R' l l'.
Proof. intros H. induction 1; constructor; auto. Qed.

Lemma Forall2_nth {A B} (R : A -> B -> Prop) l l' : Forall2 R l l' ->
  forall i a, nth_error l i = Some a -> exists b, nth_error l' i = Some b /\ R a b.
Proof.
  induction 1 as [|x y l l' Hxy H IH]; intros [|i] a Ha; cbn in *; try discriminate.
  - injection Ha as <-. eauto.
  - apply IH. exact Ha.
Qed.
Lemma Forall2_nth_r {A B} (R : A -> B -> Prop) l l' : Forall2 R l l' ->
  forall i b, nth_error l' i = Some b -> exists a, nth_error l i = Some a /\ R a b.
Proof.
  induction 1 as [|x y l l' Hxy H IH]; intros [|i] a Ha; cbn in *; try discriminate.
  - injection Ha as <-. eauto.
  - apply IH. exact Ha.
Qed.

Lemma set_find_spec u E s : UInv u E -> nul_free s ->
  match set_find u s with
  | Some a => exists i, nth_error (store_m u) i = Some a /\ nth_error E i = Some s
  | None => ~ In s E
  end.
Proof.
  intros HU Hs. unfold set_find. pose proof (U_ent _ _ HU) as HF. clear HU.
  induction HF as [|a t st E (b & off & -> & Hp & Hf & Hne) HF IH]; cbn [find]; [auto|].
  rewrite (placed_c_str _ _ _ _ Hf Hp).
  destruct (negb (str_less t s) && negb (str_less s t)) eqn:Eq.
  - apply str_less_equiv in Eq; auto. subst t. exists 0. auto.
  - assert (Hts : t <> s). { intros ->. assert (true = false) by (rewrite <- Eq; symmetry; apply str_less_equiv; auto). discriminate. }
    destruct (find _ st) as [a|].
    + destruct IH as (i & H1 & H2). exists (S i). auto.
    + intros [H|H]; [contradiction|auto].
Qed.

Lemma unique_add_spec size u E s : UInv u E -> nul_free s ->
  exists a u' E', unique_add size u s = Some (a, u') /\ UInv u' E' /\
    (s = [] /\ a = EmptyString /\ u' = u /\ E' = E \/
     s <> [] /\ (exists i, nth_error (store_m u') i = Some a /\ nth_error E' i = Some s)) /\
    (exists st e, store_m u' = store_m u ++ st /\ E' = E ++ e).
Proof.
  intros HU Hs. unfold unique_add. destruct s as [|c s0].
  { exists EmptyString, u, E. split; [reflexivity|]. split; [exact HU|]. split; [now left|].
    exists [], []. now rewrite !app_nil_r. }
  set (s := c :: s0) in *. assert (Hne : s <> []) by discriminate.
  pose proof (set_find_spec u E s HU Hs) as Hfind. destruct (set_find u s) as [a|].
  - destruct Hfind as (i & H1 & H2). exists a, u, E. split; [reflexivity|]. split; [exact HU|]. split; [right; eauto|].
    exists [], []. now rewrite !app_nil_r.
  - destruct (pool_add_spec size (pool_m u) s (U_wf _ _ HU)) as (b & off & p' & -> & Hwf & Hp & Hold).
    pose proof (F2_length _ _ _ (U_ent _ _ HU)) as Hlen.
    exists (Pool b off), (UPool (store_m u ++ [Pool b off]) p'), (E ++ [s]). split; [reflexivity|].
    split; [|split].
    + constructor; cbn [store_m pool_m].
      * exact Hwf.
      * apply Forall2_app.
        -- eapply F2_impl; [|exact (U_ent _ _ HU)]. intros a t (b0 & o0 & -> & Hp0 & Hf0 & Hne0).
           exists b0, o0. split; [reflexivity|]. split; [apply Hold; exact Hp0|auto].
        -- constructor; [|constructor]. exists b, off. auto.
      * apply NoDup_app_snoc; [exact (U_nodup _ _ HU)|exact Hfind].
      * assert (Hdec : forall i b1 o1 s1, nth_error (store_m u ++ [Pool b off]) i = Some (Pool b1 o1) -> nth_error (E ++ [s]) i = Some s1 ->
           (i < length E /\ nth_error (store_m u) i = Some (Pool b1 o1) /\ nth_error E i = Some s1) \/
           (i = length E /\ b1 = b /\ o1 = off /\ s1 = s)).
        { intros i b1 o1 s1 H1 H2. destruct (Nat.lt_ge_cases i (length E)) as [Hi|Hi].
          - left. rewrite nth_error_app1 in H1, H2 by lia. auto.
          - right. rewrite nth_error_app2 in H1, H2 by lia. rewrite Hlen in H1.
            destruct (i - length E) as [|k] eqn:Ek; [|destruct k; discriminate].
            cbn in H1, H2. injection H1 as -> ->. injection H2 as ->. repeat split; lia. }
        intros i j b1 o1 s1 b2 o2 s2 Hij H1 H2 H3 H4.
        destruct (Hdec _ _ _ _ H1 H2) as [(Hi & G1 & G2)|(Hi & -> & -> & ->)];
        destruct (Hdec _ _ _ _ H3 H4) as [(Hj & G3 & G4)|(Hj & -> & -> & ->)].
        -- exact (U_disj _ _ HU i j b1 o1 s1 b2 o2 s2 Hij G1 G2 G3 G4).
        -- destruct (Forall2_nth _ _ _ (U_ent _ _ HU) _ _ G1) as (t & Et & (b0 & o0 & Eq & Hp0 & _)).
           rewrite G2 in Et. injection Et as <-. injection Eq as <- <-. apply (Hold _ _ _ Hp0).
        -- destruct (Forall2_nth _ _ _ (U_ent _ _ HU) _ _ G3) as (t & Et & (b0 & o0 & Eq & Hp0 & _)).
           rewrite G4 in Et. injection Et as <-. injection Eq as <- <-.
           destruct (proj2 (Hold _ _ _ Hp0)) as [H|[H|H]]; unfold disjoint; [left; congruence|right; right; lia|right; left; lia].
        -- lia.
    + right. split; [exact Hne|]. exists (length (store_m u)). cbn [store_m].
      rewrite nth_error_app2, Nat.sub_diag by lia. rewrite Hlen. rewrite nth_error_app2, Nat.sub_diag by lia. auto.
    + exists [Pool b off], [s]. auto.
Qed.

(** Pointer [a] was handed out for the string [s]. *)
Definition den (u : unique_pool) (E : list (list N)) (a : ptr) (s : list N) : Prop :=
  s = [] /\ a = EmptyString \/
  s <> [] /\ exists i, nth_error (store_m u) i = Some a /\ nth_error E i = Some s.

Lemma den_read u E a s : UInv u E -> den u E a s -> c_str (pool_m u) a = Some s.
Proof.
  intros HU [[-> ->]|[Hne (i & H1 & H2)]]; [reflexivity|].
  destruct (Forall2_nth _ _ _ (U_ent _ _ HU) _ _ H1) as (t & Et & (b & off & -> & Hp & Hf & _)).
  rewrite H2 in Et. injection Et as <-. now apply placed_c_str.
Qed.

Lemma den_pool u E a s : UInv u E -> den u E a s -> s <> [] -> exists b off, a = Pool b off.
Proof.
  intros HU [[-> ->]|[Hne (i & H1 & H2)]] Hs; [contradiction|].
  destruct (Forall2_nth _ _ _ (U_ent _ _ HU) _ _ H1) as (t & Et & (b & off & -> & _)). eauto.
Qed.

(** distinct strings are at disjoint addresses *)
Lemma den_disjoint u E b1 o1 s1 b2 o2 s2 : UInv u E -> den u E (Pool b1 o1) s1 -> den u E (Pool b2 o2) s2 ->
  s1 <> s2 -> disjoint b1 o1 (length s1) b2 o2 (length s2).
Proof.
  intros HU [[_ H]|[Hn1 (i & H1 & H2)]] [[_ H']|[Hn2 (j & H3 & H4)]] Hne; try discriminate.
  apply (U_disj _ _ HU i j); auto. intros ->. congruence.
Qed.

Lemma den_inj u E a1 s1 a2 s2 : UInv u E -> den u E a1 s1 -> den u E a2 s2 -> (a1 = a2 <-> s1 = s2).
Proof.
  intros HU D1 D2. split.
  - intros ->. pose proof (den_read _ _ _ _ HU D1). pose proof (den_read _ _ _ _ HU D2). congruence.
  - intros ->. destruct D1 as [[-> ->]|[Hn1 (i & H1 & H2)]]; destruct D2 as [[H ->]|[Hn2 (j & H3 & H4)]]; try congruence.
    assert (i = j) as ->.
    { apply (proj1 (NoDup_nth_error E) (U_nodup _ _ HU)); [apply nth_error_Some; congruence|congruence]. }
    congruence.
Qed.

Lemma den_extend u E u' E' a s : (exists st e, store_m u' = store_m u ++ st /\ E' = E ++ e) ->
  den u E a s -> den u' E' a s.
Proof.
  intros (st & e & Hst & ->) [H|[Hne (i & H1 & H2)]]; [now left|]. right. split; [exact Hne|]. exists i.
  rewrite Hst. split; (rewrite nth_error_app1; [assumption|apply nth_error_Some; congruence]).
Qed.

Lemma unique_add_den size u E s : UInv u E -> nul_free s ->
  exists a u' E', unique_add size u s = Some (a, u') /\ UInv u' E' /\ den u' E' a s /\
    (exists st e, store_m u' = store_m u ++ st /\ E' = E ++ e).
Proof.
  intros HU Hs. destruct (unique_add_spec size u E s HU Hs) as (a & u' & E' & H1 & H2 & H3 & H4).
  exists a, u', E'. split; [exact H1|]. split; [exact H2|]. split; [|exact H4].
  destruct H3 as [(-> & -> & _)|(Hne & H)]; [now left|right; auto].
Qed.

Lemma ext_trans (u u1 u2 : unique_pool) (E E1 E2 : list (list N)) :
  (exists st e, store_m u1 = store_m u ++ st /\ E1 = E ++ e) ->
  (exists st e, store_m u2 = store_m u1 ++ st /\ E2 = E1 ++ e) ->
  (exists st e, store_m u2 = store_m u ++ st /\ E2 = E ++ e).
Proof.
  intros (st1 & e1 & H1 & H2) (st2 & e2 & H3 & H4). exists (st1 ++ st2), (e1 ++ e2).
  rewrite H3, H1, H4, H2, !app_assoc. auto.
Qed.

Lemma unique_adds_spec size l : forall u E, UInv u E -> Forall nul_free l ->
  exists ps u' E', unique_adds size u l = Some (ps, u') /\ UInv u' E' /\ Forall2 (den u' E') ps l /\
    (exists st e, store_m u' = store_m u ++ st /\ E' = E ++ e).
Proof.
  induction l as [|s l IH]; intros u E HU HF; cbn [unique_adds].
  - exists [], u, E. split; [reflexivity|]. split; [exact HU|]. split; [constructor|]. exists [], []. now rewrite !app_nil_r.
  - inversion HF as [|? ? Hs HF']; subst.
    destruct (unique_add_den size u E s HU Hs) as (a & u1 & E1 & -> & HU1 & HD1 & HX1).
    destruct (IH u1 E1 HU1 HF') as (ps & u2 & E2 & -> & HU2 & HD2 & HX2).
    exists (a :: ps), u2, E2. split; [reflexivity|]. split; [exact HU2|]. split.
    + constructor; [eapply den_extend; eauto|exact HD2].
    + eapply ext_trans; eauto.
Qed.

(** ** Names *)
Definition text (r : request) : list N := match r with Dynamic s | Literal s => s end.

Record NInv (n : names) (E : list (list N)) (used : list (list N)) : Prop := {
  N_u : UInv (pool_s n) E;
  N_map : forall h a, In (h, a) (map_s n) -> exists s, In s used /\ den (pool_s n) E a s /\ name_hash s = h }.

Definition no_collision (used : list (list N)) : Prop :=
  forall s s', In s used -> In s' used -> name_hash s = name_hash s' -> s = s'.

Lemma make_spec n r : make n r = map_string_hash n (text r) (name_hash (text r)).
Proof. destruct r as [[|c s]|s]; reflexivity. Qed.

Lemma make_den n E used r : NInv n E used -> no_collision used -> In (text r) used -> nul_free (text r) ->
  exists a n' E', make n r = Some (a, n') /\ NInv n' E' used /\ den (pool_s n') E' a (text r) /\
    (exists st e, store_m (pool_s n') = store_m (pool_s n) ++ st /\ E' = E ++ e).
Proof.
  intros HN Hnc Hin Hf. rewrite make_spec. unfold map_string_hash. set (s := text r) in *. clearbody s.
  destruct (find (fun e => (fst e =? name_hash s)%N) (map_s n)) as [[h a]|] eqn:Ef.
  - apply find_some in Ef as [Hm He]. cbn in He. apply N.eqb_eq in He. subst h.
    destruct (N_map _ _ _ HN _ _ Hm) as (s' & Hin' & HD & Hh). apply Hnc in Hh; auto. subst s'.
    exists a, n, E. split; [reflexivity|]. split; [exact HN|]. split; [exact HD|]. exists [], []. now rewrite !app_nil_r.
  - destruct (unique_add_den default_pool_size (pool_s n) E s (N_u _ _ _ HN) Hf) as (a & u1 & E1 & -> & HU1 & HD1 & HX1).
    eexists a, _, E1. split; [reflexivity|]. cbn [pool_s]. split; [|auto].
    constructor; cbn [pool_s map_s]; [exact HU1|].
    intros h0 a0 [H|H].
    + injection H as <- <-. eauto.
    + destruct (N_map _ _ _ HN _ _ H) as (s' & Hin' & HD & Hh). exists s'. split; [exact Hin'|]. split; [|exact Hh].
      eapply den_extend; eauto.
Qed.

Lemma makes_spec used : no_collision used -> forall rs n E, NInv n E used ->
  (forall r, In r rs -> In (text r) used /\ nul_free (text r)) ->
  exists l n' E', makes n rs = Some (l, n') /\ NInv n' E' used /\ Forall2 (den (pool_s n') E') l (map text rs) /\
    (exists st e, store_m (pool_s n') = store_m (pool_s n) ++ st /\ E' = E ++ e).
Proof.
  intros Hnc. induction rs as [|r rs IH]; intros n E HN Hrs; cbn [makes map].
  - exists [], n, E. split; [reflexivity|]. split; [exact HN|]. split; [constructor|]. exists [], []. now rewrite !app_nil_r.
  - destruct (Hrs r (or_introl eq_refl)) as [Hin Hf].
    destruct (make_den n E used r HN Hnc Hin Hf) as (a & n1 & E1 & -> & HN1 & HD1 & HX1).
    destruct (IH n1 E1 HN1) as (l & n2 & E2 & -> & HN2 & HD2 & HX2); [intros r' Hr'; apply Hrs; now right|].
    exists (a :: l), n2, E2. split; [reflexivity|]. split; [exact HN2|]. split.
    + constructor; [eapply den_extend; eauto|exact HD2].
    + eapply ext_trans; eauto.
Qed.

Lemma ptr_eqb_spec a b : ptr_eqb a b = true <-> a = b.
Proof.
  destruct a, b; cbn; try (split; discriminate); try (split; reflexivity).
  rewrite andb_true_iff, !Nat.eqb_eq. split; [intros [-> ->]; reflexivity|intros H; injection H; auto].
Qed.
