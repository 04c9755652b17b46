(** attribute_set_t is a map ordered by the length of the name and then by its bytes. *)
From Verif Require Import Prelude Search_Model Entity_Model Xml_Model Xml_Spec.
From Verif Require Search_Props.
Local Open Scope nat_scope.
Ltac Zify.zify_post_hook ::= idtac.

(** *** The order *)
Lemma bytes_eqbP x y : reflect (x = y) (bytes_eqb x y).
Proof.
  revert y. induction x as [|a x IH]; intros [|b y]; cbn; try (constructor; congruence).
  destruct (N.eqb_spec a b) as [-> | N]; cbn; [|constructor; congruence].
  destruct (IH y) as [-> | N]; constructor; congruence.
Qed.
Lemma range_equalP x y : reflect (x = y) (range_equal x y).
Proof.
  unfold range_equal. destruct (Nat.eqb_spec (length x) (length y)) as [E | N]; cbn [andb]; [apply bytes_eqbP|].
  constructor. intros ->. auto.
Qed.
Lemma mismatch_lessP x y : length x = length y -> (mismatch_less x y = true <-> lex_before x y).
Proof.
  revert y. induction x as [|a x IH]; intros [|b y] E; cbn in *; try (split; [discriminate|tauto]); try discriminate.
  destruct (N.eqb_spec a b) as [-> | N].
  - rewrite IH by lia. split; [right; split; [reflexivity|assumption]|intros [H | [_ H]]; [lia|exact H]].
  - rewrite N.ltb_lt. split; [left; assumption|intros [H | [H _]]; [exact H|contradiction]].
Qed.
Lemma range_lessP x y : reflect (name_before x y) (range_less x y).
Proof.
  apply iff_reflect. unfold range_less, name_before.
  destruct (Nat.ltb_spec (length x) (length y)); [split; [reflexivity|left; assumption]|].
  destruct (Nat.ltb_spec (length y) (length x)); [split; [lia|discriminate]|].
  rewrite mismatch_lessP by lia. split; [intros [?|[_ H1]]; [lia|exact H1]|right; split; [lia|assumption]].
Qed.
Lemma lex_irrefl x : ~ lex_before x x.
Proof. induction x as [|a x IH]; cbn; [tauto|]. intros [H | [_ H]]; [lia|tauto]. Qed.
Lemma lex_trans x y z : lex_before x y -> lex_before y z -> lex_before x z.
Proof.
  revert y z. induction x as [|a x IH]; intros [|b y] [|c z]; cbn; try tauto.
  intros [H | [-> H]] [K | [-> K]]; try (left; lia). right. split; [reflexivity|]. exact (IH _ _ H K).
Qed.
Lemma lex_total x y : lex_before x y \/ x = y \/ lex_before y x.
Proof.
  revert y. induction x as [|a x IH]; intros [|b y]; cbn; try tauto.
  destruct (N.lt_trichotomy a b) as [H | [-> | H]]; [tauto| |tauto].
  destruct (IH y) as [H | [-> | H]]; tauto.
Qed.
Lemma before_irrefl x : ~ name_before x x.
Proof. intros [H | [_ H]]; [lia|exact (lex_irrefl _ H)]. Qed.
Lemma before_trans x y z : name_before x y -> name_before y z -> name_before x z.
Proof.
  unfold name_before. intros [H | [E H]] [K | [F K]]; try (left; lia).
  right. split; [lia|exact (lex_trans _ _ _ H K)].
Qed.
Lemma before_total x y : name_before x y \/ x = y \/ name_before y x.
Proof.
  unfold name_before. destruct (Nat.lt_trichotomy (length x) (length y)) as [H | [E | H]]; [tauto| |tauto].
  destruct (lex_total x y) as [H | [-> | H]]; auto.
Qed.
Lemma before_asym x y : name_before x y -> ~ name_before y x.
Proof. intros H K. exact (before_irrefl _ (before_trans _ _ _ H K)). Qed.

(** *** Maps *)
Definition sorted (s : aset) : Prop := ascending (map fst s).
Fixpoint assoc {V} (s : list (bytes * V)) (k : bytes) : option V :=
  match s with
  | [] => None
  | (m, v) :: s' => if list_eq_dec N.eq_dec m k then Some v else assoc s' k
  end.
Lemma ascending_app l1 l2 : ascending (l1 ++ l2) <->
  ascending l1 /\ ascending l2 /\ forall x y, In x l1 -> In y l2 -> name_before x y.
Proof.
  induction l1 as [|x l1 IH]; cbn [app ascending].
  - split; [intros H; repeat split; auto; intros ? ? []|tauto].
  - rewrite IH, Forall_app, !Forall_forall. split.
    + intros ([H1 H2] & H3 & H4 & H5). repeat split; auto. intros a b [-> | Ha] Hb; auto.
    + intros ([H1 H2] & H3 & H4). repeat split; auto; intros; apply H4; cbn; auto.
Qed.
Lemma assoc_none {V} (s : list (bytes * V)) k : (forall a, In a s -> fst a <> k) -> assoc s k = None.
Proof.
  induction s as [|[m v] s IH]; intros H; [reflexivity|]. cbn. destruct (list_eq_dec N.eq_dec m k) as [-> | N].
  - exfalso. exact (H (k, v) (or_introl eq_refl) eq_refl).
  - apply IH. intros a Ha. apply H. right. exact Ha.
Qed.
Lemma assoc_app {V} (s1 s2 : list (bytes * V)) k :
  assoc (s1 ++ s2) k = match assoc s1 k with Some v => Some v | None => assoc s2 k end.
Proof. induction s1 as [|[m v] s IH]; [reflexivity|]. cbn. destruct (list_eq_dec N.eq_dec m k); [reflexivity|exact IH]. Qed.
Lemma assoc_in {V} (s : list (bytes * V)) k v : assoc s k = Some v -> In (k, v) s.
Proof.
  induction s as [|[m w] s IH]; cbn; [discriminate|]. destruct (list_eq_dec N.eq_dec m k) as [-> | ].
  - intros [= ->]. left. reflexivity.
  - intros H. right. exact (IH H).
Qed.
Lemma in_assoc {V} (s : list (bytes * V)) k v : ascending (map fst s) -> In (k, v) s -> assoc s k = Some v.
Proof.
  induction s as [|[m w] s IH]; cbn [map fst ascending assoc]; intros A H; [contradiction|].
  destruct A as [A1 A2]. rewrite Forall_forall in A1. destruct H as [[= -> ->] | H].
  - destruct (list_eq_dec N.eq_dec k k); [reflexivity|contradiction].
  - destruct (list_eq_dec N.eq_dec m k) as [-> | ]; [|exact (IH A2 H)].
    exfalso. apply (before_irrefl k). apply A1. apply in_map_iff. exists (k, v). split; [reflexivity|exact H].
Qed.

(** where lower_bound splits a sorted vector *)
Lemma lower_bound_splits s k : sorted s ->
  exists s1 s2, s = s1 ++ s2 /\ (forall a, In a s1 -> name_before (fst a) k) /\
    ((exists v s2', s2 = (k, v) :: s2' /\ (forall a, In a s2' -> name_before k (fst a)) /\
                    aset_lower_bound s k = Some (length s1, true)) \/
     ((forall a, In a s2 -> name_before k (fst a)) /\ aset_lower_bound s k = Some (length s1, false))).
Proof.
  intros S.
  assert (P : exists s1 s2, s = s1 ++ s2 /\ (forall a, In a s1 -> name_before (fst a) k) /\
                            (forall a, In a s2 -> ~ name_before (fst a) k)).
  { clear -S. induction s as [|a s IH]; [exists [], []; repeat split; intros ? []|].
    unfold sorted in *. cbn [map ascending] in S. destruct S as [S1 S2].
    destruct (range_lessP (fst a) k) as [Y | N].
    - destruct (IH S2) as (s1 & s2 & -> & H1 & H2). exists (a :: s1), s2. repeat split; auto.
      intros b [-> | Hb]; auto.
    - exists [], (a :: s). repeat split; [intros ? []|]. intros b [<- | Hb]; [exact N|].
      intros K. apply N. rewrite Forall_forall in S1. apply (before_trans _ (fst b)); [|exact K].
      apply S1. apply in_map, Hb. }
  destruct P as (s1 & s2 & -> & H1 & H2). exists s1, s2. split; [reflexivity|]. split; [exact H1|].
  assert (L : exists n, lower_bound attr_less_key (fun a => a) (s1 ++ s2) (k, null_range) = Some (length s1, n)).
  { unfold lower_bound.
    destruct (Search_Props.C28_lower_bound_is_partition_point attr_less_key (fun a => a) (s1 ++ s2) (k, null_range) 0
                (length (s1 ++ s2)) (length s1)) as (n & E & _); [lia| |exists n; exact E].
    rewrite app_length. split; [lia|]. split; intros j v Hj Ev; unfold attr_less_key; cbn [fst].
    - rewrite nth_error_app1 in Ev by lia. destruct (range_lessP (fst v) k) as [|N]; [reflexivity|].
      exfalso. apply N, H1. exact (nth_error_In _ _ Ev).
    - rewrite nth_error_app2 in Ev by lia. destruct (range_lessP (fst v) k) as [Y|]; [|reflexivity].
      exfalso. exact (H2 _ (nth_error_In _ _ Ev) Y). }
  destruct L as (n & L). unfold aset_lower_bound. rewrite L.
  unfold sorted in S. rewrite map_app, ascending_app in S. destruct S as (S1 & S2 & S3).
  rewrite nth_error_app2 by lia. rewrite Nat.sub_diag. destruct s2 as [|[m v] s2].
  - right. split; [intros a []|reflexivity].
  - cbn [nth_error fst]. cbn [map fst ascending] in S2. destruct S2 as [S4 S5]. rewrite Forall_forall in S4.
    destruct (range_equalP m k) as [-> | N].
    + left. exists v, s2. split; [reflexivity|]. split; [|reflexivity]. intros a Ha. apply S4, in_map, Ha.
    + right. split; [|reflexivity]. intros a Ha.
      assert (K : name_before k m).
      { destruct (before_total m k) as [K | [K | K]]; [|contradiction|exact K].
        exfalso. exact (H2 (m, v) (or_introl eq_refl) K). }
      destruct Ha as [<- | Ha]; [exact K|]. apply (before_trans _ m); [exact K|]. apply S4, in_map, Ha.
Qed.

Lemma before_ne x y : name_before x y -> x <> y.
Proof. intros H ->. exact (before_irrefl _ H). Qed.

Lemma get_is_assoc s k : sorted s -> aset_get s k = match assoc s k with Some v => v | None => null_range end.
Proof.
  intros S. destruct (lower_bound_splits s k S) as (s1 & s2 & -> & H1 & [(v & s2' & -> & H2 & L) | (H2 & L)]);
    unfold aset_get; rewrite L.
  - rewrite nth_error_app2, Nat.sub_diag by lia. cbn [nth_error snd]. rewrite assoc_app.
    rewrite (assoc_none s1 k) by (intros a Ha; apply before_ne, H1, Ha). cbn.
    destruct (list_eq_dec N.eq_dec k k); [reflexivity|contradiction].
  - rewrite assoc_app. rewrite (assoc_none s1 k) by (intros a Ha; apply before_ne, H1, Ha).
    rewrite (assoc_none s2 k) by (intros a Ha E; apply (before_ne _ _ (H2 a Ha)); auto). reflexivity.
Qed.
Lemma upd_app {A} (l1 : list A) a l2 b : upd (l1 ++ a :: l2) (length l1) b = l1 ++ b :: l2.
Proof. induction l1 as [|x l1 IH]; [reflexivity|]. cbn. f_equal. exact IH. Qed.
Lemma insert_form s k v : sorted s -> exists s1 s2, aset_insert s k v = s1 ++ (k, v) :: s2 /\
  (forall a, In a s1 -> name_before (fst a) k) /\ (forall a, In a s2 -> name_before k (fst a)) /\
  (s = s1 ++ s2 \/ exists v', s = s1 ++ (k, v') :: s2).
Proof.
  intros S. destruct (lower_bound_splits s k S) as (s1 & s2 & -> & H1 & [(w & s2' & -> & H2 & L) | (H2 & L)]);
    unfold aset_insert; rewrite L.
  - rewrite nth_error_app2, Nat.sub_diag by lia. cbn [nth_error fst]. rewrite upd_app.
    exists s1, s2'. split; [reflexivity|]. split; [exact H1|]. split; [exact H2|]. right. exists w. reflexivity.
  - rewrite firstn_app, skipn_app, Nat.sub_diag, firstn_all, skipn_all, firstn_O, app_nil_r. cbn [app].
    rewrite skipn_O. exists s1, s2. split; [reflexivity|]. split; [exact H1|]. split; [exact H2|]. left. reflexivity.
Qed.
Lemma sorted_form s1 k (v : trange) s2 : sorted (s1 ++ s2) -> (forall a, In a s1 -> name_before (fst a) k) ->
  (forall a, In a s2 -> name_before k (fst a)) -> sorted (s1 ++ (k, v) :: s2).
Proof.
  unfold sorted. rewrite !map_app, !ascending_app. cbn [map fst ascending]. intros (A & B & C) H1 H2.
  split; [exact A|]. split; [split; [|exact B]|].
  - apply Forall_forall. intros x Hx. apply in_map_iff in Hx. destruct Hx as (a & <- & Ha). exact (H2 a Ha).
  - intros x y Hx [<- | Hy]; [|exact (C x y Hx Hy)]. apply in_map_iff in Hx. destruct Hx as (a & <- & Ha). exact (H1 a Ha).
Qed.
Lemma insert_sorted s k v : sorted s -> sorted (aset_insert s k v).
Proof.
  intros S. destruct (insert_form s k v S) as (s1 & s2 & -> & H1 & H2 & [-> | (v' & ->)]); apply sorted_form; auto.
  unfold sorted in *. rewrite map_app, ascending_app in *. cbn [map ascending] in S. destruct S as (A & [B C] & D).
  split; [exact A|]. split; [exact C|]. intros x y Hx Hy. apply D; [exact Hx|right; exact Hy].
Qed.
Lemma insert_assoc s k v k' : sorted s ->
  assoc (aset_insert s k v) k' = if list_eq_dec N.eq_dec k k' then Some v else assoc s k'.
Proof.
  intros S. destruct (insert_form s k v S) as (s1 & s2 & -> & H1 & H2 & E). rewrite assoc_app. cbn [assoc].
  destruct (list_eq_dec N.eq_dec k k') as [<- | N].
  - rewrite (assoc_none s1 k) by (intros a Ha; apply before_ne, H1, Ha). reflexivity.
  - destruct E as [-> | (v' & ->)]; rewrite assoc_app; [reflexivity|]. cbn [assoc].
    destruct (list_eq_dec N.eq_dec k k'); [contradiction|reflexivity].
Qed.
Lemma insert_all_sorted l s : sorted s -> sorted (aset_insert_all s l).
Proof. revert s. induction l as [|[k v] l IH]; intros s S; [exact S|]. cbn. apply IH, insert_sorted, S. Qed.

(** *** merge, count_same, ==, collisions *)
Lemma union_nil_r less x : set_union less x [] = x.
Proof. destruct x; reflexivity. Qed.
Lemma union_cons less a x b y : set_union less (a :: x) (b :: y) =
  if less a b then a :: set_union less x (b :: y)
  else if less b a then b :: set_union less (a :: x) y
  else a :: set_union less x y.
Proof. reflexivity. Qed.
Lemma inter_nil_r less x : count_intersection less x [] = 0.
Proof. destruct x; reflexivity. Qed.
Lemma inter_cons less a x b y : count_intersection less (a :: x) (b :: y) =
  if less a b then count_intersection less x (b :: y)
  else if less b a then count_intersection less (a :: x) y
  else S (count_intersection less x y).
Proof. reflexivity. Qed.

Lemma sorted_cons a s : sorted (a :: s) <-> (forall b, In b s -> name_before (fst a) (fst b)) /\ sorted s.
Proof.
  unfold sorted. cbn [map ascending]. rewrite Forall_forall. split; intros [H1 H2]; split; auto.
  - intros b Hb. apply H1, in_map, Hb.
  - intros x Hx. apply in_map_iff in Hx. destruct Hx as (b & <- & Hb). exact (H1 b Hb).
Qed.
Lemma merge_spec x : forall y, sorted x -> sorted y -> sorted (aset_merge x y) /\
  (forall a, In a (aset_merge x y) -> In a x \/ In a y) /\
  forall k, assoc (aset_merge x y) k = match assoc x k with Some v => Some v | None => assoc y k end.
Proof.
  unfold aset_merge. induction x as [|a x IHx]; intros y Sx Sy; [split; [destruct y; exact Sy|split; [intros a; destruct y; cbn; auto|intros k; destruct y; reflexivity]]|].
  induction y as [|b y IHy].
  { rewrite union_nil_r. split; [exact Sx|]. split; [auto|]. intros k. destruct (assoc (a :: x) k); reflexivity. }
  rewrite union_cons. pose proof Sx as Sx0. pose proof Sy as Sy0. apply sorted_cons in Sx, Sy.
  destruct Sx as [X1 X2], Sy as [Y1 Y2]. change (attr_less_key a b) with (range_less (fst a) (fst b)). change (attr_less_key b a) with (range_less (fst b) (fst a)).
  destruct (range_lessP (fst a) (fst b)) as [L | L].
  - destruct (IHx (b :: y) X2 Sy0) as (H1 & H2 & H3). split; [|split].
    + apply sorted_cons. split; [|exact H1]. intros c Hc. destruct (H2 c Hc) as [Hc' | [<- | Hc']]; auto.
      apply (before_trans _ (fst b)); auto.
    + intros c [-> | Hc]; [left; left; reflexivity|]. destruct (H2 c Hc); cbn; auto.
    + intros k. destruct a as [ka va]. cbn [assoc]. destruct (list_eq_dec N.eq_dec ka k); [reflexivity|]. rewrite H3. reflexivity.
  - destruct (range_lessP (fst b) (fst a)) as [M | M].
    + destruct (IHy Y2) as (H1 & H2 & H3). split; [|split].
      * apply sorted_cons. split; [|exact H1]. intros c Hc. destruct (H2 c Hc) as [[<- | Hc'] | Hc']; auto.
        apply (before_trans _ (fst a)); auto.
      * intros c [-> | Hc]; [right; left; reflexivity|]. destruct (H2 c Hc); cbn in *; tauto.
      * intros k. destruct b as [kb vb]. cbn [fst] in *.
        change (assoc ((kb, vb) :: set_union attr_less_key (a :: x) y) k)
          with (if list_eq_dec N.eq_dec kb k then Some vb else assoc (set_union attr_less_key (a :: x) y) k).
        change (assoc ((kb, vb) :: y) k) with (if list_eq_dec N.eq_dec kb k then Some vb else assoc y k). rewrite H3.
        destruct (list_eq_dec N.eq_dec kb k) as [-> | ]; [|reflexivity].
        rewrite (assoc_none (a :: x) k); [reflexivity|]. intros c [<- | Hc] E.
        -- apply (before_ne _ _ M). congruence.
        -- apply (before_ne k (fst c)); [|congruence]. apply (before_trans _ (fst a)); auto.
    + assert (E : fst a = fst b) by (destruct (before_total (fst a) (fst b)) as [?|[?|?]]; tauto).
      destruct (IHx y X2 Y2) as (H1 & H2 & H3). split; [|split].
      * apply sorted_cons. split; [|exact H1]. intros c Hc. destruct (H2 c Hc) as [Hc' | Hc']; auto. rewrite E. auto.
      * intros c [-> | Hc]; [left; left; reflexivity|]. destruct (H2 c Hc); cbn; tauto.
      * intros k. destruct a as [ka va], b as [kb vb]. cbn [assoc fst] in *. subst kb.
        destruct (list_eq_dec N.eq_dec ka k); [reflexivity|]. apply H3.
Qed.

(** the same text *)
Definition same_text (v w : trange) : bool := range_equal (tr_text v) (tr_text w).
Definition shared (o : aset) (test : trange -> trange -> bool) (a : attribute) : bool :=
  match assoc o (fst a) with Some w => test (snd a) w | None => false end.

Lemma shared_tail b y test a : fst a <> fst b -> shared (b :: y) test a = shared y test a.
Proof.
  intros N. unfold shared. destruct b as [kb vb]. cbn [assoc fst] in *.
  destruct (list_eq_dec N.eq_dec kb (fst a)); [congruence|reflexivity].
Qed.
Lemma filter_shared_tail b y test x : (forall a, In a x -> fst a <> fst b) ->
  filter (shared (b :: y) test) x = filter (shared y test) x.
Proof.
  intros H. induction x as [|a x IH]; [reflexivity|]. cbn [filter]. rewrite shared_tail by (apply H; left; reflexivity).
  rewrite IH by (intros c Hc; apply H; right; exact Hc). reflexivity.
Qed.
Lemma shared_none o test a : (forall b, In b o -> fst b <> fst a) -> shared o test a = false.
Proof. intros H. unfold shared. rewrite assoc_none; [reflexivity|exact H]. Qed.
Lemma count_spec test less x : 
  (forall a b, less a b = true -> name_before (fst a) (fst b) \/ fst a = fst b /\ test (snd a) (snd b) = false) ->
  (forall a b, less a b = true -> less b a = true -> False) ->
  (forall a b, less a b = false -> less b a = false -> fst a = fst b /\ test (snd a) (snd b) = true) ->
  (forall a b, test a b = test b a) ->
  forall y, sorted x -> sorted y ->
  count_intersection less x y = length (filter (shared y test) x).
Proof.
  intros L1 L2 L3 T. induction x as [|a x IHx]; intros y Sx Sy; [destruct y; reflexivity|].
  induction y as [|b y IHy].
  { rewrite inter_nil_r. symmetry. clear. induction (a :: x) as [|c l IH]; [reflexivity|exact IH]. }
  rewrite inter_cons. pose proof Sx as Sx0. pose proof Sy as Sy0. apply sorted_cons in Sx, Sy.
  destruct Sx as [X1 X2], Sy as [Y1 Y2]. destruct (less a b) eqn:E1.
  - rewrite IHx by assumption. cbn [filter]. replace (shared (b :: y) test a) with false; [reflexivity|].
    symmetry. destruct (L1 _ _ E1) as [H | [H1 H2]].
    + apply shared_none. intros c [<- | Hc] E.
      * apply (before_ne _ _ H). congruence.
      * apply (before_ne (fst a) (fst c)); [|congruence]. apply (before_trans _ (fst b)); auto.
    + unfold shared. destruct b as [kb vb]. cbn [fst snd assoc] in *. rewrite H1.
      destruct (list_eq_dec N.eq_dec kb kb); [exact H2|contradiction].
  - destruct (less b a) eqn:E2.
    + rewrite IHy by assumption. destruct (L1 _ _ E2) as [H | [H1 H2]].
      * rewrite filter_shared_tail; [reflexivity|]. intros c [<- | Hc] E.
        -- apply (before_ne _ _ H). congruence.
        -- apply (before_ne (fst b) (fst c)); [|congruence]. apply (before_trans _ (fst a)); auto.
      * cbn [filter]. replace (shared (b :: y) test a) with false.
        -- replace (shared y test a) with false.
           ++ rewrite filter_shared_tail; [reflexivity|]. intros c Hc E.
              apply (before_ne (fst a) (fst c)); [auto|congruence].
           ++ symmetry. apply shared_none. intros c Hc E. apply (before_ne (fst b) (fst c)); [auto|congruence].
        -- symmetry. unfold shared. destruct b as [kb vb]. cbn [fst snd assoc] in *. rewrite H1.
           destruct (list_eq_dec N.eq_dec (fst a) (fst a)); [|contradiction]. rewrite T. exact H2.
    + destruct (L3 _ _ E1 E2) as [H1 H2]. rewrite IHx by assumption. cbn [filter].
      replace (shared (b :: y) test a) with true.
      * cbn [length]. f_equal. rewrite filter_shared_tail; [reflexivity|]. intros c Hc E.
        apply (before_ne (fst a) (fst c)); [auto|congruence].
      * symmetry. unfold shared. destruct b as [kb vb]. cbn [fst snd assoc] in *. rewrite H1.
        destruct (list_eq_dec N.eq_dec kb kb); [exact H2|contradiction].
Qed.
Lemma count_keys x y : sorted x -> sorted y ->
  aset_count_same x y false = length (filter (shared y (fun _ _ => true)) x).
Proof.
  intros. unfold aset_count_same. apply count_spec; auto; unfold attr_less_key; intros a b.
  - intros L. destruct (range_lessP (fst a) (fst b)); [left; assumption|discriminate].
  - destruct (range_lessP (fst a) (fst b)), (range_lessP (fst b) (fst a)); try discriminate.
    intros _ _. exact (before_asym _ _ n n0).
  - destruct (range_lessP (fst a) (fst b)), (range_lessP (fst b) (fst a)); try discriminate. intros _ _.
    split; [|reflexivity]. destruct (before_total (fst a) (fst b)) as [?|[?|?]]; tauto.
Qed.
Lemma same_text_sym v w : same_text v w = same_text w v.
Proof. unfold same_text. destruct (range_equalP (tr_text v) (tr_text w)), (range_equalP (tr_text w) (tr_text v)); congruence. Qed.
Lemma count_texts x y : sorted x -> sorted y ->
  aset_count_same x y true = length (filter (shared y same_text) x).
Proof.
  intros. unfold aset_count_same. apply count_spec; auto using same_text_sym; unfold attr_less, same_text; intros a b.
  - destruct (range_lessP (fst a) (fst b)) as [|N1]; [left; assumption|].
    destruct (range_lessP (fst b) (fst a)) as [|N2]; [discriminate|].
    destruct (range_lessP (tr_text (snd a)) (tr_text (snd b))) as [L|]; [|discriminate]. intros _. right.
    split; [destruct (before_total (fst a) (fst b)) as [?|[?|?]]; tauto|].
    destruct (range_equalP (tr_text (snd a)) (tr_text (snd b))) as [E|]; [|reflexivity]. exfalso. exact (before_ne _ _ L E).
  - destruct (range_lessP (fst a) (fst b)) as [Y1|N1], (range_lessP (fst b) (fst a)) as [Y2|N2];
      try (intros; discriminate); [intros _ _; exact (before_asym _ _ Y1 Y2)|].
    destruct (range_lessP (tr_text (snd a)) (tr_text (snd b))) as [Y1|], (range_lessP (tr_text (snd b)) (tr_text (snd a))) as [Y2|];
      try (intros; discriminate). intros _ _. exact (before_asym _ _ Y1 Y2).
  - destruct (range_lessP (fst a) (fst b)) as [Y1|N1], (range_lessP (fst b) (fst a)) as [Y2|N2]; try (intros; discriminate).
    destruct (range_lessP (tr_text (snd a)) (tr_text (snd b))) as [Y1|M1], (range_lessP (tr_text (snd b)) (tr_text (snd a))) as [Y2|M2];
      try (intros; discriminate). intros _ _.
    split; [destruct (before_total (fst a) (fst b)) as [?|[?|?]]; tauto|].
    destruct (range_equalP (tr_text (snd a)) (tr_text (snd b))) as [E|N]; [reflexivity|].
    exfalso. destruct (before_total (tr_text (snd a)) (tr_text (snd b))) as [?|[?|?]]; tauto.
Qed.

Lemma find_spec o k : sorted o ->
  match aset_lower_bound o k with
  | Some (i, true) => exists v, assoc o k = Some v /\ nth_error o i = Some (k, v)
  | Some (i, false) => assoc o k = None
  | None => False
  end.
Proof.
  intros S. destruct (lower_bound_splits o k S) as (s1 & s2 & -> & H1 & [(v & s2' & -> & H2 & L) | (H2 & L)]); rewrite L;
    rewrite assoc_app, (assoc_none s1 k) by (intros a Ha; apply before_ne, H1, Ha).
  - exists v. cbn [assoc]. destruct (list_eq_dec N.eq_dec k k); [|contradiction]. split; [reflexivity|].
    rewrite nth_error_app2, Nat.sub_diag by lia. reflexivity.
  - apply assoc_none. intros a Ha E. apply (before_ne _ _ (H2 a Ha)). auto.
Qed.
Lemma has_collisions_spec s o : sorted o ->
  aset_has_collisions s o = existsb (shared o (fun v w => negb (same_text v w))) s.
Proof.
  intros So. induction s as [|a s IH]; [reflexivity|]. cbn [aset_has_collisions existsb]. unfold shared at 1.
  pose proof (find_spec o (fst a) So) as F. destruct (aset_lower_bound o (fst a)) as [[i [|]]|]; [| |contradiction].
  - destruct F as (v & -> & ->). cbn [snd]. fold (same_text v (snd a)). rewrite (same_text_sym v).
    destruct (same_text (snd a) v); cbn [negb orb]; [exact IH|reflexivity].
  - rewrite F. exact IH.
Qed.
Lemma same_memory_sym v w : same_memory v w = same_memory w v.
Proof. unfold same_memory. rewrite Nat.eqb_sym, (Nat.eqb_sym (length (tr_text v))). reflexivity. Qed.
Lemma count_collisions_spec s o : sorted o ->
  aset_count_collisions s o = length (filter (shared o (fun v w => negb (same_memory v w))) s).
Proof.
  intros So. induction s as [|a s IH]; [reflexivity|]. cbn [aset_count_collisions filter].
  replace (shared o (fun v w => negb (same_memory v w)) a) with
    (match aset_lower_bound o (fst a) with
     | Some (i, true) => match nth_error o i with Some b => negb (same_memory (snd b) (snd a)) | None => false end
     | _ => false end).
  - rewrite IH. destruct (aset_lower_bound o (fst a)) as [[i [|]]|]; try reflexivity.
    destruct (nth_error o i) as [b|]; [|reflexivity]. destruct (negb (same_memory (snd b) (snd a))); reflexivity.
  - unfold shared. pose proof (find_spec o (fst a) So) as F.
    destruct (aset_lower_bound o (fst a)) as [[i [|]]|]; [| |contradiction].
    + destruct F as (v & -> & ->). cbn [snd]. rewrite same_memory_sym. reflexivity.
    + rewrite F. reflexivity.
Qed.

Lemma filter_all {A} (p : A -> bool) l : length (filter p l) = length l <-> forall x, In x l -> p x = true.
Proof.
  induction l as [|a l IH]; cbn; [split; [intros _ ? []|reflexivity]|].
  assert (B : length (filter p l) <= length l) by (clear; induction l as [|b l IH]; cbn; [lia|destruct (p b); cbn; lia]).
  destruct (p a) eqn:E; cbn; split; intros H.
  - intros x [<- | Hx]; [exact E|]. apply IH; [lia|exact Hx].
  - f_equal. apply IH. intros x Hx. apply H. right. exact Hx.
  - lia.
  - rewrite (H a) in E; [discriminate|left; reflexivity].
Qed.
Lemma sorted_nodup s : sorted s -> NoDup (map fst s).
Proof.
  induction s as [|a s IH]; intros S; [constructor|]. apply sorted_cons in S. destruct S as [S1 S2]. cbn. constructor; [|auto].
  intros H. apply in_map_iff in H. destruct H as (b & E & Hb). apply (before_ne _ _ (S1 b Hb)). auto.
Qed.
Definition text_at (s : aset) (k : bytes) : option bytes := option_map tr_text (assoc s k).
Lemma eq_spec s o : sorted s -> sorted o -> (aset_eq s o = true <-> forall k, text_at s k = text_at o k).
Proof.
  intros Ss So. unfold aset_eq. rewrite andb_true_iff, !Nat.eqb_eq, count_texts by assumption. rewrite filter_all. split.
  - intros [E H] k. unfold text_at.
    assert (F : forall a, In a s -> exists w, assoc o (fst a) = Some w /\ tr_text (snd a) = tr_text w).
    { intros a Ha. specialize (H a Ha). unfold shared in H. destruct (assoc o (fst a)) as [w|]; [|discriminate].
      exists w. split; [reflexivity|]. unfold same_text in H. destruct (range_equalP (tr_text (snd a)) (tr_text w)); [assumption|discriminate]. }
    destruct (assoc s k) as [v|] eqn:Ek.
    + apply assoc_in in Ek. destruct (F _ Ek) as (w & Ew & Et). cbn in Ew, Et. rewrite Ew. cbn. f_equal. exact Et.
    + destruct (assoc o k) as [w|] eqn:Eo; [|reflexivity]. exfalso. apply assoc_in in Eo.
      assert (I : incl (map fst s) (map fst o)).
      { intros x Hx. apply in_map_iff in Hx. destruct Hx as (a & <- & Ha). destruct (F a Ha) as (w' & Ew & _).
        apply assoc_in in Ew. apply in_map_iff. exists (fst a, w'). split; [reflexivity|exact Ew]. }
      assert (K : In k (map fst s)).
      { apply (NoDup_length_incl (sorted_nodup s Ss)) in I; [|rewrite !map_length; lia]. apply I.
        apply in_map_iff. exists (k, w). split; [reflexivity|exact Eo]. }
      apply in_map_iff in K. destruct K as ([k' v] & E1 & Hv). cbn in E1. subst k'.
      rewrite (in_assoc s k v Ss Hv) in Ek. discriminate.
  - intros H.
    assert (I : forall x y, sorted x -> (forall k, text_at x k = text_at y k) -> incl (map fst x) (map fst y)).
    { intros x y Sx Hxy k Hk. apply in_map_iff in Hk. destruct Hk as ([k' v] & E1 & Hv). cbn in E1. subst k'.
      specialize (Hxy k). unfold text_at in Hxy. rewrite (in_assoc x k v Sx Hv) in Hxy. cbn in Hxy.
      destruct (assoc y k) as [w|] eqn:E; [|discriminate]. apply assoc_in in E.
      apply in_map_iff. exists (k, w). split; [reflexivity|exact E]. }
    split.
    + pose proof (NoDup_incl_length (sorted_nodup s Ss) (I s o Ss H)) as L1.
      pose proof (NoDup_incl_length (sorted_nodup o So) (I o s So (fun k => eq_sym (H k)))) as L2.
      rewrite !map_length in *. lia.
    + intros [k v] Ha. specialize (H k). unfold text_at in H. rewrite (in_assoc s k v Ss Ha) in H. cbn in H.
      unfold shared. cbn [fst snd]. destruct (assoc o k) as [w|]; [|discriminate]. cbn in H. injection H as H.
      unfold same_text. destruct (range_equalP (tr_text v) (tr_text w)); [reflexivity|contradiction].
Qed.

(** *** The list the client sees *)
Lemma texts_keys s : map fst (texts s) = map fst s.
Proof. unfold texts. rewrite map_map. reflexivity. Qed.
Lemma texts_assoc s k : assoc (texts s) k = text_at s k.
Proof.
  unfold text_at. induction s as [|[m v] s IH]; [reflexivity|].
  cbn [texts map fst snd assoc]. destruct (list_eq_dec N.eq_dec m k); [reflexivity|exact IH].
Qed.
Lemma last_value_app l1 l2 n : last_value (l1 ++ l2) n = match last_value l2 n with Some v => Some v | None => last_value l1 n end.
Proof.
  induction l1 as [|[m v] l1 IH]; cbn [app last_value]; [destruct (last_value l2 n); reflexivity|]. rewrite IH.
  destruct (last_value l2 n); reflexivity.
Qed.
(** [s] has been built from the attributes [ats] *)
Definition built (ats : list (bytes * bytes)) (s : aset) : Prop :=
  sorted s /\ forall k, text_at s k = last_value ats k.
Lemma built_nil : built [] [].
Proof. split; [exact I|reflexivity]. Qed.
Lemma built_insert ats s k v : built ats s -> built (ats ++ [(k, tr_text v)]) (aset_insert s k v).
Proof.
  intros [S H]. split; [apply insert_sorted, S|]. intros k'. unfold text_at in *. rewrite insert_assoc by exact S.
  rewrite last_value_app. cbn [last_value]. destruct (list_eq_dec N.eq_dec k k'); [reflexivity|apply H].
Qed.
Lemma built_denotes ats s : built ats s -> denotes ats (texts s).
Proof.
  intros [S H]. split; [rewrite texts_keys; exact S|]. intros n v. rewrite <- H, <- texts_assoc. split.
  - apply in_assoc. rewrite texts_keys. exact S.
  - apply assoc_in.
Qed.
Lemma ascending_unique {V} (l1 : list (bytes * V)) : forall l2, ascending (map fst l1) -> ascending (map fst l2) ->
  (forall a, In a l1 <-> In a l2) -> l1 = l2.
Proof.
  induction l1 as [|a l1 IH]; intros [|b l2] A1 A2 H; [reflexivity| | |].
  - exfalso. apply (proj2 (H b)). left. reflexivity.
  - exfalso. apply (proj1 (H a)). left. reflexivity.
  - cbn [map ascending] in A1, A2. destruct A1 as [A1 B1], A2 as [A2 B2]. rewrite Forall_forall in A1, A2.
    assert (E : a = b).
    { destruct (proj1 (H a) (or_introl eq_refl)) as [E | Ha]; [auto|].
      destruct (proj2 (H b) (or_introl eq_refl)) as [E | Hb]; [auto|]. exfalso.
      apply (before_asym (fst a) (fst b)); [apply A1, in_map, Hb|apply A2, in_map, Ha]. }
    subst b. f_equal. apply IH; auto. intros c. split; intros Hc.
    + destruct (proj1 (H c) (or_intror Hc)) as [E | Hc']; [|exact Hc']. subst c.
      exfalso. apply (before_irrefl (fst a)). apply A1, in_map, Hc.
    + destruct (proj2 (H c) (or_intror Hc)) as [E | Hc']; [|exact Hc']. subst c.
      exfalso. apply (before_irrefl (fst a)). apply A2, in_map, Hc.
Qed.
Lemma denotes_unique ats l1 l2 : denotes ats l1 -> denotes ats l2 -> l1 = l2.
Proof.
  intros [A1 B1] [A2 B2]. apply ascending_unique; auto. intros [n v]. rewrite B1, B2. tauto.
Qed.
