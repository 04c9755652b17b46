(** C38, C60: table_index. *)
From Coq Require Import Permutation Lia PeanoNat List Bool.
From Verif Require Import Prelude Search_Model Search_Props TableIndex_Model.
Import ListNotations.
Ltac Zify.zify_post_hook ::= idtac.

Section TableIndex.
Context {Row Key : Type} (transform : Row -> Key) (compare : Key -> Key -> bool) (key_eqb : Key -> Key -> bool).

(** The contract of std::sort, and so of sort() *)
Definition sorts (sort : list Row -> list Row) : Prop :=
  forall i, Permutation i (sort i) /\ Sorted compare transform (sort i).
(** Two keys are the same when neither is less *)
Definition same_key (a b : Key) : Prop := compare a b = false /\ compare b a = false.

(** *** C60: lookups in a sorted index *)
Theorem C60_searches_bracket_the_key :
  forall (i : list Row) (k : Key), strict_weak_order compare -> Sorted compare transform i ->
    exists lo hi, lower_bound transform compare i k = Some lo /\ upper_bound transform compare i k = Some hi /\
      equal_range transform compare i k = Some (lo, hi) /\ lo <= hi <= length i /\
      forall j r, nth_error i j = Some r -> (lo <= j < hi <-> same_key (transform r) k).
Proof.
  intros i k W HS.
  destruct (@C28_searches_of_sorted_ranges _ _ compare transform i k W HS) as (lo & hi & k1 & k2 & k3 & H1 & H2 & H3 & _ & _ & _ & Hb & H).
  exists lo, hi. unfold lower_bound, upper_bound, equal_range. rewrite H1, H2, H3.
  split; [reflexivity|]. split; [reflexivity|]. split; [reflexivity|]. split; [exact Hb|].
  intros j r N. exact (proj2 (proj2 (H j r N))).
Qed.
(** find gives the first row with the key, and the end exactly when there is none; operator[] gives that
    row, and throws exactly when there is none.  Key's == has to agree with the ordering. *)
Theorem C60_find_and_subscript :
  forall (i : list Row) (k : Key), strict_weak_order compare -> Sorted compare transform i ->
    (forall a, key_eqb a k = true <-> same_key a k) ->
    (exists j r, find transform compare key_eqb i k = Some j /\ nth_error i j = Some r /\ same_key (transform r) k /\
        subscript transform compare key_eqb i k = Some (inr r) /\
        forall j' r', j' < j -> nth_error i j' = Some r' -> ~ same_key (transform r') k) \/
    (find transform compare key_eqb i k = Some (length i) /\ subscript transform compare key_eqb i k = Some (inl tt) /\
        forall r, In r i -> ~ same_key (transform r) k).
Proof.
  intros i k W HS Heq. destruct (C60_searches_bracket_the_key i k W HS) as (lo & hi & L & U & _ & B & H).
  unfold subscript, find. rewrite L. destruct (Nat.eqb_spec lo (length i)) as [E|E].
  - right. subst lo. split; [reflexivity|]. rewrite Nat.eqb_refl. split; [reflexivity|].
    intros r Hr K. apply In_nth_error in Hr as (j & Hj). apply (H j r Hj) in K. lia.
  - destruct (nth_error i lo) as [r|] eqn:N; [|apply nth_error_None in N; lia].
    destruct (key_eqb (transform r) k) eqn:K; cbn [negb].
    + left. exists lo, r. apply Heq in K. split; [reflexivity|]. split; [exact N|]. split; [exact K|].
      replace (lo =? length i) with false by (symmetry; apply Nat.eqb_neq; lia). rewrite N. split; [reflexivity|].
      intros j' r' Hj Hr K'. apply (H j' r' Hr) in K'. lia.
    + right. rewrite Nat.eqb_refl. split; [reflexivity|]. split; [reflexivity|]. intros r' Hr K'.
      apply In_nth_error in Hr as (j & Hj). apply (H j r' Hj) in K'.
      assert (X : same_key (transform r) k) by (apply (H lo r N); lia). apply Heq in X. congruence.
Qed.
(** After sort() every row that was put in is found under its key and no other is *)
Corollary C60_sort_then_find :
  forall (sort : list Row -> list Row) (i : list Row) (k : Key), sorts sort -> strict_weak_order compare ->
    (forall a b, key_eqb a b = true <-> same_key a b) ->
    ((exists r, In r i /\ same_key (transform r) k) <->
     exists r, subscript transform compare key_eqb (sort i) k = Some (inr r) /\ In r i /\ same_key (transform r) k) /\
    ((forall r, In r i -> ~ same_key (transform r) k) <->
     subscript transform compare key_eqb (sort i) k = Some (inl tt)).
Proof.
  intros sort i k HS W Heq. destruct (HS i) as [P S].
  destruct (C60_find_and_subscript (sort i) k W S (fun a => Heq a k)) as [(j & r & _ & N & K & Sub & _)|(_ & Sub & H)].
  - assert (I : In r i) by (apply (Permutation_in r (Permutation_sym P)), nth_error_In with (n := j), N).
    split; split.
    + intros _. exists r. auto.
    + intros _. exists r. auto.
    + intros X. exfalso. apply (X r I K).
    + intros X. rewrite Sub in X. discriminate.
  - split; split.
    + intros (r & I & K). exfalso. apply (H r); [apply (Permutation_in r P I)|exact K].
    + intros (r & Sb & I & K). exists r. auto.
    + intros _. exact Sub.
    + intros _ r I. apply H. apply (Permutation_in r P I).
Qed.
(** insert(position, first, last) puts the rows in order at the position *)
Theorem C60_insert_range :
  forall (xs i : list Row) (pos : nat), pos <= length i -> insert i pos xs = firstn pos i ++ xs ++ skipn pos i.
Proof.
  induction xs as [|x xs IH]; intros i pos L; cbn [insert app].
  - symmetry. apply firstn_skipn.
  - assert (FL : length (firstn pos i) = pos) by (rewrite firstn_length; lia). unfold insert1. rewrite IH.
    + replace (S pos) with (length (firstn pos i ++ [x])) by (rewrite app_length; cbn; lia).
      replace (firstn pos i ++ x :: skipn pos i) with ((firstn pos i ++ [x]) ++ skipn pos i) by (rewrite <- app_assoc; reflexivity).
      rewrite firstn_app, firstn_all, Nat.sub_diag, firstn_O, app_nil_r.
      rewrite skipn_app, skipn_all, Nat.sub_diag, skipn_O. rewrite <- !app_assoc. reflexivity.
    + rewrite app_length, FL. cbn. lia.
Qed.

(** *** C38: unique() *)
(** What unique() does keep of a sorted index: all the rows with the smallest key, and nothing else. *)
Lemma unique_after_minimum kept rest : strict_weak_order compare ->
  (forall r, In r rest -> compare (transform r) (transform kept) = false) ->
  (forall a b x y, rest = a ++ x :: b -> In y b -> compare (transform y) (transform x) = false) ->
  unique_after (indirect_compare transform compare) kept rest =
  filter (fun r => negb (compare (transform kept) (transform r))) rest.
Proof.
  intros W. destruct W as (Irr & Tr & Eq). revert kept. induction rest as [|y rest IH]; intros kept Hk HS; [reflexivity|].
  cbn [unique_after filter]. unfold indirect_compare at 1. destruct (compare (transform kept) (transform y)) eqn:C; cbn [negb].
  - apply IH; [intros r Hr; apply Hk; right; exact Hr|].
    intros a b x z E Hz. apply (HS (y :: a) b x z); [rewrite E; reflexivity|exact Hz].
  - f_equal. rewrite IH.
    + apply filter_ext_in. intros r Hr. f_equal.
      assert (Ky : compare (transform y) (transform kept) = false) by (apply Hk; left; reflexivity).
      assert (Kr : compare (transform r) (transform kept) = false) by (apply Hk; right; exact Hr).
      assert (Yr : compare (transform r) (transform y) = false) by (apply (HS [] rest y r); [reflexivity|exact Hr]).
      destruct (compare (transform y) (transform r)) eqn:E1; destruct (compare (transform kept) (transform r)) eqn:E2; try reflexivity.
      * rewrite (Eq (transform y) (transform kept) (transform r)) in E1; [discriminate|assumption..].
      * rewrite (Eq (transform kept) (transform y) (transform r)) in E2; [discriminate|assumption..].
    + intros r Hr. apply (HS [] rest y r); [reflexivity|exact Hr].
    + intros a b x z E Hz. apply (HS (y :: a) b x z); [rewrite E; reflexivity|exact Hz].
Qed.
Theorem C38_unique_keeps_the_smallest_key_partial :
  forall (x : Row) (rest : list Row), strict_weak_order compare -> Sorted compare transform (x :: rest) ->
    unique transform compare (x :: rest) = filter (fun r => negb (compare (transform x) (transform r))) (x :: rest).
Proof.
  intros x rest W HS. unfold unique, std_unique. cbn [filter]. destruct W as (Irr & Tr & Eq) eqn:E. rewrite Irr. cbn [negb].
  f_equal. apply unique_after_minimum; [exact W| |].
  - intros r Hr. apply In_nth_error in Hr as (j & Hj). apply (HS 0 (S j) x r); [lia|reflexivity|exact Hj].
  - intros a b y z Hl Hz. apply In_nth_error in Hz as (j & Hj). apply (HS (S (length a)) (S (length a + S j)) y z).
    + lia.
    + cbn [nth_error]. rewrite Hl, nth_error_app2 by lia. rewrite Nat.sub_diag. reflexivity.
    + cbn [nth_error]. rewrite Hl, nth_error_app2 by lia. replace (length a + S j - length a) with (S j) by lia. exact Hj.
Qed.
End TableIndex.

(** "Reduces the index to a single value per key": a single row for each key that is present *)
Definition one_row_per_key {Row Key} (transform : Row -> Key) (compare : Key -> Key -> bool) (i u : list Row) : Prop :=
  (forall r, In r u -> In r i) /\
  (forall r, In r i -> exists r', In r' u /\ same_key compare (transform r') (transform r)) /\
  (forall a b j j', nth_error u j = Some a -> nth_error u j' = Some b -> same_key compare (transform a) (transform b) -> j = j').

(** With three different keys two are lost; with a key twice both rows stay *)
Theorem C38_unique_refuted :
  ~ one_row_per_key (fun r : nat => r) Nat.ltb [1; 2; 3] (unique (fun r => r) Nat.ltb [1; 2; 3]) /\
  ~ one_row_per_key (fst : nat * nat -> nat) Nat.ltb [(1, 1); (1, 2)] (unique fst Nat.ltb [(1, 1); (1, 2)]).
Proof.
  split; intros (_ & H2 & H3).
  - destruct (H2 2) as (r' & I & K); [right; left; reflexivity|]. cbn in I. destruct I as [<- | []]. destruct K as [K _]. discriminate.
  - specialize (H3 (1, 1) (1, 2) 0 1 eq_refl eq_refl). discriminate H3. split; reflexivity.
Qed.
(** A unique() that drops a row when neither key is less does have the property *)
Definition equivalent {Row Key} (transform : Row -> Key) (compare : Key -> Key -> bool) (x y : Row) : bool :=
  negb (compare (transform x) (transform y)) && negb (compare (transform y) (transform x)).
Lemma unique_after_in {Row} (pred : Row -> Row -> bool) rest : forall kept r, In r (unique_after pred kept rest) -> In r rest.
Proof.
  induction rest as [|y rest IH]; intros kept r H; [exact H|]. cbn [unique_after] in H.
  destruct (pred kept y); [right; apply (IH _ _ H)|]. destruct H as [H|H]; [left; exact H|right; apply (IH _ _ H)].
Qed.
Theorem C38_unique_by_equivalence_would_hold :
  forall (Row Key : Type) (transform : Row -> Key) (compare : Key -> Key -> bool) (i : list Row),
    strict_weak_order compare -> Sorted compare transform i ->
    one_row_per_key transform compare i (std_unique (equivalent transform compare) i).
Proof.
  intros Row Key transform compare i W HS. pose proof W as (Irr & Tr & Eqv).
  destruct i as [|x rest]; cbn [std_unique].
  { split; [auto|]. split; [intros r []|]. intros a b [|j]; discriminate. }
  assert (G : forall rest kept, Sorted compare transform (kept :: rest) ->
    (forall r, In r (kept :: rest) -> exists r', In r' (kept :: unique_after (equivalent transform compare) kept rest) /\ same_key compare (transform r') (transform r)) /\
    (forall r, In r (unique_after (equivalent transform compare) kept rest) -> compare (transform kept) (transform r) = true) /\
    (forall a b j j', j < j' -> nth_error (unique_after (equivalent transform compare) kept rest) j = Some a ->
       nth_error (unique_after (equivalent transform compare) kept rest) j' = Some b -> compare (transform a) (transform b) = true)).
  { clear x rest HS. induction rest as [|y rest IH]; intros kept HS.
    - split; [|split].
      + intros r [<- | []]. exists kept. split; [left; reflexivity|]. split; apply Irr.
      + intros r [].
      + intros a b [|j]; discriminate.
    - assert (Ky : compare (transform y) (transform kept) = false) by (apply (HS 0 1 kept y); [lia|reflexivity|reflexivity]).
      cbn [unique_after]. replace (equivalent transform compare kept y) with (negb (compare (transform kept) (transform y)))
        by (unfold equivalent; rewrite Ky, andb_true_r; reflexivity).
      assert (S1 : Sorted compare transform (y :: rest)).
      { intros p q a b Hl Ha Hb. apply (HS (S p) (S q) a b); [lia|exact Ha|exact Hb]. }
      assert (S2 : Sorted compare transform (kept :: rest)).
      { intros p q a b Hl Ha Hb. destruct q as [|q]; [lia|]. destruct p as [|p].
        - apply (HS 0 (S (S q)) a b); [lia|exact Ha|exact Hb].
        - apply (HS (S (S p)) (S (S q)) a b); [lia|exact Ha|exact Hb]. }
      destruct (compare (transform kept) (transform y)) eqn:C; cbn [negb].
      + destruct (IH y S1) as (A1 & A2 & A3). split; [|split].
        * intros r [<- | Hr]; [exists kept; split; [left; reflexivity|split; apply Irr]|].
          destruct (A1 r Hr) as (r' & I' & K'). exists r'. split; [right; exact I'|exact K'].
        * intros r [<- | Hr]; [exact C|]. apply (Tr _ (transform y)); [exact C|apply A2, Hr].
        * intros a b [|j] [|j'] Hj Ha Hb; cbn in Ha, Hb; try lia.
          -- injection Ha as <-. apply A2. apply nth_error_In with (n := j'), Hb.
          -- apply (A3 a b j j'); [lia|exact Ha|exact Hb].
      + destruct (IH kept S2) as (A1 & A2 & A3). split; [|split; [exact A2|exact A3]].
        intros r [<- | [<- | Hr]].
        * exists kept. split; [left; reflexivity|split; apply Irr].
        * exists kept. split; [left; reflexivity|split; assumption].
        * apply A1. right; exact Hr. }
  destruct (G rest x HS) as (A1 & A2 & A3). split; [|split].
  - intros r [<- | Hr]; [left; reflexivity|]. right. apply (unique_after_in _ _ _ _ Hr).
  - exact A1.
  - assert (Asym : forall a b, nth_error (x :: unique_after (equivalent transform compare) x rest) a = Some b -> True) by auto. clear Asym.
    assert (Inc : forall a b j j', j < j' -> nth_error (x :: unique_after (equivalent transform compare) x rest) j = Some a ->
      nth_error (x :: unique_after (equivalent transform compare) x rest) j' = Some b -> compare (transform a) (transform b) = true).
    { intros a b [|j] [|j'] Hj Ha Hb; cbn in Ha, Hb; try lia.
      - injection Ha as <-. apply A2. apply nth_error_In with (n := j'), Hb.
      - apply (A3 a b j j'); [lia|exact Ha|exact Hb]. }
    intros a b j j' Ha Hb [K1 K2]. destruct (Nat.lt_trichotomy j j') as [L|[L|L]]; [|exact L|].
    + rewrite (Inc a b j j' L Ha Hb) in K1. discriminate.
    + rewrite (Inc b a j' j L Hb Ha) in K2. discriminate.
Qed.

Example C60_case : subscript fst Nat.ltb Nat.eqb [(1, 10); (2, 20); (2, 21); (5, 50)] 2 = Some (inr (2, 20)) /\
  subscript fst Nat.ltb Nat.eqb [(1, 10); (2, 20); (2, 21); (5, 50)] 3 = Some (inl tt) /\
  equal_range fst Nat.ltb [(1, 10); (2, 20); (2, 21); (5, 50)] 2 = Some (1, 3) /\
  unique fst Nat.ltb [(1, 10); (1, 11); (2, 20); (2, 21); (5, 50)] = [(1, 10); (1, 11)].
Proof. repeat split. Qed.
