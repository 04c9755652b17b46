(** Cells, circular lists, and taking one node out of a column and putting it back. *)
From Verif Require Import Prelude Dlx_Model.
From Coq Require Import List Arith ZArith Lia Bool Permutation.
Import ListNotations.
Ltac Zify.zify_post_hook ::= idtac.

Lemma set_nth_length {A} (l : list A) n x : length (set_nth n x l) = length l.
Proof. revert n; induction l as [|y l IH]; intros [|n]; cbn; auto. Qed.
Lemma nth_set_same {A} (l : list A) n x d : n < length l -> nth n (set_nth n x l) d = x.
Proof. revert n; induction l as [|y l IH]; intros [|n]; cbn; intros; try lia; auto. apply IH. lia. Qed.
Lemma nth_set_other {A} (l : list A) n k x d : n <> k -> nth k (set_nth n x l) d = nth k l d.
Proof. revert n k; induction l as [|y l IH]; intros [|n] [|k]; cbn; intros; try lia; auto. Qed.
Lemma set_set {A} (l : list A) n x y : set_nth n y (set_nth n x l) = set_nth n y l.
Proof. revert n; induction l as [|z l IH]; intros [|n]; cbn; auto. now rewrite IH. Qed.
Lemma set_id {A} (l : list A) n d : set_nth n (nth n l d) l = l.
Proof. revert n; induction l as [|z l IH]; intros [|n]; cbn; auto. now rewrite IH. Qed.
Lemma set_comm {A} (l : list A) n k x y : n <> k -> set_nth n x (set_nth k y l) = set_nth k y (set_nth n x l).
Proof. revert n k; induction l as [|z l IH]; intros [|n] [|k]; cbn; intros; try lia; auto. rewrite IH; auto. Qed.
Lemma rd_same l a v : a < length l -> rd (set_nth a v l) a = v. Proof. apply nth_set_same. Qed.
Lemma rd_other l a b v : a <> b -> rd (set_nth a v l) b = rd l b. Proof. apply nth_set_other. Qed.
Lemma rdz_same l a v : a < length l -> rdz (set_nth a v l) a = v. Proof. apply nth_set_same. Qed.
Lemma rdz_other l a b v : a <> b -> rdz (set_nth a v l) b = rdz l b. Proof. apply nth_set_other. Qed.
Lemma set_back l a b v : rd l a = v -> set_nth a v (set_nth a b l) = l.
Proof. intros <-. rewrite set_set. apply set_id. Qed.
Lemma set_backz l a b v : rdz l a = v -> set_nth a v (set_nth a b l) = l.
Proof. intros <-. rewrite set_set. apply set_id. Qed.

(** ** lists linked both ways *)
Fixpoint path (D U : list nat) (x : nat) (l : list nat) (y : nat) : Prop :=
  match l with [] => rd D x = y /\ rd U y = x | z :: r => rd D x = z /\ rd U z = x /\ path D U z r y end.
Record ring (D U : list nat) (c : nat) (l : list nat) : Prop := {
  r_path : path D U c l c;
  r_nodup : NoDup (c :: l);
  r_low : forall x, In x (c :: l) -> x < length D;
  r_len : length D = length U }.

Lemma path_frame D U D' U' x l y : (forall a, In a (x :: l) -> rd D' a = rd D a) -> (forall a, In a (l ++ [y]) -> rd U' a = rd U a) -> path D U x l y -> path D' U' x l y.
Proof.
  revert x; induction l as [|z l IH]; intros x HD HU; cbn in *.
  - intros [A B]. split; [rewrite HD|rewrite HU]; auto.
  - intros (A & B & C). split; [rewrite HD; auto|]. split; [rewrite HU; auto|]. apply IH; auto.
Qed.
Lemma path_app D U x l1 z l2 y : path D U x (l1 ++ z :: l2) y <-> path D U x l1 z /\ path D U z l2 y.
Proof. revert x; induction l1 as [|a l1 IH]; intros x; cbn; [tauto|]. rewrite IH. tauto. Qed.
Lemma ring_frame D U D' U' c l : ring D U c l -> length D' = length D -> length U' = length U -> (forall a, In a (c :: l) -> rd D' a = rd D a) -> (forall a, In a (c :: l) -> rd U' a = rd U a) -> ring D' U' c l.
Proof.
  intros [P N W E] LD LU HD HU. split; [|auto|intros; rewrite LD; auto|congruence]. revert P. apply path_frame; [auto|]. intros a H. apply HU. apply in_app_iff in H as [H|[<- |[]]]; [now right|now left].
Qed.
Lemma ring_rotate D U c l1 x l2 : ring D U c (l1 ++ x :: l2) -> ring D U x (l2 ++ c :: l1).
Proof.
  intros [P N W E]. assert (Q : Permutation (c :: l1 ++ x :: l2) (x :: l2 ++ c :: l1)).
  { rewrite app_comm_cons, (app_comm_cons l2). apply Permutation_app_comm. }
  split; [|eapply Permutation_NoDup; eauto|intros a H; apply W; rewrite Q; exact H|exact E].
  apply path_app in P. apply path_app. tauto.
Qed.
Lemma last_cons {A} (v : A) l x : last (v :: l) x = last l v.
Proof. revert v x; induction l as [|y l IH]; intros v x; [reflexivity|]. change (last (v :: y :: l) x) with (last (y :: l) x). rewrite IH. symmetry. apply IH. Qed.
(** x's neighbours *)
Lemma ring_at D U c l1 x l2 : ring D U c (l1 ++ x :: l2) -> rd D x = hd c l2 /\ rd U x = last l1 c /\ rd D (last l1 c) = x /\ rd U (hd c l2) = x.
Proof.
  intros [P _ _ _]. apply path_app in P as [P Q]. assert (A : forall D U x l y, path D U x l y -> rd D x = hd y l /\ rd U (hd y l) = x) by (intros ? ? ? [|? ?] ?; cbn; tauto).
  assert (B : forall l D U x y, path D U x l y -> rd U y = last l x /\ rd D (last l x) = y).
  { induction l as [|z l IH]; intros D' U' x' y'; cbn [path]; [cbn; tauto|]. intros (_ & _ & H). apply IH in H. rewrite last_cons. exact H. }
  destruct (A _ _ _ _ _ Q) as [A1 A2]. destruct (B _ _ _ _ _ P) as [B1 B2]. auto.
Qed.
Lemma in_last {A} (l : list A) d : In (last l d) (d :: l).
Proof.
  induction l as [|x l IH]; [now left|]. destruct l as [|y l]; [right; now left|]. change (last (x :: y :: l) d) with (last (y :: l) d). destruct IH as [H|H]; [left; exact H|right; right; exact H].
Qed.
Lemma in_hd {A} (l : list A) d : In (hd d l) (d :: l). Proof. destruct l; cbn; auto. Qed.
Lemma path_unlink D U c : length D = length U -> forall l1 x z l2, NoDup (x :: l1 ++ z :: l2) -> ~ In c (l1 ++ z :: l2) -> (forall a, In a (c :: x :: l1 ++ z :: l2) -> a < length D) ->
  path D U x l1 z -> path D U z l2 c -> path (set_nth (last l1 x) (hd c l2) D) (set_nth (hd c l2) (last l1 x) U) x (l1 ++ l2) c.
Proof.
  intros LE. induction l1 as [|v l1 IH]; intros x z l2 N NC W P1 P2.
  - cbn [last app] in *. destruct l2 as [|w l2]; cbn [hd path] in *.
    + split; apply rd_same; [apply W; cbn; auto|rewrite <- LE; apply W; cbn; auto].
    + split; [apply rd_same; apply W; cbn; auto|]. split; [apply rd_same; rewrite <- LE; apply W; cbn; auto|]. destruct P2 as (_ & _ & P2).
      revert P2. apply path_frame.
      * intros a H. apply rd_other. intros <-. apply NoDup_cons_iff in N as [N _]. apply N. now right.
      * intros a H. apply rd_other. intros <-. apply in_app_iff in H as [H|[H|[]]].
        -- apply NoDup_cons_iff in N as [_ N]. apply NoDup_cons_iff in N as [_ N]. apply NoDup_cons_iff in N as [N _]. contradiction.
        -- subst c. apply NC. right. now left.
  - cbn [path] in P1. destruct P1 as (E1 & E2 & P1). cbn [app] in *. apply NoDup_cons_iff in N as [N1 N2].
    assert (Q := IH v z l2 N2 ltac:(intros H; apply NC; now right) ltac:(intros a H; apply W; cbn in *; tauto) P1 P2).
    rewrite last_cons. cbn [path app]. assert (L := in_last l1 v). assert (Hd := in_hd l2 c). split; [|split; [|exact Q]].
    + rewrite rd_other; [exact E1|]. intros E. apply N1. rewrite <- E. destruct L as [L|L]; [now left|right; apply in_app_iff; now left].
    + rewrite rd_other; [exact E2|]. intros E. destruct Hd as [H|H]; [apply NC; left; congruence|].
      apply NoDup_cons_iff in N2 as [N2 _]. apply N2. apply in_app_iff. right. right. rewrite <- E. exact H.
Qed.
Lemma ring_unlink D U c l1 z l2 : ring D U c (l1 ++ z :: l2) -> ring (set_nth (rd U z) (rd D z) D) (set_nth (rd D z) (rd U z) U) c (l1 ++ l2).
Proof.
  intros R. destruct (ring_at _ _ _ _ _ _ R) as (E1 & E2 & _). rewrite E1, E2. destruct R as [P N W E]. split.
  - apply path_app in P as [P Q]. apply path_unlink with (z := z); auto; [now apply NoDup_cons_iff in N|]. intros a [<- |H]; apply W; [now left|exact H].
  - apply NoDup_cons_iff in N as [N1 N2]. constructor; [|eapply NoDup_remove_1; eauto]. intros H. apply N1. apply in_app_iff in H. apply in_app_iff. cbn. tauto.
  - intros a H. rewrite set_nth_length. apply W. destruct H as [H|H]; [now left|right]. apply in_app_iff in H. apply in_app_iff. cbn. tauto.
  - now rewrite !set_nth_length.
Qed.

(** ** one node *)
Definition same_size (m : mem) : Prop :=
  length (ML m) = length (MC m) /\ length (MR m) = length (MC m) /\ length (MU m) = length (MC m) /\ length (MD m) = length (MC m) /\ length (MW m) = length (MC m) /\ length (MK m) = length (MC m) /\ length (MZ m) = length (MC m).
Definition hidden (j : nat) (m : mem) : mem :=
  mk_mem (ML m) (MR m) (set_nth (rd (MD m) j) (rd (MU m) j) (MU m)) (set_nth (rd (MU m) j) (rd (MD m) j) (MD m)) (MC m) (MW m) (MK m)
         (set_nth (rd (MC m) j) (rdz (MZ m) (rd (MC m) j) - 1)%Z (MZ m)) (ncols m).
Lemma hide1_eq j m : rd (MD m) j <> j -> hide1 j m = hidden j m.
Proof.
  intros H. unfold hide1, hidden, set_up, set_down, set_size, up_of, down_of, column_of, size. cbn [ML MR MU MD MC MW MK MZ ncols]. rewrite (rd_other (MU m)); auto.
Qed.
Lemma hide1'_eq j m : rd (MU m) j <> j -> hide1' j m = hidden j m.
Proof.
  intros H. unfold hide1', hidden, set_up, set_down, set_size, up_of, down_of, column_of, size. cbn [ML MR MU MD MC MW MK MZ ncols]. rewrite (rd_other (MD m)); auto.
Qed.
Lemma mem_eta m : mk_mem (ML m) (MR m) (MU m) (MD m) (MC m) (MW m) (MK m) (MZ m) (ncols m) = m. Proof. now destruct m. Qed.
(** putting it back restores everything *)
Lemma show1_hidden j m : rd (MD m) j <> j -> rd (MU m) j <> j -> rd (MD m) (rd (MU m) j) = j -> rd (MU m) (rd (MD m) j) = j -> same_size m -> rd (MC m) j < length (MC m) ->
  show1 j (hidden j m) = m.
Proof.
  intros H1 H2 H3 H4 S L. unfold show1, hidden, set_up, set_down, set_size, up_of, down_of, column_of, size. cbn [ML MR MU MD MC MW MK MZ ncols].
  rewrite (rdz_same (MZ m)) by (destruct S as (_ & _ & _ & _ & _ & _ & ->); exact L). rewrite (rd_other (MD m) (rd (MU m) j)) by auto. rewrite (rd_other _ (rd (MD m) j) j) by auto. rewrite (rd_other (MU m)) by auto.
  rewrite (set_back (MU m)) by exact H4. rewrite (set_back (MD m)) by exact H3. rewrite set_backz by lia. apply mem_eta.
Qed.
Lemma show1'_hidden j m : rd (MD m) j <> j -> rd (MU m) j <> j -> rd (MD m) (rd (MU m) j) = j -> rd (MU m) (rd (MD m) j) = j -> same_size m -> rd (MC m) j < length (MC m) ->
  show1' j (hidden j m) = m.
Proof.
  intros H1 H2 H3 H4 S L. unfold show1', hidden, set_up, set_down, set_size, up_of, down_of, column_of, size. cbn [ML MR MU MD MC MW MK MZ ncols].
  rewrite (rdz_same (MZ m)) by (destruct S as (_ & _ & _ & _ & _ & _ & ->); exact L). rewrite (rd_other (MU m) (rd (MD m) j)) by auto. rewrite (rd_other _ (rd (MU m) j) j) by auto. rewrite (rd_other (MD m)) by auto.
  rewrite (set_back (MU m)) by exact H4. rewrite (set_back (MD m)) by exact H3. rewrite set_backz by lia. apply mem_eta.
Qed.
Lemma hidden_same_size j m : same_size m -> same_size (hidden j m).
Proof. unfold same_size, hidden. cbn [ML MR MU MD MC MW MK MZ]. now rewrite !set_nth_length. Qed.
