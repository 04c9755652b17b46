(** The matrix built by the calls, and what the search finds in it. *)
From Verif Require Import Prelude Dlx_Model Dlx_Spec Dlx_Mem Dlx_Cover.
From Coq Require Import List Arith ZArith Lia Bool Permutation.
Import ListNotations.
Ltac Zify.zify_post_hook ::= idtac.

(** ** a node put at the end of a circular list *)
Lemma rd_app l x a : a < length l -> rd (l ++ [x]) a = rd l a.
Proof. intros H. unfold rd. now rewrite app_nth1. Qed.
Lemma rd_new l x : rd (l ++ [x]) (length l) = x.
Proof. unfold rd. rewrite app_nth2 by lia. now rewrite Nat.sub_diag. Qed.
Lemma rdz_app l x a : a < length l -> rdz (l ++ [x]) a = rdz l a.
Proof. intros H. unfold rdz. now rewrite app_nth1. Qed.
Lemma rdz_new l x : rdz (l ++ [x]) (length l) = x.
Proof. unfold rdz. rewrite app_nth2 by lia. now rewrite Nat.sub_diag. Qed.
Lemma ring_grow D U c l x y : ring D U c l -> ring (D ++ [x]) (U ++ [y]) c l.
Proof.
  intros [P N W E]. split; auto.
  - revert P. apply path_frame; intros a H; apply rd_app; [apply W; exact H|rewrite <- E; apply W; apply in_app_iff in H as [H|[<- |[]]]; [now right|now left]].
  - intros a H. rewrite app_length. specialize (W a H). lia.
  - rewrite !app_length. cbn. lia.
Qed.
Lemma ring_append D U c l : ring D U c l -> ring (set_nth (rd U c) (length D) (D ++ [c])) (set_nth c (length D) (U ++ [rd U c])) c (l ++ [length D]).
Proof.
  intros [P N W E]. assert (Lc : c < length D) by (apply W; now left). assert (E2 : rd U c = last l c) by (now apply path_end with D).
  assert (IL := in_last l c). assert (LL : last l c < length D) by (apply W; exact IL).
  assert (NL : ~ In (length D) (c :: l)) by (intros X; apply W in X; lia).
  split.
  - rewrite E2. apply path_app. cbn [path]. split.
    + assert (PX : forall l x, path D U x l c -> NoDup (x :: l) -> ~ In c l -> (forall a, In a (x :: l) -> a < length D) ->
        path (set_nth (last l x) (length D) (D ++ [c])) (set_nth c (length D) (U ++ [last l x])) x l (length D)).
      { clear - Lc E. assert (X : forall l x v, path D U x l c -> NoDup (x :: l) -> ~ In c l -> (forall a, In a (x :: l) -> a < length D) -> v = last l x ->
          path (set_nth (last l x) (length D) (D ++ [c])) (set_nth c (length D) (U ++ [v])) x l (length D)).
        { induction l as [|z l IH]; intros x v P N NC W EV.
          - cbn in *. subst v. split; [apply rd_same; rewrite app_length; cbn; specialize (W x (or_introl eq_refl)); lia|]. rewrite rd_other by lia. rewrite E. apply rd_new.
          - cbn [path] in P. destruct P as (P1 & P2 & P3). apply NoDup_cons_iff in N as [N1 N2]. rewrite last_cons in *. cbn [path]. assert (IL := in_last l z). split; [|split].
            + rewrite rd_other by (intros Q; apply N1; rewrite <- Q; exact IL). rewrite rd_app; [exact P1|apply W; now left].
            + rewrite rd_other by (intros Q; apply NC; left; auto). rewrite rd_app; [exact P2|rewrite <- E; apply W; right; now left].
            + apply IH; auto; [intros Q; apply NC; now right|intros a A; apply W; now right]. }
        intros l x P N NC W. apply X; auto. }
      apply PX; auto. apply NoDup_cons_iff in N. tauto.
    + split; [rewrite rd_other by lia; apply rd_new|]. rewrite rd_same; [reflexivity|]. rewrite app_length. cbn. lia.
  - rewrite app_comm_cons. eapply Permutation_NoDup; [apply Permutation_cons_append|]. now constructor.
  - intros a A. rewrite set_nth_length, app_length. cbn [length]. rewrite app_comm_cons in A. apply in_app_iff in A as [A|[<- |[]]]; [apply W in A|]; lia.
  - rewrite !set_nth_length, !app_length. cbn. lia.
Qed.

(** ** the nodes, in the order in which they are made *)
Fixpoint nodes_at (a : nat) (f : nat * nat * Z -> bool) (l : list (nat * nat * Z)) : list nat :=
  match l with [] => [] | s :: t => (if f s then [a] else []) ++ nodes_at (S a) f t end.
Lemma nodes_snoc f s l : forall a, nodes_at a f (l ++ [s]) = nodes_at a f l ++ (if f s then [a + length l] else []).
Proof.
  induction l as [|t l IH]; intros a; cbn; [rewrite Nat.add_0_r; destruct (f s); reflexivity|]. rewrite IH, <- app_assoc. do 2 f_equal. now replace (S a + length l) with (a + S (length l)) by lia.
Qed.
Lemma nodes_in f l x : forall a, In x (nodes_at a f l) <-> a <= x < a + length l /\ f (nth (x - a) l (0, 0, 0%Z)) = true.
Proof.
  induction l as [|t l IH]; intros a; cbn [nodes_at length]; [split; [intros []|lia]|]. rewrite in_app_iff, IH. split.
  - intros [H|[H1 H2]].
    + destruct (f t) eqn:E; [|destruct H]. destruct H as [<- |[]]. split; [lia|]. now rewrite Nat.sub_diag.
    + split; [lia|]. replace (x - a) with (S (x - S a)) by lia. exact H2.
  - intros [H1 H2]. destruct (Nat.eq_dec x a) as [-> |N]; [left; rewrite Nat.sub_diag in H2; cbn in H2; rewrite H2; now left|right]. split; [lia|]. replace (x - a) with (S (x - S a)) in H2 by lia. exact H2.
Qed.
Lemma nodes_nodup f l : forall a, NoDup (nodes_at a f l).
Proof.
  induction l as [|t l IH]; intros a; cbn; [constructor|]. destruct (f t); cbn; auto. constructor; auto. rewrite nodes_in. lia.
Qed.

Section Build.
Context (rows cols : nat) (Hrows : 1 <= rows) (Hcols : 1 <= cols).
Definition base : nat := S (cols + rows).
Definition in_row (r : nat) (s : nat * nat * Z) : bool := fst (fst s) =? r.
Definition in_col (c : nat) (s : nat * nat * Z) : bool := S (snd (fst s)) =? c.
Definition header_list (pr : nat -> bool) : list nat := filter pr (seq 1 cols).
Record Built (m : mem) (sets : list (nat * nat * Z)) (pr : nat -> bool) : Prop := {
  b_size : same_size m;
  b_len : length (MC m) = base + length sets;
  b_cols : ncols m = cols;
  b_C : forall x, base <= x < base + length sets -> rd (MC m) x = S (snd (fst (nth (x - base) sets (0, 0, 0%Z))));
  b_W : forall x, base <= x < base + length sets -> rd (MW m) x = row_addr cols (fst (fst (nth (x - base) sets (0, 0, 0%Z))));
  b_K : forall x, base <= x < base + length sets -> rdz (MK m) x = snd (nth (x - base) sets (0, 0, 0%Z));
  b_K0 : forall x, x < base -> rdz (MK m) x = 0%Z;
  b_hdr : ring (MR m) (ML m) 0 (header_list pr);
  b_sec : forall c, 1 <= c <= cols -> pr c = false -> rd (MR m) c = c /\ rd (ML m) c = c;
  b_row : forall r, r < rows -> ring (MR m) (ML m) (row_addr cols r) (nodes_at base (in_row r) sets);
  b_vert : forall c, 1 <= c <= cols -> ring (MD m) (MU m) c (nodes_at base (in_col c) sets);
  b_z : forall c, 1 <= c <= cols -> rdz (MZ m) c = Z.of_nat (length (nodes_at base (in_col c) sets)) }.

Lemma nth_map_seq {T} (f : nat -> T) n i d : i < n -> nth i (map f (seq 0 n)) d = f i.
Proof using. clear. intros H. rewrite nth_indep with (d' := f 0) by (now rewrite map_length, seq_length). rewrite map_nth, seq_nth; auto. Qed.
Lemma rdz_repeat n x : rdz (repeat 0%Z n) x = 0%Z.
Proof using. clear. unfold rdz. revert x; induction n as [|n IH]; intros [|x]; cbn; auto. Qed.
Lemma new_cells m : m = new_toroid rows cols -> forall c, 1 <= c <= cols ->
  rd (ML m) c = c - 1 /\ rd (MR m) c = (if c =? cols then 0 else S c) /\ rd (MU m) c = c /\ rd (MD m) c = c.
Proof using.
  clear. intros -> c H. destruct c as [|c]; [lia|]. unfold new_toroid. cbn [ML MR MU MD]. unfold rd. cbn [nth]. rewrite !app_nth1 by (rewrite map_length, seq_length; lia). rewrite !nth_map_seq by lia. replace (S c - 1) with c by lia. auto.
Qed.
Lemma new_rows m : m = new_toroid rows cols -> forall r, r < rows -> rd (ML m) (row_addr cols r) = row_addr cols r /\ rd (MR m) (row_addr cols r) = row_addr cols r.
Proof using.
  clear. intros -> r H. unfold new_toroid. cbn [ML MR]. unfold row_addr, rd. cbn [nth]. rewrite !app_nth2 by (rewrite map_length, seq_length; lia). rewrite !map_length, !seq_length. replace (cols + r - cols) with r by lia. now rewrite !nth_map_seq by lia.
Qed.
Lemma new_len m : m = new_toroid rows cols -> length (ML m) = base /\ length (MR m) = base /\ length (MU m) = base /\ length (MD m) = base /\ length (MC m) = base /\ length (MW m) = base /\ length (MK m) = base /\ length (MZ m) = base.
Proof using. clear. intros ->. unfold new_toroid, base. cbn [ML MR MU MD MC MW MK MZ length]. rewrite !app_length, !map_length, !seq_length, !repeat_length. auto 10. Qed.
Lemma new_path m : m = new_toroid rows cols -> forall n c, 1 <= c -> c + n = S cols -> rd (ML m) 0 = cols -> path (MR m) (ML m) (c - 1) (seq c n) 0 \/ rd (MR m) (c - 1) <> (if n =? 0 then 0 else c).
Proof.
  intros E. induction n as [|n IH]; intros c Hc L Z; cbn [seq path].
  - destruct (Nat.eq_dec (rd (MR m) (c - 1)) 0) as [X|X]; [left|right; exact X]. split; [exact X|]. rewrite Z. lia.
  - destruct (Nat.eq_dec (rd (MR m) (c - 1)) c) as [X|X]; [left|right; exact X]. split; [exact X|]. destruct (new_cells m E c ltac:(lia)) as (A & B & _). split; [exact A|].
    destruct (IH (S c) ltac:(lia) ltac:(lia) Z) as [Y|Y]; [replace (S c - 1) with c in Y by lia; exact Y|]. exfalso. apply Y. replace (S c - 1) with c by lia. rewrite B. destruct (Nat.eqb_spec c cols), (Nat.eqb_spec n 0); lia.
Qed.
Lemma new_built : Built (new_toroid rows cols) [] (fun _ => true).
Proof.
  set (m := new_toroid rows cols). assert (E : m = new_toroid rows cols) by reflexivity. clearbody m. destruct (new_len m E) as (L1 & L2 & L3 & L4 & L5 & L6 & L7 & L8).
  assert (Z0 : rd (ML m) 0 = cols /\ rd (MR m) 0 = 1 /\ MK m = repeat 0%Z base /\ MZ m = repeat 0%Z base /\ ncols m = cols) by (subst m; repeat split; reflexivity). destruct Z0 as (Z1 & Z2 & Z3 & Z4 & Z5).
  split; cbn [length nodes_at]; auto; try (intros; lia); try discriminate.
  - unfold same_size. rewrite L1, L2, L3, L4, L5, L6, L7, L8. auto 10.
  - intros. rewrite Z3. apply rdz_repeat.
  - unfold header_list. rewrite filter_all by reflexivity. split.
    + destruct (new_path m E cols 1 ltac:(lia) ltac:(lia) Z1) as [X|X]; [exact X|]. exfalso. apply X. cbn. rewrite Z2. destruct (Nat.eqb_spec cols 0); lia.
    + constructor; [rewrite in_seq; lia|apply seq_NoDup].
    + intros x [<- |X]; [rewrite L2; unfold base; lia|]. apply in_seq in X. rewrite L2. unfold base. lia.
    + congruence.
  - intros r Hr. destruct (new_rows m E r Hr) as [A B]. split; [cbn; auto|constructor; [tauto|constructor]| |congruence]. intros x [<- |[]]. rewrite L2. unfold base, row_addr. lia.
  - intros c Hc. destruct (new_cells m E c Hc) as (_ & _ & A & B). split; [cbn; auto|constructor; [tauto|constructor]| |congruence]. intros x [<- |[]]. rewrite L4. unfold base. lia.
  - intros c Hc. rewrite Z4. apply rdz_repeat.
Qed.

Lemma in_ring_next D U c l : ring D U c l -> In (rd U c) (c :: l) /\ In (rd D c) (c :: l).
Proof using. clear. intros R. destruct (ring_start _ _ _ _ R) as [-> ->]. split; [apply in_last|apply in_hd]. Qed.
Lemma ring_append_other D U c l c' l' : ring D U c l -> ring D U c' l' -> (forall a, In a (c :: l) -> ~ In a (c' :: l')) ->
  ring (set_nth (rd U c) (length D) (D ++ [c])) (set_nth c (length D) (U ++ [rd U c])) c' l'.
Proof using.
  clear. intros R R' X. destruct (in_ring_next _ _ _ _ R) as [A _]. eapply ring_frame; [apply (ring_grow D U c' l' c (rd U c)); exact R'|apply set_nth_length|apply set_nth_length| |].
  - intros a H. apply rd_other. intros <-. exact (X _ A H).
  - intros a H. apply rd_other. intros <-. exact (X _ (or_introl eq_refl) H).
Qed.
Lemma nodes_row a r sets : In a (row_addr cols r :: nodes_at base (in_row r) sets) -> a = row_addr cols r \/ (base <= a /\ in_row r (nth (a - base) sets (0, 0, 0%Z)) = true).
Proof using. clear. intros [<- |H]; [now left|right]. apply nodes_in in H. tauto. Qed.
Lemma nodes_col a c sets : In a (c :: nodes_at base (in_col c) sets) -> a = c \/ (base <= a /\ in_col c (nth (a - base) sets (0, 0, 0%Z)) = true).
Proof using. clear. intros [<- |H]; [now left|right]. apply nodes_in in H. tauto. Qed.
Lemma row_row r r' sets a : r < rows -> r' < rows -> r <> r' -> In a (row_addr cols r :: nodes_at base (in_row r) sets) -> ~ In a (row_addr cols r' :: nodes_at base (in_row r') sets).
Proof using.
  clear. intros L L' N A B. apply nodes_row in A. apply nodes_row in B. unfold row_addr, base, in_row in *. destruct A as [A|[A1 A2]], B as [B|[B1 B2]]; try lia.
Qed.
Lemma col_col c c' sets a : 1 <= c <= cols -> 1 <= c' <= cols -> c <> c' -> In a (c :: nodes_at base (in_col c) sets) -> ~ In a (c' :: nodes_at base (in_col c') sets).
Proof using.
  clear. intros L L' N A B. apply nodes_col in A. apply nodes_col in B. unfold base, in_col in *. destruct A as [A|[A1 A2]], B as [B|[B1 B2]]; try lia.
Qed.
Lemma row_low r sets a : In a (row_addr cols r :: nodes_at base (in_row r) sets) -> cols < a.
Proof using. clear. intros A. apply nodes_row in A. unfold row_addr, base in *. lia. Qed.
Lemma hdr_low pr a : In a (0 :: header_list pr) -> a <= cols.
Proof using. clear. intros [<- |A]; [lia|]. unfold header_list in A. apply filter_In in A as [A _]. apply in_seq in A. lia. Qed.

Lemma set_eq m sets pr r c k : Built m sets pr -> r < rows -> c < cols ->
  set r c k m = mk_mem (set_nth (row_addr cols r) (length (MR m)) (ML m ++ [rd (ML m) (row_addr cols r)])) (set_nth (rd (ML m) (row_addr cols r)) (length (MR m)) (MR m ++ [row_addr cols r]))
                       (set_nth (S c) (length (MD m)) (MU m ++ [rd (MU m) (S c)])) (set_nth (rd (MU m) (S c)) (length (MD m)) (MD m ++ [S c])) (MC m ++ [S c]) (MW m ++ [row_addr cols r]) (MK m ++ [k])
                       (set_nth (S c) (rdz (MZ m) (S c) + 1)%Z (MZ m ++ [0%Z])) cols.
Proof.
  intros B Hr Hc. assert (S := b_size _ _ _ B). destruct S as (S1 & S2 & S3 & S4 & S5 & S6 & S7). assert (L := b_len _ _ _ B).
  unfold set, set_right, set_left, set_down, set_up, set_size, left_of, up_of, size, col_addr. cbn [ML MR MU MD MC MW MK MZ ncols]. rewrite (b_cols _ _ _ B).
  rewrite rd_app by (unfold row_addr, base in *; lia). rewrite rd_app by (unfold base in *; lia). rewrite rdz_app by (unfold base in *; lia). rewrite S2, S4. reflexivity.
Qed.
Lemma set_built m sets pr r c k : Built m sets pr -> r < rows -> c < cols -> Built (set r c k m) (sets ++ [(r, c, k)]) pr.
Proof.
  intros B Hr Hc. rewrite (set_eq m sets pr) by auto. destruct B as [S L NC HC HW HK HK0 HH HS HR HV HZ]. assert (S' := S). destruct S' as (S1 & S2 & S3 & S4 & S5 & S6 & S7).
  assert (RR := HR r Hr). assert (RV := HV (Datatypes.S c) ltac:(lia)).
  assert (NL : forall x, base <= x < base + length (sets ++ [(r, c, k)]) -> (x < base + length sets /\ nth (x - base) (sets ++ [(r, c, k)]) (0, 0, 0%Z) = nth (x - base) sets (0, 0, 0%Z)) \/ (x = base + length sets /\ nth (x - base) (sets ++ [(r, c, k)]) (0, 0, 0%Z) = (r, c, k))).
  { intros x X. rewrite app_length in X. cbn [length] in X. destruct (Nat.eq_dec x (base + length sets)) as [-> |N]; [right|left]; (split; [lia|]).
    - rewrite app_nth2 by lia. replace (base + length sets - base - length sets) with 0 by lia. reflexivity.
    - rewrite app_nth1 by lia. reflexivity. }
  assert (RLL : rd (ML m) (row_addr cols r) <= cols -> False) by (intros X; destruct (in_ring_next _ _ _ _ RR) as [Y _]; apply row_low in Y; lia).
  split; cbn [ML MR MU MD MC MW MK MZ ncols]; auto.
  - unfold same_size. cbn [ML MR MU MD MC MW MK MZ]. rewrite !set_nth_length, !app_length. cbn [length]. lia.
  - rewrite !app_length. cbn [length]. lia.
  - intros x X. destruct (NL x X) as [[X1 ->]|[-> ->]]; [rewrite rd_app by lia; apply HC; lia|]. rewrite <- L. apply rd_new.
  - intros x X. destruct (NL x X) as [[X1 ->]|[-> ->]]; [rewrite rd_app by lia; apply HW; lia|]. rewrite <- L, <- S5. apply rd_new.
  - intros x X. destruct (NL x X) as [[X1 ->]|[-> ->]]; [rewrite rdz_app by lia; apply HK; lia|]. rewrite <- L, <- S6. apply rdz_new.
  - intros x X. rewrite rdz_app by lia. auto.
  - apply ring_append_other with (1 := RR); auto. intros a A A'. apply row_low in A. apply hdr_low in A'. lia.
  - intros d Hd X. destruct (HS d Hd X) as [Y Z]. rewrite !rd_other by (unfold row_addr in *; lia). rewrite !rd_app by (unfold base in *; lia). auto.
  - intros r' Hr'. rewrite nodes_snoc. unfold in_row at 2. cbn [fst]. rewrite <- L, <- S2. destruct (Nat.eqb_spec r r') as [<- |N].
    + apply ring_append. exact RR.
    + rewrite app_nil_r. apply ring_append_other with (1 := RR); auto. intros a. now apply row_row.
  - intros d Hd. rewrite nodes_snoc. unfold in_col at 2. cbn [fst snd]. rewrite <- L, <- S4. destruct (Nat.eqb_spec (Datatypes.S c) d) as [<- |N].
    + apply ring_append. exact RV.
    + rewrite app_nil_r. apply ring_append_other with (1 := RV); auto. intros a. apply col_col; auto; lia.
  - intros d Hd. rewrite nodes_snoc. unfold in_col at 2. cbn [fst snd]. destruct (Nat.eqb_spec (Datatypes.S c) d) as [<- |N].
    + rewrite rdz_same by (rewrite app_length; unfold base in *; cbn; lia). rewrite HZ by lia. rewrite app_length. cbn [length]. lia.
    + rewrite rdz_other by auto. rewrite rdz_app by (unfold base in *; lia). rewrite app_nil_r. auto.
Qed.

Lemma secondary_built m sets pr c : Built m sets pr -> c < cols -> Built (set_secondary_column c m) sets (fun d => pr d && negb (d =? S c)).
Proof.
  intros B Hc. destruct B as [S L NC HC HW HK HK0 HH HS HR HV HZ]. assert (S' := S). destruct S' as (S1 & S2 & S3 & S4 & S5 & S6 & S7).
  destruct (pr (Datatypes.S c)) eqn:PC.
  - assert (IP : In (Datatypes.S c) (header_list pr)) by (apply filter_In; split; [apply in_seq; lia|exact PC]). apply in_split in IP as (l1 & l2 & EP). assert (HR0 := HH). rewrite EP in HR0. destruct (ring_at _ _ _ _ _ _ HR0) as (E1 & E2 & E3 & E4).
    assert (NDP := r_nodup _ _ _ _ HR0). apply NoDup_cons_iff in NDP as [ND0 ND1]. assert (NC2 := NoDup_remove_2 _ _ _ ND1).
    assert (NC0 : ~ In (Datatypes.S c) (0 :: l1 ++ l2)) by (intros [X|X]; [discriminate|contradiction]).
    assert (N1 : rd (MR m) (Datatypes.S c) <> Datatypes.S c) by (rewrite E1; intros Y; assert (Z := in_hd l2 0); rewrite Y in Z; apply NC0; destruct Z as [Z|Z]; [now left|right; apply in_app_iff; auto]).
    assert (N2 : rd (ML m) (Datatypes.S c) <> Datatypes.S c) by (rewrite E2; intros Y; assert (Z := in_last l1 0); rewrite Y in Z; apply NC0; destruct Z as [Z|Z]; [now left|right; apply in_app_iff; auto]).
    assert (AD : rd (MR m) (Datatypes.S c) <= cols) by (apply hdr_low with pr; rewrite E1, EP; assert (Z := in_hd l2 0); destruct Z as [Z|Z]; [now left|right; apply in_app_iff; right; now right]).
    assert (AU : rd (ML m) (Datatypes.S c) <= cols) by (apply hdr_low with pr; rewrite E2, EP; assert (Z := in_last l1 0); destruct Z as [Z|Z]; [now left|right; apply in_app_iff; now left]).
    set (a := rd (ML m) (Datatypes.S c)) in *. set (b := rd (MR m) (Datatypes.S c)) in *.
    assert (EQ : set_secondary_column c m = mk_mem (set_nth (Datatypes.S c) (Datatypes.S c) (set_nth b a (ML m))) (set_nth (Datatypes.S c) (Datatypes.S c) (set_nth a b (MR m))) (MU m) (MD m) (MC m) (MW m) (MK m) (MZ m) (ncols m)).
    { unfold set_secondary_column, col_addr, set_left, set_right, left_of, right_of. cbn [ML MR MU MD MC MW MK MZ ncols]. fold a b. rewrite (rd_other (MR m)) by auto. fold b. reflexivity. }
    rewrite EQ. assert (EL : header_list (fun d => pr d && negb (d =? Datatypes.S c)) = l1 ++ l2).
    { unfold header_list in *. rewrite <- (filter_filter (fun d => negb (d =? Datatypes.S c)) pr). rewrite EP, filter_app. cbn [filter]. rewrite Nat.eqb_refl. cbn [negb]. rewrite !filter_all; [reflexivity| |]; intros x H; (destruct (Nat.eqb_spec x (Datatypes.S c)) as [-> |]; [exfalso; apply NC2, in_app_iff; auto|reflexivity]). }
    assert (RL : forall x, cols < x -> rd (set_nth (Datatypes.S c) (Datatypes.S c) (set_nth a b (MR m))) x = rd (MR m) x /\ rd (set_nth (Datatypes.S c) (Datatypes.S c) (set_nth b a (ML m))) x = rd (ML m) x) by (intros x X; rewrite !rd_other by lia; auto).
    split; cbn [ML MR MU MD MC MW MK MZ ncols]; auto.
    + unfold same_size. cbn [ML MR MU MD MC MW MK MZ]. rewrite !set_nth_length. exact S.
    + rewrite EL. assert (X := ring_unlink _ _ _ _ _ _ HR0). fold a b in X. eapply ring_frame; [exact X|apply set_nth_length|apply set_nth_length| |]; intros y Y; apply rd_other; intros E; subst y; contradiction.
    + intros d Hd X. destruct (Nat.eq_dec d (Datatypes.S c)) as [-> |Nd]; [split; apply rd_same; rewrite set_nth_length; unfold base in *; lia|].
      rewrite (proj2 (Nat.eqb_neq _ _) Nd) in X. rewrite andb_true_r in X. destruct (HS d Hd X) as [Y Z].
      assert (ND : ~ In d (0 :: header_list pr)) by (intros [W|W]; [lia|]; apply filter_In in W; destruct W; congruence).
      assert (a <> d) by (intros E; apply ND; rewrite <- E, E2, EP; assert (Z' := in_last l1 0); destruct Z' as [Z'|Z']; [now left|right; apply in_app_iff; now left]).
      assert (b <> d) by (intros E; apply ND; rewrite <- E, E1, EP; assert (Z' := in_hd l2 0); destruct Z' as [Z'|Z']; [now left|right; apply in_app_iff; right; now right]).
      rewrite !rd_other by auto. auto.
    + intros r Hr. eapply ring_frame; [apply HR; exact Hr|now rewrite !set_nth_length|now rewrite !set_nth_length| |]; intros x X; apply row_low in X; apply RL; exact X.
  - destruct (HS (Datatypes.S c) ltac:(lia) PC) as [X Y].
    assert (X1 : set_nth (Datatypes.S c) (Datatypes.S c) (ML m) = ML m) by (rewrite <- Y at 2; apply set_id). assert (X2 : set_nth (Datatypes.S c) (Datatypes.S c) (MR m) = MR m) by (rewrite <- X at 2; apply set_id).
    assert (EQ : set_secondary_column c m = m).
    { unfold set_secondary_column, col_addr, set_left, set_right, left_of, right_of. cbn [ML MR MU MD MC MW MK MZ ncols]. rewrite X, Y, X2, X, !X1, !X2. apply mem_eta. }
    assert (PE : forall d, pr d && negb (d =? Datatypes.S c) = pr d) by (intros d; destruct (Nat.eqb_spec d (Datatypes.S c)) as [-> |]; [now rewrite PC|apply andb_true_r]).
    rewrite EQ. split; auto.
    + unfold header_list. rewrite (filter_ext _ pr) by exact PE. exact HH.
    + intros d Hd. rewrite PE. auto.
Qed.

(** ** finalize *)
Lemma finalize_row_eq m h R L l : ML m = L -> MR m = R -> ring R L h l ->
  finalize_row h m = mk_mem (set_nth (rd R h) (rd L h) L) (set_nth (rd L h) (rd R h) R) (MU m) (MD m) (MC m) (MW m) (MK m) (MZ m) (ncols m).
Proof using.
  clear. intros EL ER RG. unfold finalize_row, set_left, set_right, left_of, right_of. cbn [ML MR MU MD MC MW MK MZ ncols]. rewrite EL, ER.
  assert (X : rd (set_nth (rd L h) (rd R h) R) h = rd R h); [|rewrite X; reflexivity].
  destruct (Nat.eq_dec (rd L h) h) as [E|E]; [|now apply rd_other]. rewrite E. apply rd_same. apply (r_low _ _ _ _ RG). now left.
Qed.
Lemma fin_ok m sets pr : Built m sets pr -> forall n, n <= rows ->
  exists L R, fold_left (fun m r => finalize_row (row_addr (ncols m) r) m) (seq 0 n) m = mk_mem L R (MU m) (MD m) (MC m) (MW m) (MK m) (MZ m) cols /\
    length L = length (ML m) /\ length R = length (MR m) /\ (forall a, a <= cols -> rd R a = rd (MR m) a /\ rd L a = rd (ML m) a) /\
    (forall r, r < n -> forall l1 x l2, nodes_at base (in_row r) sets = l1 ++ x :: l2 -> ring R L x (l2 ++ l1)) /\
    (forall r, n <= r < rows -> ring R L (row_addr cols r) (nodes_at base (in_row r) sets)).
Proof.
  intros B. induction n as [|n IH]; intros Hn.
  - exists (ML m), (MR m). cbn. rewrite <- (b_cols _ _ _ B), mem_eta. split; [reflexivity|]. split; [reflexivity|]. split; [reflexivity|]. split; [auto|]. split; [lia|]. intros r [_ Hr]. rewrite (b_cols _ _ _ B). apply (b_row _ _ _ B). exact Hr.
  - destruct (IH ltac:(lia)) as (L & R & E & LL & LR & LO & DN & UP). rewrite seq_S, fold_left_app, E. cbn [fold_left ncols Nat.add]. set (h := row_addr cols n). assert (RG := UP n ltac:(lia)). fold h in RG.
    rewrite (finalize_row_eq (mk_mem L R (MU m) (MD m) (MC m) (MW m) (MK m) (MZ m) cols) h R L _ eq_refl eq_refl RG). cbn [MU MD MC MW MK MZ ncols]. destruct (in_ring_next _ _ _ _ RG) as [IU ID].
    exists (set_nth (rd R h) (rd L h) L), (set_nth (rd L h) (rd R h) R). split; [reflexivity|]. rewrite !set_nth_length. split; [exact LL|]. split; [exact LR|].
    assert (FR : forall a, ~ In a (h :: nodes_at base (in_row n) sets) -> rd (set_nth (rd L h) (rd R h) R) a = rd R a /\ rd (set_nth (rd R h) (rd L h) L) a = rd L a).
    { intros a X. split; apply rd_other; intros <-; contradiction. }
    split; [|split].
    + intros a Ha. destruct (FR a) as [X Y]; [intros Z; apply row_low in Z; lia|]. rewrite X, Y. auto.
    + intros r Hr l1 x l2 EQ. destruct (Nat.eq_dec r n) as [-> |Nr].
      * rewrite EQ in RG. apply ring_rotate in RG. apply ring_unlink in RG. exact RG.
      * assert (IX : forall a, In a (x :: l2 ++ l1) -> ~ In a (h :: nodes_at base (in_row n) sets)).
        { intros a A. apply (row_row r n); auto; [lia|]. right. rewrite EQ. destruct A as [<- |A]; [apply in_app_iff; right; now left|]. apply in_app_iff in A as [A|A]; apply in_app_iff; [right; now right|now left]. }
        eapply ring_frame; [apply (DN r ltac:(lia) l1 x l2 EQ)|now rewrite set_nth_length|now rewrite set_nth_length| |]; intros a A; apply FR; auto.
    + intros r Hr. eapply ring_frame; [apply (UP r); lia|now rewrite set_nth_length|now rewrite set_nth_length| |]; intros a A; apply FR; intros Z; revert Z; apply (row_row r n); auto; lia.
Qed.
End Build.

(** ** the calls *)
Fixpoint cells (ops : list op) : list (nat * nat * Z) :=
  match ops with [] => [] | OSet r c k :: t => (r, c, k) :: cells t | OSecondary _ :: t => cells t end.
Definition primb (ops : list op) (d : nat) : bool := forallb (fun o => match o with OSecondary c => negb (d =? S c) | _ => true end) ops.
Lemma cells_app a b : cells (a ++ b) = cells a ++ cells b.
Proof. induction a as [|[r c k|c] a IH]; cbn; [reflexivity|now rewrite IH|exact IH]. Qed.
Lemma cells_in ops r c k : In (r, c, k) (cells ops) <-> cell ops r c k.
Proof.
  unfold cell. induction ops as [|[r' c' k'|c'] ops IH]; cbn; [tauto| |]; rewrite IH; (split; intros [H|H]; auto; try discriminate; left; congruence) || (split; [auto|]; intros [H|H]; [discriminate|auto]).
Qed.
Lemma places_cells ops : places ops = map fst (cells ops).
Proof. induction ops as [|[r' c' k'|c'] ops IH]; cbn; congruence. Qed.
Lemma primb_spec ops d : primb ops (S d) = true <-> ~ secondary ops d.
Proof.
  unfold primb, secondary. rewrite forallb_forall. split.
  - intros H X. specialize (H _ X). cbn in H. now rewrite Nat.eqb_refl in H.
  - intros H [r c k|c] X; [reflexivity|]. apply negb_true_iff, Nat.eqb_neq. intros E. inversion E; subst. contradiction.
Qed.
Lemma Built_ext rows cols m sets pr pr' : Built rows cols m sets pr -> (forall d, pr' d = pr d) -> Built rows cols m sets pr'.
Proof.
  intros [S L NC HC HW HK HK0 HH HS HR HV HZ] E. split; auto.
  - unfold header_list. rewrite (filter_ext _ _ E). exact HH.
  - intros c Hc X. rewrite E in X. auto.
Qed.
Lemma build_built rows cols ops : valid rows cols ops -> Built rows cols (build rows cols ops) (cells ops) (primb ops).
Proof.
  intros V. destruct V as [V1 V2 V3 V4 _ _]. unfold build. induction ops as [|o ops IH] using rev_ind.
  - cbn. now apply new_built.
  - rewrite fold_left_app, cells_app. cbn [fold_left].
    assert (B := IH ltac:(intros r c k X; apply (V3 r c k); apply in_app_iff; now left) ltac:(intros c X; apply V4; apply in_app_iff; now left)). clear IH.
    destruct o as [r c k|c]; cbn [apply cells].
    + destruct (V3 r c k) as (A1 & A2 & _); [apply in_app_iff; right; now left|]. eapply Built_ext; [apply set_built; eauto|]. intros d. unfold primb. rewrite forallb_app. cbn. now rewrite !andb_true_r.
    + rewrite app_nil_r. eapply Built_ext; [apply secondary_built; eauto; apply V4; apply in_app_iff; right; now left|]. intros d. unfold primb. rewrite forallb_app. cbn [forallb]. now rewrite andb_true_r.
Qed.

Lemma filter_le {A} (f : A -> bool) l : length (filter f l) <= length l.
Proof. induction l as [|x l IH]; cbn; [lia|]. destruct (f x); cbn; lia. Qed.

(** ** the static picture *)
Fixpoint split_at (x : nat) (l : list nat) : list nat * list nat :=
  match l with [] => ([], []) | y :: t => if y =? x then ([], t) else let (a, b) := split_at x t in (y :: a, b) end.
Lemma split_at_eq x l : In x l -> l = fst (split_at x l) ++ x :: snd (split_at x l).
Proof.
  induction l as [|y l IH]; [intros []|]. cbn [split_at]. destruct (Nat.eqb_spec y x) as [-> |N]; [reflexivity|]. intros [X|X]; [contradiction|]. specialize (IH X). destruct (split_at x l) as [a b]. cbn in *. now rewrite <- IH.
Qed.
Section Picture.
Context (rows cols : nat) (ops : list op) (HV : valid rows cols ops).
Definition sets_ : list (nat * nat * Z) := cells ops.
Definition at_ (x : nat) : nat * nat * Z := nth (x - base rows cols) sets_ (0, 0, 0%Z).
Definition node_ (x : nat) : Prop := base rows cols <= x < base rows cols + length sets_.
Definition nrow_ (x : nat) : nat := fst (fst (at_ x)).
Definition ncol_ (x : nat) : nat := S (snd (fst (at_ x))).
Definition kol_ (x : nat) : Z := snd (at_ x).
Definition isc_ (c : nat) : Prop := 1 <= c <= cols.
Definition rest_ (x : nat) : list nat := let p := split_at x (nodes_at (base rows cols) (in_row (nrow_ x)) sets_) in snd p ++ fst p.
Lemma at_cell x : node_ x -> cell ops (nrow_ x) (snd (fst (at_ x))) (kol_ x).
Proof. intros N. apply cells_in. unfold nrow_, kol_. destruct (at_ x) as [[r c] k] eqn:E. cbn. rewrite <- E. apply nth_In. unfold node_ in N. unfold sets_ in *. lia. Qed.
Lemma cell_at r c k : cell ops r c k -> exists x, node_ x /\ nrow_ x = r /\ ncol_ x = S c /\ kol_ x = k.
Proof.
  intros H. apply cells_in in H. apply (In_nth _ _ (0, 0, 0%Z)) in H as (i & L & E). exists (base rows cols + i). unfold node_, nrow_, ncol_, kol_, at_, sets_. replace (base rows cols + i - base rows cols) with i by lia. rewrite E. cbn [fst snd]. split; [lia|auto].
Qed.
Lemma row_mem x r : In x (nodes_at (base rows cols) (in_row r) sets_) <-> node_ x /\ nrow_ x = r.
Proof. rewrite nodes_in. unfold node_, nrow_, at_, in_row. now rewrite Nat.eqb_eq. Qed.
Lemma col_mem x c : In x (nodes_at (base rows cols) (in_col c) sets_) <-> node_ x /\ ncol_ x = c.
Proof. rewrite nodes_in. unfold node_, ncol_, at_, in_col. now rewrite Nat.eqb_eq. Qed.
Lemma rest_split x : node_ x -> nodes_at (base rows cols) (in_row (nrow_ x)) sets_ = fst (split_at x (nodes_at (base rows cols) (in_row (nrow_ x)) sets_)) ++ x :: snd (split_at x (nodes_at (base rows cols) (in_row (nrow_ x)) sets_)).
Proof. intros N. apply split_at_eq. apply row_mem. auto. Qed.
Lemma h0 : ~ isc_ 0. Proof. unfold isc_. lia. Qed.
Lemma hn0 : ~ node_ 0. Proof. unfold node_, base. lia. Qed.
Lemma hcn : forall x, node_ x -> isc_ (ncol_ x).
Proof. intros x N. apply at_cell in N. apply (v_cell _ _ _ HV) in N. unfold isc_, ncol_. lia. Qed.
Lemma hdis : forall x, node_ x -> ~ isc_ x. Proof. unfold node_, isc_, base. lia. Qed.
Lemma hrest : forall x, node_ x -> forall y, In y (rest_ x) <-> node_ y /\ nrow_ y = nrow_ x /\ y <> x.
Proof.
  intros x N y. assert (E := rest_split x N). assert (ND := nodes_nodup (in_row (nrow_ x)) sets_ (base rows cols)). unfold rest_. destruct (split_at x (nodes_at (base rows cols) (in_row (nrow_ x)) sets_)) as [a b]. cbn [fst snd] in *.
  rewrite E in ND. apply NoDup_remove_2 in ND. assert (M := row_mem y (nrow_ x)). rewrite E in M. rewrite in_app_iff in *. cbn [In] in M. split.
  - intros H. assert (Y : y <> x) by (intros ->; apply ND; tauto). tauto.
  - intros (A & B & C). destruct (proj2 M (conj A B)) as [H|[H|H]]; [tauto|congruence|tauto].
Qed.
Lemma huniq : forall x y, node_ x -> node_ y -> nrow_ x = nrow_ y -> ncol_ x = ncol_ y -> x = y.
Proof.
  intros x y Nx Ny E1 E2. assert (N := v_once _ _ _ HV). rewrite places_cells in N. unfold node_ in *. unfold nrow_, ncol_, at_ in *. fold sets_ in N.
  assert (X : x - base rows cols = y - base rows cols); [|lia].
  rewrite (NoDup_nth (map fst sets_) (0, 0)) in N. apply N; try (rewrite map_length; lia). change (0, 0) with (fst (0, 0, 0%Z)). rewrite !map_nth. inversion E2. rewrite (surjective_pairing (fst (nth (x - base rows cols) sets_ _))), (surjective_pairing (fst (nth (y - base rows cols) sets_ _))). congruence.
Qed.
Lemma hkol : forall x, node_ x -> (0 <= kol_ x)%Z.
Proof. intros x N. apply at_cell in N. apply (v_cell _ _ _ HV) in N. tauto. Qed.
Lemma hprim : forall x, node_ x -> primb ops (ncol_ x) = true -> kol_ x = 0%Z.
Proof. intros x N P. apply at_cell in N. apply (v_col _ _ _ HV) in N; auto. now apply primb_spec. Qed.

Lemma start_inv : exists st, Inv node_ nrow_ ncol_ isc_ (primb ops) rest_ kol_ (finalize rows (build rows cols ops)) (fun _ => True) st (header_list cols (primb ops)) (fun c => nodes_at (base rows cols) (in_col c) sets_).
Proof.
  exists (fun _ => Open). assert (B := build_built rows cols ops HV). set (m := build rows cols ops) in *. fold sets_ in B.
  destruct (fin_ok rows cols (v_rows _ _ _ HV) (v_cols _ _ _ HV) m sets_ (primb ops) B rows (le_n _)) as (L & R & E & LL & LR & LO & DN & _). unfold finalize. rewrite E. destruct B as [S BL NC HC HW HK HK0 HH HS HR HVt HZ].
  split; cbn [ML MR MU MD MC MW MK MZ ncols].
  - split; cbn [ML MR MU MD MC MW MK MZ ncols]; auto.
    + unfold same_size in *. cbn [ML MR MU MD MC MW MK MZ]. rewrite LL, LR. exact S.
    + intros x [N|N]; unfold node_, isc_, base in *; rewrite BL; lia.
    + eapply ring_frame; [exact HH|exact LR|exact LL| |]; intros a A; apply LO; now apply hdr_low in A.
    + intros c X. unfold header_list in X. apply filter_In in X as [X Y]. apply in_seq in X. split; [unfold isc_; lia|exact Y].
    + intros c X Y. destruct (LO c) as [-> ->]; [unfold isc_ in X; lia|]. auto.
    + intros x N. unfold rest_. apply (DN (nrow_ x)); [|now apply rest_split]. apply at_cell in N. apply (v_cell _ _ _ HV) in N. tauto.
    + intros c x X Y. now apply col_mem in Y.
  - intros c X Y. split; [reflexivity|]. intros _. apply filter_In. split; [apply in_seq; unfold isc_ in X; lia|exact Y].
  - intros x N _. split; [now apply col_mem|]. unfold color. cbn [MK]. unfold kol_, at_. apply HK. exact N.
  - intros c X _. split; [|auto]. unfold color. cbn [MK]. apply HK0. unfold isc_, base in *. lia.
  - intros x N. unfold nrow_, at_. apply HW. exact N.
Qed.
Lemma sol_iff S : sol node_ nrow_ ncol_ (primb ops) kol_ (header_list cols (primb ops)) (fun _ => True) S <-> solution cols ops S.
Proof.
  split.
  - intros (N & HA & HC & HK). split; auto.
    + intros r Hr. destruct (HA r Hr) as [_ (x & Nx & Rx & Px)]. exists (snd (fst (at_ x))), (kol_ x). split; [rewrite <- Rx; now apply at_cell|]. now apply primb_spec.
    + intros c Hc Sc. destruct (HK (Datatypes.S c)) as (x & Nx & Ex & Ix); [apply filter_In; split; [apply in_seq; lia|now apply primb_spec]|]. exists (nrow_ x), (kol_ x). split; [exact Ix|]. inversion Ex. now apply at_cell.
    + intros r r' Hr Hr' D c k k' C1 C2. apply cell_at in C1 as (x & Nx & Rx & Cx & Kx). apply cell_at in C2 as (y & Ny & Ry & Cy & Ky). destruct (HC r r' Hr Hr' D x y) as [A B]; auto; [congruence|]. split; congruence.
  - intros [N HR HC HM]. split; [exact N|]. split; [|split].
    + intros r Hr. split; [exact I|]. destruct (HR r Hr) as (c & k & C & Sc). apply cell_at in C as (x & Nx & Rx & Cx & Kx). exists x. split; [exact Nx|]. split; [exact Rx|]. rewrite Cx. now apply primb_spec.
    + intros r r' Hr Hr' D x i Nx Rx Ni Ri Ei. destruct (HM r r' Hr Hr' D (snd (fst (at_ x))) (kol_ x) (kol_ i)) as [A B]; [rewrite <- Rx; now apply at_cell| |split; congruence].
      rewrite <- Ri. inversion Ei as [E]. now apply at_cell.
    + intros c Hc. apply filter_In in Hc as [Hc Pc]. apply in_seq in Hc. destruct c as [|c]; [lia|]. apply primb_spec in Pc. destruct (HC c ltac:(lia) Pc) as (r & k & Ir & C). apply cell_at in C as (x & Nx & Rx & Cx & Kx). exists x. split; [exact Nx|]. split; [exact Cx|]. now rewrite Rx.
Qed.
Lemma linked_in D U P m : MR m = D -> ring D U 0 P -> forall c, linked m c -> In c P.
Proof using.
  clear. intros E R c. induction 1 as [H|c H IH H2].
  - unfold right_of in *. rewrite E in *. destruct (ring_start _ _ _ _ R) as [A _]. rewrite A in *. destruct P as [|y P]; cbn in *; [congruence|auto].
  - unfold right_of in *. rewrite E in *. apply in_split in IH as (l1 & l2 & ->). destruct (ring_at _ _ _ _ _ _ R) as (A & _). rewrite A in *. apply in_app_iff. right. right. destruct l2; cbn in *; [congruence|auto].
Qed.
Theorem search_ok max h : 1 <= max -> picks_a_column h ->
  exists sols, all_solutions cols ops sols /\ search rows cols ops max h = Some (Nat.min max (length sols), flat_map tag (firstn max sols)).
Proof.
  intros Hm Hh. destruct start_inv as (st & I).
  destruct (do_search_ok node_ nrow_ ncol_ isc_ (primb ops) rest_ h0 hn0 hcn hdis hrest huniq kol_ hkol hprim h max) with (fuel := S cols) (2 := I) as (sols & (G1 & G2 & G3) & GO).
  - intros m P V R NE. apply (linked_in (MR m) (ML m) P m eq_refl); [apply R|]. apply Hh. unfold right_of. destruct (ring_start _ _ _ _ (p_hdr _ _ _ _ _ _ _ _ R)) as [A _]. rewrite A. destruct P as [|y P]; [congruence|]. cbn. intros ->. destruct (p_P _ _ _ _ _ _ _ _ R 0 (or_introl eq_refl)) as [X _]. exact (h0 X).
  - unfold header_list. assert (X := filter_le (primb ops) (seq 1 cols)). rewrite seq_length in X. lia.
  - exists sols. split.
    + split; [intros S X; now apply sol_iff, G1|intros S X; apply G2; now apply sol_iff|exact G3].
    + destruct (GO 0 (mk_ss (finalize rows (build rows cols ops)) (repeat 0 cols) 0 [])) as (s' & E & A1 & A2 & _); [reflexivity| |cbn; lia|].
      * cbn [out]. rewrite repeat_length. unfold header_list. assert (X := filter_le (primb ops) (seq 1 cols)). rewrite seq_length in X. cbn. exact X.
      * unfold search. rewrite E. cbn [found told] in A1, A2. rewrite Nat.sub_0_r in *. rewrite A1, A2. cbn [Nat.add app]. rewrite Nat.min_comm. do 2 f_equal.
Qed.
End Picture.
