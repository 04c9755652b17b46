(** C124: the single-pass algorithms do what they are documented to do *)
From Coq Require Import List Arith Lia Bool.
From Verif Require Import Scan_Model.
Import ListNotations.

(** the elements of the range *)
Definition range {V} (m : list V) (first last : nat) : list V := firstn (last - first) (skipn first m).
(** the step from element [j] to the next *)
Definition step {V} (sub : V -> V -> V) (m : list V) (j : nat) : option V :=
  match nth_error m j, nth_error m (S j) with Some a, Some b => Some (sub b a) | _, _ => None end.
(** [lt] is a strict weak order *)
Definition weak_order {V} (lt : V -> V -> bool) : Prop :=
  (forall x, lt x x = false) /\ (forall x y z, lt x y = true -> lt y z = true -> lt x z = true) /\
  (forall x y z, lt x z = true -> lt x y = true \/ lt y z = true).

Lemma get {V} (m : list V) i : i < length m -> exists x, nth_error m i = Some x.
Proof. intros H. destruct (nth_error m i) as [x|] eqn:E; [eauto|]. apply nth_error_None in E. lia. Qed.
Lemma mad_ok {V} (sub : V -> V -> V) lt m last first0 : weak_order lt -> last <= length m ->
  forall fuel d r p, last - S p < fuel -> first0 <= r < p -> p < last -> step sub m r = Some d ->
  (forall j e, first0 <= j < p -> step sub m j = Some e -> lt d e = false /\ (j < r -> lt e d = true)) ->
  exists r' d', mad_loop sub lt fuel m last d r p (S p) = Some r' /\ first0 <= r' < last - 1 /\ step sub m r' = Some d' /\
    forall j e, first0 <= j < last - 1 -> step sub m j = Some e -> lt d' e = false /\ (j < r' -> lt e d' = true).
Proof.
  intros (Irr & Tr & Co) Hl. induction fuel as [|f IH]; intros d r p Hf Hr Hp Hd Hj; [lia|]. cbn [mad_loop].
  destruct (Nat.eqb_spec (S p) last) as [E|N].
  - exists r, d. split; [reflexivity|]. split; [lia|]. split; [exact Hd|]. intros j e H. apply Hj. lia.
  - destruct (get m (S p) ltac:(lia)) as (a & Ea). destruct (get m p ltac:(lia)) as (b & Eb). unfold deref, bind. rewrite Ea, Eb.
    assert (Sp : step sub m p = Some (sub a b)) by (unfold step; rewrite Eb, Ea; reflexivity).
    destruct (lt d (sub a b)) eqn:L.
    + apply IH; [lia|lia|lia|exact Sp|]. intros j e H He. destruct (Nat.eq_dec j p) as [->|Np].
      * rewrite Sp in He. injection He as <-. split; [apply Irr|lia].
      * destruct (Hj j e ltac:(lia) He) as [H1 H2]. assert (X : lt e (sub a b) = true) by (destruct (Co d e (sub a b) L); congruence).
        split; [|intros _; exact X]. destruct (lt (sub a b) e) eqn:Y; [|reflexivity]. pose proof (Tr _ _ _ X Y) as Z. rewrite Irr in Z. discriminate.
    + apply IH; [lia|lia|lia|exact Hd|]. intros j e H He. destruct (Nat.eq_dec j p) as [->|Np]; [|apply Hj; [lia|exact He]].
      rewrite Sp in He. injection He as <-. split; [exact L|lia].
Qed.
(** The result is the first element of the first of the largest steps; of a range without steps, its start. *)
Theorem C124_max_adjacent_difference {V} (sub : V -> V -> V) lt (m : list V) first last :
  weak_order lt -> first <= last <= length m ->
  exists r, max_adjacent_difference sub lt m first last = Some r /\
    (last < first + 2 -> r = first) /\
    (first + 2 <= last -> first <= r < last - 1 /\
       exists d, step sub m r = Some d /\
       forall j e, first <= j < last - 1 -> step sub m j = Some e -> lt d e = false /\ (j < r -> lt e d = true)).
Proof.
  intros WO H. unfold max_adjacent_difference.
  destruct (Nat.eqb_spec first last) as [E|N]; [exists first; split; [reflexivity|]; split; [auto|lia]|].
  destruct (Nat.eqb_spec (S first) last) as [E|N2]; [exists first; split; [reflexivity|]; split; [auto|lia]|].
  destruct (get m (S first) ltac:(lia)) as (a & Ea). destruct (get m first ltac:(lia)) as (b & Eb). unfold deref, bind. rewrite Ea, Eb.
  assert (Sf : step sub m first = Some (sub a b)) by (unfold step; rewrite Eb, Ea; reflexivity).
  destruct (mad_ok sub lt m last first WO (proj2 H) (S (length m)) (sub a b) first (S first)) as (r & d & A & B & C & D);
    [lia|lia|lia|exact Sf| |].
  { intros j e Hj He. assert (j = first) by lia. subst j. rewrite Sf in He. injection He as <-. split; [apply (proj1 WO)|lia]. }
  exists r. split; [exact A|]. split; [lia|]. intros _. split; [exact B|]. exists d. split; [exact C|exact D].
Qed.

(** ** iota *)
Lemma put_ok {V} (x : V) : forall m i, i < length m -> exists m', put m i x = Some m' /\ length m' = length m /\
  nth_error m' i = Some x /\ forall j, j <> i -> nth_error m' j = nth_error m j.
Proof.
  induction m as [|y m IH]; intros i H; cbn [length] in H; [lia|]. destruct i as [|i]; cbn [put].
  - exists (x :: m). repeat split. intros [|j] Hj; [lia|reflexivity].
  - destruct (IH i ltac:(lia)) as (m' & -> & L & A & B). exists (y :: m'). split; [reflexivity|]. cbn [length]. split; [lia|]. split; [exact A|].
    intros [|j] Hj; [reflexivity|]. apply B. lia.
Qed.
Lemma iter_next {T} (next : T -> T) n x : Nat.iter n next (next x) = Nat.iter (S n) next x.
Proof. induction n as [|n IH]; [reflexivity|]. cbn [Nat.iter nat_rect] in *. unfold Nat.iter in *. cbn [nat_rect]. now rewrite IH. Qed.
Lemma iota_ok {V T} (next : T -> T) (conv : T -> V) last : forall fuel m first v, last - first < fuel -> first <= last <= length m ->
  exists m', iota_loop next conv fuel m first last v = Some (Nat.iter (last - first) next v, m') /\ length m' = length m /\
    (forall i, i < last - first -> nth_error m' (first + i) = Some (conv (Nat.iter i next v))) /\
    (forall j, j < first \/ last <= j -> nth_error m' j = nth_error m j).
Proof.
  induction fuel as [|f IH]; intros m first v Hf H; [lia|]. cbn [iota_loop]. destruct (Nat.eqb_spec first last) as [E|N].
  - subst. rewrite Nat.sub_diag. exists m. repeat split. lia.
  - destruct (put_ok (conv v) m first ltac:(lia)) as (m1 & E1 & L1 & A1 & B1). rewrite E1. cbn [bind].
    destruct (IH m1 (S first) (next v) ltac:(lia) ltac:(lia)) as (m' & E & L & A & B). exists m'. rewrite E.
    split; [f_equal; f_equal; rewrite iter_next; f_equal; lia|]. split; [lia|]. split.
    + intros [|i] Hi; [rewrite Nat.add_0_r, B by lia; exact A1|]. replace (first + S i) with (S first + i) by lia. rewrite A by lia. now rewrite iter_next.
    + intros j Hj. rewrite B by lia. apply B1. lia.
Qed.
(** Element [i] of the range becomes value + i, the elements outside keep their values, and the next value is returned. *)
Theorem C124_iota {V T} (next : T -> T) (conv : T -> V) (m : list V) first last v : first <= last <= length m ->
  exists m', iota next conv m first last v = Some (Nat.iter (last - first) next v, m') /\ length m' = length m /\
    (forall i, i < last - first -> nth_error m' (first + i) = Some (conv (Nat.iter i next v))) /\
    (forall j, j < first \/ last <= j -> nth_error m' j = nth_error m j).
Proof. intros H. apply iota_ok; [lia|exact H]. Qed.

(** ** filter *)
Lemma skipn_at {V} (m : list V) i x : nth_error m i = Some x -> skipn i m = x :: skipn (S i) m.
Proof.
  revert i. induction m as [|y m IH]; intros [|i]; cbn [nth_error skipn]; try discriminate; [now intros [= <-]|]. intros H. rewrite (IH i H). reflexivity.
Qed.
Lemma range_cons {V} (m : list V) first last x : first < last -> nth_error m first = Some x -> range m first last = x :: range m (S first) last.
Proof. intros H E. unfold range. rewrite (skipn_at m first x E). replace (last - first) with (S (last - S first)) by lia. reflexivity. Qed.
Lemma filter_ok {V O} (op : V -> O -> O) m last : forall fuel first o, last - first < fuel -> first <= last <= length m ->
  filter_loop op fuel m first last o = Some (fold_left (fun o x => op x o) (range m first last) o).
Proof.
  induction fuel as [|f IH]; intros first o Hf H; [lia|]. cbn [filter_loop]. destruct (Nat.eqb_spec first last) as [E|N].
  - unfold range. rewrite E, Nat.sub_diag. reflexivity.
  - destruct (get m first ltac:(lia)) as (x & Ex). unfold deref. rewrite Ex. cbn [bind]. rewrite IH by lia. rewrite (range_cons m first last x) by (auto; lia). reflexivity.
Qed.
(** The function is called once for each element, in order, each time with what the call before returned. *)
Theorem C124_filter {V O} (op : V -> O -> O) (m : list V) first last o : first <= last <= length m ->
  filter op m first last o = Some (fold_left (fun o x => op x o) (range m first last) o).
Proof. intros H. apply filter_ok; [lia|exact H]. Qed.
(** In particular a function that appends what it makes of an element yields the concatenation. *)
Corollary C124_filter_output {V B} (make : V -> list B) (m : list V) first last out : first <= last <= length m ->
  filter (fun x o => o ++ make x) m first last out = Some (out ++ flat_map make (range m first last)).
Proof.
  intros H. rewrite C124_filter by exact H. f_equal. generalize (range m first last) as l. intros l. revert out.
  induction l as [|x l IH]; intros out; cbn [fold_left flat_map]; [now rewrite app_nil_r|]. rewrite IH. now rewrite app_assoc.
Qed.

(** ** find_match *)
Lemma find_ok {V T} (comp : T -> V -> bool) m last v : forall fuel first, last - first < fuel -> first <= last <= length m ->
  exists r, find_loop comp fuel m first last v = Some r /\ first <= r <= last /\
    (r < last -> exists x, nth_error m r = Some x /\ comp v x = true) /\
    (forall j x, first <= j < r -> nth_error m j = Some x -> comp v x = false).
Proof.
  induction fuel as [|f IH]; intros first Hf H; [lia|]. cbn [find_loop]. destruct (Nat.eqb_spec first last) as [E|N].
  - exists first. split; [reflexivity|]. split; [lia|]. split; intros; lia.
  - destruct (get m first ltac:(lia)) as (x & Ex). unfold deref. rewrite Ex. cbn [bind]. destruct (comp v x) eqn:C.
    + exists first. split; [reflexivity|]. split; [lia|]. split; [eauto|intros; lia].
    + destruct (IH (S first) ltac:(lia) ltac:(lia)) as (r & A & B & D & E). exists r. split; [exact A|]. split; [lia|]. split; [exact D|].
      intros j y Hj Hy. destruct (Nat.eq_dec j first) as [->|]; [congruence|]. apply (E j y); [lia|exact Hy].
Qed.
(** The first position whose element matches - the value is the comparison's first argument - or [last]. *)
Theorem C124_find_match {V T} (comp : T -> V -> bool) (m : list V) first last v : first <= last <= length m ->
  exists r, find_match comp m first last v = Some r /\ first <= r <= last /\
    (r < last -> exists x, nth_error m r = Some x /\ comp v x = true) /\
    (forall j x, first <= j < r -> nth_error m j = Some x -> comp v x = false).
Proof. intros H. apply find_ok; [lia|exact H]. Qed.

(** ** for_each_position: every position once, in order *)
Lemma each_ok {W} (f : nat -> W -> W) last : forall fuel first w, last - first < fuel -> first <= last ->
  each_loop f fuel first last w = Some (fold_left (fun w i => f i w) (seq first (last - first)) w).
Proof.
  induction fuel as [|k IH]; intros first w Hf H; [lia|]. cbn [each_loop]. destruct (Nat.eqb_spec first last) as [E|N].
  - rewrite E, Nat.sub_diag. reflexivity.
  - rewrite IH by lia. replace (last - first) with (S (last - S first)) by lia. reflexivity.
Qed.
Theorem C124_for_each_position {V W} (f : nat -> W -> W) (m : list V) first last w : first <= last <= length m ->
  for_each_position f m first last w = Some (fold_left (fun w i => f i w) (seq first (last - first)) w).
Proof. intros H. apply each_ok; lia. Qed.

(** ** other_of: if the predicate tells exactly one of the two from [x], that one is returned *)
Theorem C124_other_of {V} (pred : V -> V -> bool) a b x :
  (pred a x = true -> pred b x = false -> other_of pred (a, b) x = b) /\
  (pred a x = false -> pred b x = true -> other_of pred (a, b) x = a).
Proof. unfold other_of. cbn [fst snd]. split; intros -> _; reflexivity. Qed.

(** ** the hypotheses are met *)
Example C124_meets : weak_order Nat.ltb /\
  max_adjacent_difference Nat.sub Nat.ltb [7; 1; 4; 2; 9; 9; 16; 0] 1 7 = Some 3 /\
  iota S (fun n => n * 10) [9; 9; 9; 9] 1 3 4 = Some (6, [9; 40; 50; 9]) /\
  filter (fun x o => o ++ (if Nat.even x then [x; x] else [])) [1; 2; 3; 4] 0 3 [0] = Some [0; 2; 2] /\
  find_match Nat.ltb [5; 1; 7; 9] 1 4 5 = Some 2 /\
  for_each_position (fun i w => w ++ [i]) [5; 1; 7; 9] 1 3 [] = Some [1; 2] /\ other_of Nat.eqb (3, 4) 4 = 3.
Proof.
  split; [|vm_compute; auto 10]. split; [|split].
  - intros x. apply Nat.ltb_irrefl.
  - intros x y z A B. apply Nat.ltb_lt in A, B. apply Nat.ltb_lt. lia.
  - intros x y z A. apply Nat.ltb_lt in A. destruct (Nat.ltb_spec x y); [auto|]. right. apply Nat.ltb_lt. lia.
Qed.
