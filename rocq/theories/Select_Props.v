(** Property C31: select, min, max, median, clamp. *)
From Verif Require Import Prelude Search_Model Select_Model.
Local Open Scope nat_scope.

(** *** Specification: the k-th element of a stable sort. *)
Section Spec.
Context {T : Type} (r : T -> T -> bool).
(** In a stable sort of [l], does the element at position [j] come before the one at [i]? It does
    if it is smaller, or equivalent and earlier. *)
Definition comes_before (l : list T) (j i : nat) : bool :=
  match nth_error l j, nth_error l i with
  | Some y, Some x => r y x || (negb (r x y) && (j <? i))
  | _, _ => false
  end.
(** [v] is the argument (an object of [l], at some position) with exactly [k] before it. *)
Definition stable_nth (l : list T) (k : nat) (v : T) : Prop :=
  exists i, nth_error l i = Some v /\
    length (filter (fun j => comes_before l j i) (seq 0 (length l))) = k.
End Spec.

Section Props.
Context {T : Type} (r : T -> T -> bool) (W : strict_weak_order r).

Theorem C31_min_max_are_stable a b :
  stable_nth r [a; b] 0 (min r a b) /\ stable_nth r [a; b] 1 (max r a b).
Proof.
  destruct W as (Hi & Ht & _). unfold min, max, select_0_2, select_1_2, stable_nth, comes_before.
  pose proof (Hi a) as Ia. pose proof (Hi b) as Ib. pose proof (Ht a b a) as Tab.
  destruct (r b a) eqn:E1; destruct (r a b) eqn:E2; try (specialize (Tab eq_refl eq_refl); congruence).
  all: split; first [exists 0; split; [reflexivity|]; cbn; rewrite ?Ia, ?Ib, ?E1, ?E2; reflexivity
                    |exists 1; split; [reflexivity|]; cbn; rewrite ?Ia, ?Ib, ?E1, ?E2; reflexivity].
Qed.

Ltac swo_cases a b c :=
  destruct W as (Hi & Ht & He);
  pose proof (Hi a) as Ia; pose proof (Hi b) as Ib; pose proof (Hi c) as Ic;
  pose proof (Ht a b a) as T1; pose proof (Ht a c a) as T2; pose proof (Ht b c b) as T3;
  pose proof (Ht a b c) as T4; pose proof (Ht a c b) as T5; pose proof (Ht b a c) as T6;
  pose proof (Ht b c a) as T7; pose proof (Ht c a b) as T8; pose proof (Ht c b a) as T9;
  pose proof (He a b c) as E1; pose proof (He a c b) as E2; pose proof (He b a c) as E3;
  pose proof (He b c a) as E4; pose proof (He c a b) as E5; pose proof (He c b a) as E6;
  clear W Hi Ht He;
  destruct (r a b) eqn:Rab; destruct (r b a) eqn:Rba; destruct (r a c) eqn:Rac;
  destruct (r c a) eqn:Rca; destruct (r b c) eqn:Rbc; destruct (r c b) eqn:Rcb;
  rewrite ?Ia, ?Ib, ?Ic in *;
  repeat match goal with
  | H : true = true -> _ |- _ => specialize (H eq_refl)
  | H : false = false -> _ |- _ => specialize (H eq_refl)
  | H : true = false |- _ => discriminate H
  | H : false = true |- _ => discriminate H
  | H : true = false -> _ |- _ => clear H
  | H : false = true -> _ |- _ => clear H
  end.
Ltac pick n := exists n; split; [reflexivity|]; cbn;
  repeat match goal with H : r _ _ = _ |- _ => rewrite H end; reflexivity.

Theorem C31_median_is_stable_middle a b c : stable_nth r [a; b; c] 1 (median r a b c).
Proof.
  unfold median, select_1_3, select_1_3_ab, select_1_2, stable_nth, comes_before.
  swo_cases a b c; first [pick 0|pick 1|pick 2].
Qed.

(** With its precondition [!r(max, min)], clamp is the middle of (min, x, max); so is
    clamp_unordered without it. *)
Theorem C31_clamp_is_stable_middle x lo hi :
  (r hi lo = false -> stable_nth r [lo; x; hi] 1 (clamp r x lo hi)) /\
  stable_nth r [lo; x; hi] 1 (clamp_unordered r x lo hi).
Proof.
  split.
  - intros Hp. unfold clamp, select_1_3_ac, select_0_2, stable_nth, comes_before.
    swo_cases lo x hi; first [pick 0|pick 1|pick 2|discriminate].
  - exact (C31_median_is_stable_middle lo x hi).
Qed.

(** What clamp documents: the nearer bound when x is outside, x itself when it is not. *)
Theorem C31_clamp_returns_nearest x lo hi : r hi lo = false ->
  (r x lo = true -> clamp r x lo hi = lo) /\
  (r hi x = true -> clamp r x lo hi = hi) /\
  (r x lo = false -> r hi x = false -> clamp r x lo hi = x) /\
  r (clamp r x lo hi) lo = false /\ r hi (clamp r x lo hi) = false.
Proof.
  intros Hp. unfold clamp, select_1_3_ac, select_0_2.
  swo_cases lo x hi; try discriminate; repeat split; intros; try congruence.
Qed.
Theorem C31_pin_is_clamp x lo hi :
  pin r lo x hi = clamp r x lo hi /\ stable_nth r [lo; x; hi] 1 (pin_safe r lo x hi).
Proof. split; [reflexivity|exact (C31_median_is_stable_middle lo x hi)]. Qed.

(** select_1_3_ab / _ac: same result, given their preconditions. *)
Theorem C31_select_with_known_order a b c :
  (r b a = false -> stable_nth r [a; b; c] 1 (select_1_3_ab r a b c)) /\
  (r c a = false -> stable_nth r [a; b; c] 1 (select_1_3_ac r a b c)).
Proof.
  unfold select_1_3_ab, select_1_3_ac, select_1_2, select_0_2, stable_nth, comes_before.
  swo_cases a b c; split; intros Hp; try discriminate Hp; first [pick 0|pick 1|pick 2].
Qed.
End Props.

(** Objects with a key and an identity: the three keys 1, 1, 0; the middle is the object named 0. *)
Example C31_nonvacuous :
  let r := fun x y : nat * nat => fst x <? fst y in
  strict_weak_order r /\ median r (1, 0) (1, 1) (0, 2) = (1, 0) /\
  max r (1, 0) (1, 1) = (1, 1) /\ min r (1, 0) (1, 1) = (1, 0) /\ clamp r (5, 0) (1, 1) (3, 2) = (3, 2).
Proof.
  cbv zeta. split; [|repeat split].
  split; [|split]; intros; rewrite ?Nat.ltb_irrefl, ?Nat.ltb_lt, ?Nat.ltb_ge in *; try reflexivity; lia.
Qed.

Print Assumptions C31_min_max_are_stable.
Print Assumptions C31_median_is_stable_middle.
Print Assumptions C31_clamp_is_stable_middle.
Print Assumptions C31_clamp_returns_nearest.
Print Assumptions C31_pin_is_clamp.
Print Assumptions C31_select_with_known_order.
