(** C42: a segmented range is the concatenation of its segments. *)
From Coq Require Import Lia PeanoNat List Bool.
From Verif Require Import Prelude Segmented_Model.
Import ListNotations.
Ltac Zify.zify_post_hook ::= idtac.

(** *** Specification: an iterator stands at a place in the concatenation *)
Section Spec.
Context {A : Type}.
Variable top : list (list A).
Definition place (it : iter) : nat :=
  length (concat (firstn (bucket it) top)) + (if bucket it =? length top then 0 else current it).
(** The iterators a program can get: at an element, or at the end *)
Definition valid (it : iter) : Prop :=
  bucket it = length top \/ exists seg, nth_error top (bucket it) = Some seg /\ current it < length seg.
End Spec.

Section Proofs.
Context {A : Type}.
Variable top : list (list A).
Notation place := (place top).
Notation valid := (valid top).

Lemma firstn_S_concat b seg : nth_error top b = Some seg ->
  concat (firstn (S b) top) = concat (firstn b top) ++ seg.
Proof.
  revert b. induction top as [|s t IH]; intros [|b] H; cbn in *; try discriminate.
  - injection H as ->. rewrite app_nil_r. reflexivity.
  - destruct t as [|s' t']; [destruct b; discriminate|]. rewrite (IH b H). rewrite app_assoc. reflexivity.
Qed.
Lemma concat_split b seg : nth_error top b = Some seg ->
  concat top = concat (firstn b top) ++ seg ++ concat (skipn (S b) top).
Proof.
  intros H. rewrite <- (firstn_skipn (S b) top) at 1. rewrite concat_app, (firstn_S_concat _ _ H), <- app_assoc. reflexivity.
Qed.
Lemma skipn_nth b seg : nth_error top b = Some seg -> skipn b top = seg :: skipn (S b) top.
Proof. revert b. induction top as [|s t IH]; intros [|b] H; cbn in *; try discriminate; [congruence|apply IH, H]. Qed.
Lemma skipn_nth_elt (l : list A) b x : nth_error l b = Some x -> skipn b l = x :: skipn (S b) l.
Proof. revert b. induction l as [|s t IH]; intros [|b] H; cbn in *; try discriminate; [congruence|apply IH, H]. Qed.
Lemma valid_bound it : valid it -> bucket it <= length top.
Proof. intros [H|(seg & H & _)]; [lia|]. assert (bucket it < length top) by (apply nth_error_Some; congruence). lia. Qed.
Lemma at_element it seg : nth_error top (bucket it) = Some seg -> place it = length (concat (firstn (bucket it) top)) + current it.
Proof.
  intros H. unfold place, Segmented_Props.place. assert (bucket it < length top) by (apply nth_error_Some; congruence).
  replace (bucket it =? length top) with false by (symmetry; apply Nat.eqb_neq; lia). reflexivity.
Qed.
Lemma at_end it : bucket it = length top -> place it = length (concat top).
Proof. intros H. unfold place, Segmented_Props.place. rewrite H, Nat.eqb_refl, firstn_all. lia. Qed.
Lemma place_lt it seg : nth_error top (bucket it) = Some seg -> current it < length seg -> place it < length (concat top).
Proof.
  intros H L. rewrite (at_element _ _ H), (concat_split _ _ H), !app_length. lia.
Qed.
Lemma deref_place it : valid it -> deref top it = nth_error (concat top) (place it).
Proof.
  intros [H|(seg & H & L)].
  - rewrite (at_end _ H). unfold deref. replace (nth_error top (bucket it)) with (@None (list A)).
    + symmetry. apply nth_error_None. lia.
    + symmetry. apply nth_error_None. lia.
  - unfold deref. rewrite H, (at_element _ _ H), (concat_split _ _ H).
    rewrite nth_error_app2 by lia. replace (_ + current it - _) with (current it) by lia.
    rewrite nth_error_app1 by exact L. reflexivity.
Qed.

(** places tell iterators apart *)
Lemma prefix_mono b b' : b <= b' -> length (concat (firstn b top)) <= length (concat (firstn b' top)).
Proof.
  intros L. replace b' with (b + (b' - b)) by lia. generalize (b' - b) as d. clear b' L. intros d. revert b.
  induction top as [|s t IH]; intros [|b]; cbn [firstn concat]; try rewrite !app_length; try (cbn; lia).
  specialize (IH b). cbn [Nat.add firstn concat]. rewrite app_length. lia.
Qed.
Lemma place_inj x y : valid x -> valid y -> place x = place y -> equal top x y = true.
Proof.
  intros Vx Vy E. unfold equal.
  destruct Vx as [Hx|(sx & Hx & Lx)]; destruct Vy as [Hy|(sy & Hy & Ly)].
  - rewrite Hx, Hy, !Nat.eqb_refl. reflexivity.
  - pose proof (place_lt _ _ Hy Ly). rewrite (at_end _ Hx) in E. lia.
  - pose proof (place_lt _ _ Hx Lx). rewrite (at_end _ Hy) in E. lia.
  - rewrite (at_element _ _ Hx), (at_element _ _ Hy) in E.
    assert (B : bucket x = bucket y).
    { destruct (Nat.lt_trichotomy (bucket x) (bucket y)) as [L|[L|L]]; [|exact L|].
      - pose proof (prefix_mono (S (bucket x)) (bucket y) ltac:(lia)) as M. rewrite (firstn_S_concat _ _ Hx), app_length in M. lia.
      - pose proof (prefix_mono (S (bucket y)) (bucket x) ltac:(lia)) as M. rewrite (firstn_S_concat _ _ Hy), app_length in M. lia. }
    rewrite B in *. rewrite Nat.eqb_refl. replace (current x) with (current y) by lia. rewrite Nat.eqb_refl, orb_true_r. reflexivity.
Qed.
Lemma equal_place x y : valid x -> valid y -> equal top x y = true -> place x = place y.
Proof.
  intros Vx Vy E. unfold equal in E. apply andb_prop in E as [B C]. apply Nat.eqb_eq in B. apply orb_prop in C as [C|C].
  - apply Nat.eqb_eq in C. rewrite (at_end _ C), (at_end y); congruence.
  - apply Nat.eqb_eq in C. unfold place, Segmented_Props.place. rewrite B, C. reflexivity.
Qed.

(** making and moving *)
Lemma skip_empty_spec rest : forall b, rest = skipn b top -> b <= length top ->
  let b' := skip_empty rest b in b <= b' <= length top /\
  length (concat (firstn b' top)) = length (concat (firstn b top)) /\
  (b' = length top \/ exists x seg, nth_error top b' = Some (x :: seg)).
Proof.
  induction rest as [|[|x seg] rest IH]; intros b E L; cbn [skip_empty].
  - assert (b = length top). { assert (length (skipn b top) = 0) by (rewrite <- E; reflexivity). rewrite skipn_length in H. lia. }
    subst b. split; [lia|]. split; [reflexivity|]. left. reflexivity.
  - assert (H : nth_error top b = Some []). { rewrite <- (firstn_skipn b top), nth_error_app2; rewrite firstn_length_le by exact L; [|lia]. rewrite <- E, Nat.sub_diag. reflexivity. }
    assert (L' : b < length top) by (apply nth_error_Some; congruence).
    destruct (IH (S b)) as (H1 & H2 & H3).
    { rewrite (skipn_nth _ _ H) in E. injection E as E. exact E. } { lia. }
    split; [lia|]. split; [|exact H3]. rewrite H2, (firstn_S_concat _ _ H), app_nil_r. reflexivity.
  - split; [lia|]. split; [reflexivity|]. right. exists x, seg.
    rewrite <- (firstn_skipn b top), nth_error_app2; rewrite firstn_length_le by exact L; [|lia]. rewrite <- E, Nat.sub_diag. reflexivity.
Qed.
Lemma make_spec b g : b <= length top -> valid (make top b g) /\ place (make top b g) = length (concat (firstn b top)).
Proof.
  intros L. destruct (skip_empty_spec (skipn b top) b eq_refl L) as (H1 & H2 & H3). unfold make.
  set (b' := skip_empty (skipn b top) b) in *.
  destruct (Nat.eqb_spec b' (length top)) as [E|E].
  - split; [left; exact E|]. rewrite at_end by exact E. rewrite <- H2, E, firstn_all. reflexivity.
  - destruct H3 as [H3|(x & seg & H3)]; [contradiction|].
    split; [right; exists (x :: seg); split; [exact H3|cbn; lia]|]. rewrite (at_element (mk_iter b' 0) _ H3). cbn [bucket current]. lia.
Qed.
Lemma settle_spec rest : forall b c seg, rest = skipn b top -> nth_error top b = Some seg -> c <= length seg ->
  exists it, settle rest b c = Some it /\ valid it /\ place it = length (concat (firstn b top)) + c.
Proof.
  induction rest as [|s rest IH]; intros b c seg E H L.
  - rewrite (skipn_nth _ _ H) in E. discriminate.
  - rewrite (skipn_nth _ _ H) in E. injection E as -> E0. assert (E : rest = skipn (S b) top) by exact E0. clear E0. cbn [settle].
    destruct (Nat.eqb_spec c (length seg)) as [-> | N].
    + assert (B : b < length top) by (apply nth_error_Some; congruence).
      destruct rest as [|s' rest'].
      * assert (H0 : S b = length top). { assert (X : length (skipn (S b) top) = 0) by (rewrite <- E; reflexivity). rewrite skipn_length in X. lia. }
        exists (mk_iter (S b) (length seg)). split; [reflexivity|]. split; [left; exact H0|].
        rewrite at_end by exact H0. replace (concat top) with (concat (firstn (S b) top)) by (rewrite H0, firstn_all; reflexivity).
        rewrite (firstn_S_concat _ _ H), app_length. lia.
      * assert (H' : nth_error top (S b) = Some s').
        { rewrite <- (firstn_skipn (S b) top), nth_error_app2; rewrite firstn_length_le by lia; [|lia]. rewrite <- E, Nat.sub_diag. reflexivity. }
        destruct (IH (S b) 0 s' E H' ltac:(lia)) as (it & S1 & S2 & S3). exists it. split; [exact S1|]. split; [exact S2|].
        rewrite S3, (firstn_S_concat _ _ H), app_length. lia.
    + exists (mk_iter b c). split; [reflexivity|]. split; [right; exists seg; split; [exact H|cbn; lia]|].
      rewrite (at_element (mk_iter b c) seg H). reflexivity.
Qed.
Lemma increment_spec it : valid it -> place it < length (concat top) ->
  exists it', increment top it = Some it' /\ valid it' /\ place it' = S (place it).
Proof.
  intros [H|(seg & H & L)] P; [rewrite (at_end _ H) in P; lia|].
  unfold increment. rewrite H. replace (current it <? length seg) with true by (symmetry; apply Nat.ltb_lt; exact L).
  destruct (settle_spec (skipn (bucket it) top) (bucket it) (S (current it)) seg eq_refl H L) as (it' & S1 & S2 & S3).
  exists it'. split; [exact S1|]. split; [exact S2|]. rewrite S3, (at_element _ _ H). lia.
Qed.
Lemma unsettle_spec b : forall c, b <= length top ->
  (b < length top -> exists seg, nth_error top b = Some seg /\ c <= length seg) ->
  0 < length (concat (firstn b top)) + (if b =? length top then 0 else c) ->
  exists it seg, unsettle top b c = Some it /\ nth_error top (bucket it) = Some seg /\
    0 < current it <= length seg /\
    length (concat (firstn (bucket it) top)) + current it = length (concat (firstn b top)) + (if b =? length top then 0 else c).
Proof.
  induction b as [|b IH]; intros c L V P; cbn [unsettle].
  - destruct (Nat.eqb_spec 0 (length top)) as [E|E]; [cbn in P; lia|].
    destruct (V ltac:(lia)) as (seg & H & Hc). cbn [firstn concat length Nat.add] in P.
    replace (c =? 0) with false by (symmetry; apply Nat.eqb_neq; lia). cbn [orb].
    exists (mk_iter 0 c), seg. cbn [bucket current]. split; [reflexivity|]. split; [exact H|]. split; [lia|reflexivity].
  - destruct ((S b =? length top) || (c =? 0)) eqn:Q.
    + assert (Pc : (if S b =? length top then 0 else c) = 0).
      { destruct (S b =? length top); [reflexivity|]. apply Nat.eqb_eq. exact Q. }
      rewrite Pc in *. destruct (nth_error top b) as [seg|] eqn:H.
      * assert (B : b < length top) by (apply nth_error_Some; congruence).
        destruct (IH (length seg)) as (it & sg & U & N & C & E).
        { lia. } { intros _. exists seg. split; [reflexivity || exact H|lia]. }
        { replace (b =? length top) with false by (symmetry; apply Nat.eqb_neq; lia).
          rewrite (firstn_S_concat _ _ H), app_length in P. lia. }
        exists it, sg. split; [exact U|]. split; [exact N|]. split; [exact C|]. rewrite E.
        replace (b =? length top) with false by (symmetry; apply Nat.eqb_neq; lia).
        rewrite (firstn_S_concat _ _ H), app_length. lia.
      * apply nth_error_None in H. lia.
    + apply orb_false_elim in Q as [Q1 Q2]. rewrite Q1 in *. apply Nat.eqb_neq in Q1, Q2.
      destruct (V ltac:(lia)) as (seg & H & Hc). exists (mk_iter (S b) c), seg. cbn [bucket current].
      split; [reflexivity|]. split; [exact H|]. split; [lia|reflexivity].
Qed.
Lemma decrement_spec it : valid it -> 0 < place it ->
  exists it', decrement top it = Some it' /\ valid it' /\ S (place it') = place it.
Proof.
  intros V P. pose proof (valid_bound _ V) as B. unfold decrement.
  destruct (unsettle_spec (bucket it) (current it) B) as (it' & seg & U & N & C & E).
  - intros Lt. destruct V as [V|(seg & V & L)]; [lia|]. exists seg. split; [exact V|lia].
  - exact P.
  - rewrite U. eexists; split; [reflexivity|]. cbn [bucket current].
    split; [right; exists seg; split; [exact N|cbn; lia]|].
    rewrite (at_element (mk_iter (bucket it') (current it' - 1)) seg N). cbn [bucket current]. unfold place, Segmented_Props.place. lia.
Qed.
End Proofs.

(** *** C42 *)
(** The first iterator of a segmented range stands at place 0 and the last at the number of elements;
    a valid iterator dereferences to the element of the concatenation at its place; two are equal exactly
    when they are at the same place; ++ and -- move one place, and are defined wherever there is one. *)
Theorem C42_segmented_range_is_the_concatenation :
  forall (A : Type) (top : list (list A)) (g : nat),
    (valid top (first top g) /\ place top (first top g) = 0) /\
    (valid top (last top g) /\ place top (last top g) = length (concat top)) /\
    forall it, valid top it ->
      deref top it = nth_error (concat top) (place top it) /\
      (forall it', valid top it' -> (equal top it it' = true <-> place top it = place top it')) /\
      (place top it < length (concat top) ->
         exists it', increment top it = Some it' /\ valid top it' /\ place top it' = S (place top it)) /\
      (0 < place top it ->
         exists it', decrement top it = Some it' /\ valid top it' /\ S (place top it') = place top it).
Proof.
  intros A top g. split; [|split].
  - destruct (make_spec top 0 g ltac:(lia)) as [V P]. split; [exact V|exact P].
  - destruct (make_spec top (length top) g ltac:(lia)) as [V P]. rewrite firstn_all in P. split; [exact V|exact P].
  - intros it V. split; [apply deref_place; exact V|]. split; [|split].
    + intros it' V'. split; [apply equal_place; assumption|apply place_inj; assumption].
    + apply increment_spec; exact V.
    + apply decrement_spec; exact V.
Qed.

(** So the loop for (it = first; it != last; ++it) reads exactly the concatenation, in order *)
Fixpoint walk {A} (top : list (list A)) (fuel : nat) (it stop : iter) : option (list A) :=
  if equal top it stop then Some [] else
  match fuel with
  | O => None
  | S fuel => match deref top it, increment top it with
              | Some x, Some it' => match walk top fuel it' stop with Some l => Some (x :: l) | None => None end
              | _, _ => None
              end
  end.
Theorem C42_loop_reads_the_concatenation :
  forall (A : Type) (top : list (list A)) (g g' : nat),
    walk top (length (concat top)) (first top g) (last top g') = Some (concat top).
Proof.
  intros A top g g'.
  destruct (C42_segmented_range_is_the_concatenation A top g) as ((V0 & P0) & _ & H).
  destruct (C42_segmented_range_is_the_concatenation A top g') as (_ & (V1 & P1) & _).
  assert (G : forall n it, valid top it -> place top it + n = length (concat top) ->
    walk top n it (last top g') = Some (skipn (place top it) (concat top))).
  { induction n as [|n IH]; intros it V E; cbn [walk]; destruct (H it V) as (D & Q & Inc & _).
    - replace (equal top it (last top g')) with true by (symmetry; apply Q; [exact V1|lia]).
      rewrite skipn_all2 by lia. reflexivity.
    - replace (equal top it (last top g')) with false.
      + destruct Inc as (it' & I1 & I2 & I3); [lia|]. rewrite D, I1, (IH it' I2) by lia. rewrite I3.
        destruct (nth_error (concat top) (place top it)) as [x|] eqn:N; [|apply nth_error_None in N; lia].
        f_equal. symmetry. apply skipn_nth_elt. exact N.
      + symmetry. destruct (equal top it (last top g')) eqn:X; [|reflexivity]. apply (proj1 (Q _ V1)) in X. lia. }
  rewrite (G (length (concat top)) _ V0) by lia. rewrite P0. reflexivity.
Qed.
Example C42_case : walk [[]; [1; 2]; []; []; [3]; []] 10 (first [[]; [1; 2]; []; []; [3]; []] 7) (last [[]; [1; 2]; []; []; [3]; []] 9) = Some [1; 2; 3]
  /\ valid [[]; [1; 2]; []; []; [3]; []] (mk_iter 4 0).
Proof. split; [reflexivity|]. right. exists [3]. split; [reflexivity|cbn; lia]. Qed.
