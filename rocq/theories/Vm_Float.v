(** Integers below 2^53 are represented exactly: static_cast to double and back is the identity. *)
From Coq Require Import ZArith Floats.SpecFloat.
From Verif Require Import Prelude Vm_Value.
Local Open Scope Z_scope.
Ltac Zify.zify_post_hook ::= idtac.

Lemma digits_bounds m : 2 ^ (Zpos (digits2_pos m) - 1) <= Zpos m < 2 ^ Zpos (digits2_pos m).
Proof.
  induction m as [m IH|m IH|]; cbn [digits2_pos].
  - rewrite Pos2Z.inj_succ. replace (Z.succ (Zpos (digits2_pos m)) - 1) with (Zpos (digits2_pos m)) by lia.
    rewrite Z.pow_succ_r by lia.
    replace (Zpos (digits2_pos m)) with (Z.succ (Zpos (digits2_pos m) - 1)) at 1 by lia.
    rewrite Z.pow_succ_r by lia. lia.
  - rewrite Pos2Z.inj_succ. replace (Z.succ (Zpos (digits2_pos m)) - 1) with (Zpos (digits2_pos m)) by lia.
    rewrite Z.pow_succ_r by lia.
    replace (Zpos (digits2_pos m)) with (Z.succ (Zpos (digits2_pos m) - 1)) at 1 by lia.
    rewrite Z.pow_succ_r by lia. lia.
  - simpl. lia.
Qed.
Lemma digits_unique m d : 0 < d -> 2 ^ (d - 1) <= Zpos m < 2 ^ d -> Zpos (digits2_pos m) = d.
Proof.
  intros Hd H. pose proof (digits_bounds m) as B.
  destruct (Z.lt_trichotomy (Zpos (digits2_pos m)) d) as [L|[L|L]]; [|exact L|].
  - exfalso. assert (2 ^ Zpos (digits2_pos m) <= 2 ^ (d - 1)) by (apply Z.pow_le_mono_r; lia). lia.
  - exfalso. assert (2 ^ d <= 2 ^ (Zpos (digits2_pos m) - 1)) by (apply Z.pow_le_mono_r; lia). lia.
Qed.

Lemma f_of_pos m : Zpos m < 2 ^ 53 -> exists mz k, 0 <= k <= 52 /\
  f_of_Z (Zpos m) = S754_finite false mz (- k) /\ Zpos mz = Zpos m * 2 ^ k.
Proof.
  intros Hm. pose proof (digits_bounds m) as B.
  set (d := Zpos (digits2_pos m)) in *.
  assert (Hd : 1 <= d <= 53).
  { split; [unfold d; lia|]. destruct (Z.le_gt_cases d 53); [assumption|]. exfalso.
    assert (2 ^ 53 <= 2 ^ (d - 1)) by (apply Z.pow_le_mono_r; lia). lia. }
  exists (match (53 - d)%Z with Zpos p => shift_pos p m | _ => m end), (53 - d).
  split; [lia|].
  assert (Hmz : Zpos (match (53 - d)%Z with Zpos p => shift_pos p m | _ => m end) = Zpos m * 2 ^ (53 - d)).
  { destruct (53 - d) as [|p|p] eqn:E; [lia| |lia].
    rewrite shift_pos_correct. change (Zpower_pos 2 p) with (2 ^ Zpos p). lia. }
  split; [|exact Hmz].
  unfold f_of_Z, binary_normalize, binary_round.
  assert (Hf : fexp prec64 emax64 (Zpos (digits2_pos m) + 0) = d - 53).
  { unfold fexp, emin, prec64, emax64. fold d. lia. }
  rewrite Hf. unfold shl_align. replace (d - 53 - 0) with (- (53 - d)) by lia.
  assert (Hal : match - (53 - d) with Zneg p => (shift_pos p m, d - 53) | _ => (m, 0) end =
                (match (53 - d)%Z with Zpos p => shift_pos p m | _ => m end, d - 53)).
  { destruct (53 - d) as [|p|p] eqn:E; cbn [Z.opp].
    - replace (d - 53) with 0 by lia. reflexivity.
    - reflexivity.
    - lia. }
  rewrite Hal. cbv beta iota.
  set (mz := match 53 - d with Zpos p => shift_pos p m | _ => m end) in *.
  assert (Hdz : Zpos (digits2_pos mz) = 53).
  { apply digits_unique; [lia|]. rewrite Hmz. split.
    - replace (53 - 1) with ((d - 1) + (53 - d)) by lia. rewrite Z.pow_add_r by lia.
      apply Z.mul_le_mono_nonneg_r; [apply Z.pow_nonneg; lia|lia].
    - replace 53 with (d + (53 - d)) at 2 by lia. rewrite Z.pow_add_r by lia.
      apply Z.mul_lt_mono_pos_r; [apply Z.pow_pos_nonneg; lia|lia]. }
  unfold binary_round_aux, shr_fexp.
  assert (Hs : fexp prec64 emax64 (Zdigits2 (Zpos mz) + (d - 53)) - (d - 53) = 0).
  { unfold fexp, emin, prec64, emax64, Zdigits2. rewrite Hdz. lia. }
  rewrite Hs. cbn [shr shr_record_of_loc shr_m loc_of_shr_record round_nearest_even].
  rewrite Hs. cbn [shr shr_record_of_loc shr_m].
  unfold prec64, emax64. destruct (Zle_bool (d - 53) (1024 - 53)) eqn:L.
  - f_equal. lia.
  - apply Z.leb_gt in L. lia.
Qed.

Lemma f_trunc_of_Z z : 0 <= z < 2 ^ 53 -> f_trunc (f_of_Z z) = Some z.
Proof.
  intros Hz. destruct z as [|m|m]; [reflexivity| |lia].
  destruct (f_of_pos m) as (mz & k & Hk & -> & Hmz); [lia|]. cbn [f_trunc].
  destruct (Z.leb_spec 0 (- k)).
  - assert (k = 0) by lia. subst k. rewrite Z.pow_0_r in *. f_equal. lia.
  - f_equal. rewrite Z.opp_involutive, Hmz. apply Z.div_mul. apply Z.pow_nonzero; lia.
Qed.
Lemma f_to_u32_of_Z z : 0 <= z < 2 ^ 32 -> f_to_u32 (f_of_Z z) = Some z.
Proof.
  intros Hz. unfold f_to_u32. rewrite f_trunc_of_Z by (split; [lia|]; apply Z.lt_trans with (2 ^ 32); [lia|reflexivity]).
  destruct (Z.leb_spec 0 z); [|lia]. destruct (Z.ltb_spec z (2 ^ 32)); [reflexivity|lia].
Qed.
