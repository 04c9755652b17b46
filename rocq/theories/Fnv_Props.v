(** Property C41: fnv1a. *)
From Verif Require Import Prelude Bits Fnv_Model.
From Verif Require Fnv_Spec.
Local Open Scope N_scope.

Lemma rollup_spec b w : Fnv_Spec.is_width_for b w -> rollup b = Fnv_Spec.bits w.
Proof.
  intros [[H0 Hb] Hmin]. unfold rollup.
  pose proof (Hmin Fnv_Spec.W32) as M1. pose proof (Hmin Fnv_Spec.W64) as M2.
  pose proof (Hmin Fnv_Spec.W128) as M3. pose proof (Hmin Fnv_Spec.W256) as M4.
  pose proof (Hmin Fnv_Spec.W512) as M5. pose proof (Hmin Fnv_Spec.W1024) as M6. clear Hmin.
  destruct (N.eqb_spec b 0); [lia|].
  destruct (N.leb_spec b 32); [destruct w; cbn [Fnv_Spec.bits] in *; lia|].
  destruct (N.leb_spec b 64); [destruct w; cbn [Fnv_Spec.bits] in *; lia|].
  destruct (N.leb_spec b 128); [destruct w; cbn [Fnv_Spec.bits] in *; lia|].
  destruct (N.leb_spec b 256); [destruct w; cbn [Fnv_Spec.bits] in *; lia|].
  destruct (N.leb_spec b 512); [destruct w; cbn [Fnv_Spec.bits] in *; lia|].
  destruct (N.leb_spec b 1024); destruct w; cbn [Fnv_Spec.bits] in *; lia.
Qed.

Lemma prime_spec w : prime (Fnv_Spec.bits w) = Fnv_Spec.FNV_prime w.
Proof. destruct w; vm_compute; reflexivity. Qed.
Lemma basis_spec w : offset_basis (Fnv_Spec.bits w) = Fnv_Spec.fnv0 w Fnv_Spec.signature.
Proof. destruct w; vm_compute; reflexivity. Qed.

Lemma cast_octet w o : o < 256 -> cast (Fnv_Spec.bits w) (Z.of_N o) = o.
Proof.
  intros Ho. unfold cast. rewrite Z.mod_small; [lia|]. split; [lia|].
  apply Z.lt_le_trans with (2 ^ 8)%Z; [lia|]. apply Z.pow_le_mono_r; [lia|]. destruct w; cbn; lia.
Qed.

Definition spec_step w h o := (N.lxor h o * Fnv_Spec.FNV_prime w) mod 2 ^ Fnv_Spec.bits w.

Lemma step_octet w h o : o < 256 -> step (Fnv_Spec.bits w) h (Z.of_N o) = spec_step w h o.
Proof. intros Ho. unfold step, spec_step. now rewrite prime_spec, cast_octet. Qed.

Lemma fold_octets w l : Forall (fun o => o < 256) l -> forall h,
  fold_left (step (Fnv_Spec.bits w)) (map Z.of_N l) h = fold_left (spec_step w) l h.
Proof.
  induction 1 as [|o l Ho HF IH]; intros h; [reflexivity|]. cbn [map fold_left].
  rewrite step_octet by exact Ho. apply IH.
Qed.

Lemma pow2_pos k : 0 < 2 ^ k.
Proof. apply N.neq_0_lt_0. apply N.pow_nonzero. discriminate. Qed.

Lemma spec_lt w l : Forall (fun o => o < 256) l -> forall h, h < 2 ^ Fnv_Spec.bits w ->
  fold_left (spec_step w) l h < 2 ^ Fnv_Spec.bits w.
Proof.
  induction 1 as [|o l Ho HF IH]; intros h Hh; [exact Hh|]. cbn [fold_left].
  apply IH. unfold spec_step. apply N.mod_lt. apply N.pow_nonzero. discriminate.
Qed.

Lemma mask_spec b w x : b <= Fnv_Spec.bits w -> x < 2 ^ Fnv_Spec.bits w ->
  mask (Fnv_Spec.bits w) b x = x mod 2 ^ b.
Proof.
  intros Hb Hx. unfold mask. destruct (N.eqb_spec (Fnv_Spec.bits w) b) as [<-|Hne].
  - now rewrite N.mod_small.
  - replace (N.shiftl 1 b - 1) with (N.ones b); [apply N.land_ones|].
    rewrite N.ones_equiv, N.shiftl_mul_pow2. lia.
Qed.

(** C41. For every width of 1 to 1024 bits and every sequence of octets held in an unsigned
    type, fnv1a returns the low bits of the FNV-1a hash of the octets. *)
Theorem C41_fnv1a_of_octets :
  forall (b : N) (w : Fnv_Spec.width) (octets : list N),
    Fnv_Spec.is_width_for b w ->
    Forall (fun o => o < 256) octets ->
    fnv1a b (map Z.of_N octets) = Fnv_Spec.fnv1a w octets mod 2 ^ b.
Proof.
  intros b w octets Hw HF. unfold fnv1a. rewrite (rollup_spec b w Hw).
  rewrite fold_octets by exact HF. rewrite basis_spec. fold (Fnv_Spec.fnv1a w octets).
  apply mask_spec; [apply Hw|]. apply (spec_lt w octets HF).
  rewrite <- basis_spec. destruct w; vm_compute; reflexivity.
Qed.
Print Assumptions C41_fnv1a_of_octets.

(** C41. The sentinel form hashes exactly the elements before the first one that satisfies the
    predicate, and reads nothing after it. *)
Theorem C41_fnv1a_sentinel_form :
  forall (b : N) (p : Z -> bool) (before : list Z) (stop : Z) (after : list Z),
    forallb (fun c => negb (p c)) before = true -> p stop = true ->
    fnv1a_until b (before ++ stop :: after) p = Some (fnv1a b before)
    /\ fnv1a_until b (before ++ [stop]) p = Some (fnv1a b before).
Proof.
  intros b p before stop after Hb Hs. unfold fnv1a_until, fnv1a.
  generalize (offset_basis (rollup b)). induction before as [|c before IH]; intros h; cbn [app fnv1a_until_loop fold_left].
  - rewrite Hs. split; reflexivity.
  - cbn [forallb] in Hb. apply andb_prop in Hb as [Hc Hb]. apply negb_true_iff in Hc. rewrite Hc. now apply IH.
Qed.
Print Assumptions C41_fnv1a_sentinel_form.

(** C41 (refuted for plain char). The same text held in a signed char sequence hashes to
    something else as soon as a byte is 0x80 or more: the byte is sign-extended first. *)
Theorem C41_fnv1a_of_signed_char_refuted :
  exists (octets : list N) (chars : list Z),
    Forall (fun o => o < 256) octets /\
    chars = map (fun o : N => if o <? 128 then Z.of_N o else (Z.of_N o - 256)%Z) octets /\
    fnv1a 64 chars <> Fnv_Spec.fnv1a Fnv_Spec.W64 octets /\
    fnv1a 64 (map Z.of_N octets) = Fnv_Spec.fnv1a Fnv_Spec.W64 octets.
Proof.
  exists [0xe9], [(-23)%Z]. split; [repeat constructor|]. split; [reflexivity|].
  split; [vm_compute; discriminate|vm_compute; reflexivity].
Qed.
Print Assumptions C41_fnv1a_of_signed_char_refuted.

Example C41_nonvacuous :
  Fnv_Spec.is_width_for 56 Fnv_Spec.W64 /\
  fnv1a 32 (map Z.of_N [102; 111; 111; 98; 97; 114]) = 0xbf9cf968 /\
  fnv1a 56 (map Z.of_N [97]) = 0x63dc4c8601ec8c.
Proof.
  split; [split; [vm_compute; split; [reflexivity|discriminate]|intros []; cbn; lia]|].
  split; vm_compute; reflexivity.
Qed.
