(** Properties C09, C10, C11: adobe::sha<Traits> for the five traits classes. *)
From Verif Require Import Prelude Bits Blocks Sha_Model Sha_Engine Sha_Rep Sha_Compress.
From Verif Require Sha_Spec.
Local Open Scope N_scope.

(** Everything a program can do with one object: feed octets, or read the digest so far.
    The outcome is the list of digests read ([None] = undefined behaviour). *)
Inductive op := Update (bytes : list N) | Finalize.

Fixpoint run (T : traits) (o : sha) (ops : list op) : option (list (list N)) :=
  match ops with
  | [] => Some []
  | Update bytes :: ops =>
    match update T o bytes with None => None | Some o' => run T o' ops end
  | Finalize :: ops =>
    match finalize T o with
    | None => None
    | Some d => match run T o ops with None => None | Some ds => Some (d :: ds) end
    end
  end.

(** What FIPS 180-4 says they should be, [fed] being the octets so far. *)
Fixpoint expected (v : Sha_Spec.variant) (fed : list N) (ops : list op) : list (list N) :=
  match ops with
  | [] => []
  | Update bytes :: ops => expected v (fed ++ bytes) ops
  | Finalize :: ops => Sha_Spec.sha v (Sha_Spec.bits_of_bytes fed) :: expected v fed ops
  end.

Fixpoint octets (ops : list op) : list N :=
  match ops with [] => [] | Update b :: ops => b ++ octets ops | Finalize :: ops => octets ops end.

Lemma size_ok v : Sha_Spec.word_size v = 32%nat \/ Sha_Spec.word_size v = 64%nat.
Proof. destruct v; auto. Qed.

Lemma words_ok v (b : list bool) : length b = (16 * Sha_Spec.word_size v)%nat ->
  Forall (isw (wb v)) (Sha_Spec.words (Sha_Spec.word_size v) b) /\ length (Sha_Spec.words (Sha_Spec.word_size v) b) = 16%nat.
Proof.
  intros Hb. unfold Sha_Spec.words. split; [|now rewrite map_length, seq_length].
  apply Forall_forall. intros x Hx. apply in_map_iff in Hx as (i & <- & Hi).
  pose proof (be_lt (firstn (Sha_Spec.word_size v) (skipn (i * Sha_Spec.word_size v) b))) as H.
  unfold isw, wb. eapply N.lt_le_trans; [exact H|]. apply N.pow_le_mono_r; [lia|]. rewrite firstn_length. lia.
Qed.

Lemma finalize_is_sha v o msg : Rep (traits_of v) (Sha_Spec.word_size v) o msg -> N.of_nat (length msg) < 2 ^ 64 ->
  finalize (traits_of v) o = Some (Sha_Spec.sha v msg).
Proof.
  intros HR HL. rewrite (finalize_spec (traits_of v) (Sha_Spec.word_size v) (size_ok v) (wbits_spec v) o msg HR HL).
  unfold Sha_Spec.sha. rewrite digest_words_spec. do 2 f_equal.
  destruct (initial_ok v) as [H1 H2].
  rewrite fold_blocks; [now rewrite initial_spec| |exact H1|exact H2].
  apply Forall_map. eapply Forall_impl; [intros b Hb; apply words_ok; exact Hb|].
  apply chunks_length. destruct (size_ok v) as [-> | ->]; lia.
Qed.

Lemma bits_app a b : Sha_Spec.bits_of_bytes (a ++ b) = Sha_Spec.bits_of_bytes a ++ Sha_Spec.bits_of_bytes b.
Proof. apply flat_map_app. Qed.

Lemma run_spec v : forall ops o fed,
  Rep (traits_of v) (Sha_Spec.word_size v) o (Sha_Spec.bits_of_bytes fed) ->
  Forall (fun b => b < 256) (octets ops) ->
  8 * N.of_nat (length (fed ++ octets ops)) < 2 ^ 64 ->
  run (traits_of v) o ops = Some (expected v fed ops).
Proof.
  induction ops as [|[bytes|] ops IH]; intros o fed HR HF HL; [reflexivity| |]; cbn [run expected octets] in *.
  - apply Forall_app in HF as [HF1 HF2].
    destruct (Rep_update (traits_of v) (Sha_Spec.word_size v) (size_ok v) (wbits_spec v) o _ bytes HR) as (o' & -> & HR'); auto.
    { rewrite bits_of_bytes_length. clear. lia. }
    rewrite <- bits_app in HR'. apply IH; auto. rewrite <- app_assoc. exact HL.
  - rewrite (finalize_is_sha v o _ HR).
    + rewrite (IH o fed HR HF HL). reflexivity.
    + rewrite bits_of_bytes_length. rewrite app_length in HL. clear -HL. lia.
Qed.

(** C09 + C10. For every one of the five hashes, every history of update and finalize calls on
    one object: each finalize returns the FIPS 180-4 digest of the octets fed before it — so
    how the message was cut, and how many digests were read on the way, cannot matter. *)
Theorem C09_sha_is_fips_180_4_for_every_history :
  forall (v : Sha_Spec.variant) (ops : list op),
    Forall (fun b => b < 256) (octets ops) ->
    8 * N.of_nat (length (octets ops)) < 2 ^ 64 ->
    run (traits_of v) (init (traits_of v)) ops = Some (expected v [] ops).
Proof.
  intros v ops HF HL. apply run_spec; auto.
  apply Rep_init; [apply size_ok|apply wbits_spec].
Qed.
Print Assumptions C09_sha_is_fips_180_4_for_every_history.

Lemma expected_updates v : forall cuts fed ops,
  expected v fed (map Update cuts ++ ops) = expected v (fed ++ concat cuts) ops.
Proof.
  induction cuts as [|c cuts IH]; intros fed ops; cbn [map app concat expected].
  - now rewrite app_nil_r.
  - now rewrite IH, app_assoc.
Qed.
Lemma octets_updates : forall cuts ops, octets (map Update cuts ++ ops) = concat cuts ++ octets ops.
Proof. induction cuts as [|c cuts IH]; intros ops; cbn [map app concat octets]; auto. now rewrite IH, app_assoc. Qed.

(** C09. The one-shot digest() of a message is what any cutting of it into updates gives. *)
Theorem C09_sha_chunking_independent :
  forall (v : Sha_Spec.variant) (message : list N) (cuts : list (list N)),
    concat cuts = message -> Forall (fun b => b < 256) message -> 8 * N.of_nat (length message) < 2 ^ 64 ->
    run (traits_of v) (init (traits_of v)) (map Update cuts ++ [Finalize])
      = option_map (fun d => [d]) (digest (traits_of v) message)
    /\ digest (traits_of v) message = Some (Sha_Spec.sha v (Sha_Spec.bits_of_bytes message)).
Proof.
  intros v message cuts E HF HL.
  assert (H : forall cs, concat cs = message ->
    run (traits_of v) (init (traits_of v)) (map Update cs ++ [Finalize]) = Some [Sha_Spec.sha v (Sha_Spec.bits_of_bytes message)]).
  { intros cs Ec. rewrite C09_sha_is_fips_180_4_for_every_history; rewrite ?octets_updates; cbn [octets]; rewrite ?app_nil_r, ?Ec; auto.
    rewrite expected_updates. cbn [expected app]. now rewrite Ec. }
  pose proof (H [message]) as H1. cbn [map app concat] in H1. rewrite app_nil_r in H1. specialize (H1 eq_refl).
  cbn [run] in H1.
  assert (Hd : digest (traits_of v) message = Some (Sha_Spec.sha v (Sha_Spec.bits_of_bytes message))).
  { unfold digest. destruct (update (traits_of v) (init (traits_of v)) message) as [o|]; [|discriminate].
    destruct (finalize (traits_of v) o); [|discriminate]. now injection H1 as ->. }
  rewrite Hd. split; [apply H; exact E|reflexivity].
Qed.
Print Assumptions C09_sha_chunking_independent.

(** C10. Reading digests on the way does not change any later digest: dropping every finalize
    but the last leaves the last digest unchanged. *)
Theorem C10_sha_finalize_does_not_disturb :
  forall (v : Sha_Spec.variant) (ops : list op),
    Forall (fun b => b < 256) (octets ops) -> 8 * N.of_nat (length (octets ops)) < 2 ^ 64 ->
    exists ds d, run (traits_of v) (init (traits_of v)) (ops ++ [Finalize]) = Some (ds ++ [d])
      /\ digest (traits_of v) (octets ops) = Some d.
Proof.
  intros v ops HF HL.
  assert (Ho : octets (ops ++ [Finalize]) = octets ops).
  { clear. induction ops as [|[b|] ops IH]; cbn [octets app]; auto. now rewrite IH. }
  assert (He : forall fed, exists ds, expected v fed (ops ++ [Finalize]) = ds ++ [Sha_Spec.sha v (Sha_Spec.bits_of_bytes (fed ++ octets ops))]).
  { clear. induction ops as [|[b|] ops IH]; intros fed; cbn [expected app octets].
    - exists []. now rewrite app_nil_r.
    - destruct (IH (fed ++ b)) as [ds ->]. exists ds. now rewrite <- app_assoc.
    - destruct (IH fed) as [ds ->]. eexists (_ :: ds). reflexivity. }
  destruct (He []) as [ds E]. exists ds, (Sha_Spec.sha v (Sha_Spec.bits_of_bytes (octets ops))).
  rewrite C09_sha_is_fips_180_4_for_every_history by (rewrite Ho; assumption). rewrite E. split; [reflexivity|].
  apply (C09_sha_chunking_independent v (octets ops) [octets ops]); auto. simpl. now rewrite app_nil_r.
Qed.
Print Assumptions C10_sha_finalize_does_not_disturb.

Example C09_nonvacuous :
  let ops := [Update [97]; Finalize; Update [98; 99]; Finalize] in
  (Forall (fun b => b < 256) (octets ops) /\ 8 * N.of_nat (length (octets ops)) < 2 ^ 64) /\
  run sha1_traits (init sha1_traits) ops =
   Some [[0x86f7e437; 0xfaa5a7fc; 0xe15d1ddc; 0xb9eaeaea; 0x377667b8];
         [0xa9993e36; 0x4706816a; 0xba3e2571; 0x7850c26c; 0x9cd0d89d]].
Proof. vm_compute. repeat split; repeat constructor. Qed.

(** C11 (the part that holds). With update(first, num_bits) / digest(first, num_bits) the digest
    is the FIPS 180-4 digest of the first num_bits bits, provided the unused low-order bits of
    the last byte read are zero. *)
Theorem C11_sha_bit_messages_partial :
  forall (v : Sha_Spec.variant) (memory : list N) (msg : list bool) (zeros : nat) (rest : list bool),
    Forall (fun b => b < 256) memory ->
    Sha_Spec.bits_of_bytes memory = msg ++ repeat false zeros ++ rest ->
    (length msg + zeros = 8 * ((length msg + 7) / 8))%nat ->
    N.of_nat (length msg) < 2 ^ 64 ->
    digest_bits (traits_of v) memory (N.of_nat (length msg)) = Some (Sha_Spec.sha v msg).
Proof.
  intros v memory msg zeros rest HF E Hz HL. unfold digest_bits.
  destruct (Rep_update_bits (traits_of v) (Sha_Spec.word_size v) (size_ok v) (wbits_spec v) (init (traits_of v)) []
     memory (N.of_nat (length msg)) msg) as (o & -> & HR).
  - apply Rep_init; [apply size_ok|apply wbits_spec].
  - reflexivity.
  - split; [reflexivity|]. split; [exact HF|]. exists zeros, rest. auto.
  - apply finalize_is_sha; assumption.
Qed.
Print Assumptions C11_sha_bit_messages_partial.

Example C11_partial_nonvacuous :
  let msg := [true; false; true; true; false] in
  Sha_Spec.bits_of_bytes [0xB0; 0x12] = msg ++ repeat false 3 ++ Sha_Spec.bits_of_bytes [0x12] /\
  digest_bits sha256_traits [0xB0; 0x12] 5 = Some (Sha_Spec.sha Sha_Spec.SHA256 msg).
Proof. vm_compute. auto. Qed.

(** C11 (refuted in general). Two memories that agree on the one bit that is hashed, and whose
    digests differ: the remaining seven bits of the byte leak into the message block. *)
Theorem C11_sha_reads_beyond_the_bit_count_refuted :
  exists (memory1 memory2 : list N),
    firstn 1 (Sha_Spec.bits_of_bytes memory1) = firstn 1 (Sha_Spec.bits_of_bytes memory2) /\
    digest_bits sha256_traits memory1 1 = Some (Sha_Spec.sha Sha_Spec.SHA256 [true]) /\
    digest_bits sha256_traits memory2 1 <> digest_bits sha256_traits memory1 1.
Proof. exists [0x80], [0xff]. vm_compute. repeat split. discriminate. Qed.
Print Assumptions C11_sha_reads_beyond_the_bit_count_refuted.
