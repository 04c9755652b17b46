(** Properties C04-C07: adobe::copy_utf. *)
From Verif Require Import Prelude Unicode_Model Unicode_Spec Unicode_Proofs.
Local Open Scope N_scope.

(** The encoding of a text (sequence of scalar values) in each encoding form. *)
Definition text (w : width) (cs : list N) : list N :=
  concat (map (match w with W8 => utf8 | W16 => utf16 | W32 => utf32 end) cs).

Lemma text_enc w cs : text w cs = concat (map (enc w) cs).
Proof. destruct w; reflexivity. Qed.

(** C04/C05, general form: for every pair of encoding forms and every text, copy_utf turns
    the source form of the text into exactly its target form, within one loop iteration per
    code unit (so it terminates) and whatever uninitialised variables contain. *)
Theorem C05_copy_utf_converts_every_text :
  forall (src dst : width) (cs : list N) (junk : nat -> N) (fuel : nat),
    Forall scalar cs -> (length (text src cs) <= fuel)%nat ->
    copy_utf fuel src dst junk (text src cs) = Some ([], text dst cs).
Proof. intros. rewrite !text_enc in *. apply copy_utf_enc; assumption. Qed.
Print Assumptions C05_copy_utf_converts_every_text.

(** C04. UTF-32 -> UTF-8 -> UTF-32 is the identity on every sequence of scalar values. *)
Theorem C04_utf8_round_trip :
  forall (cs : list N) (junk : nat -> N), Forall scalar cs ->
    exists bytes, copy_utf (length cs) W32 W8 junk cs = Some ([], bytes) /\
      forall fuel, (length bytes <= fuel)%nat -> copy_utf fuel W8 W32 junk bytes = Some ([], cs).
Proof.
  intros cs junk Hs.
  assert (E : text W32 cs = cs).
  { unfold text, utf32. induction cs as [|c cs IH]; [reflexivity|]. simpl. f_equal.
    inversion Hs; auto. }
  exists (text W8 cs). split.
  - rewrite <- E at 2. apply C05_copy_utf_converts_every_text; [exact Hs|]. rewrite E. lia.
  - intros fuel Hf. rewrite C05_copy_utf_converts_every_text by assumption. now rewrite E.
Qed.
Print Assumptions C04_utf8_round_trip.

(** C05. UTF-32 -> UTF-16 -> UTF-32 likewise, with a pair produced exactly above U+FFFF. *)
Theorem C05_utf16_round_trip :
  forall (cs : list N) (junk : nat -> N), Forall scalar cs ->
    exists units, copy_utf (length cs) W32 W16 junk cs = Some ([], units) /\
      units = text W16 cs /\
      forall fuel, (length units <= fuel)%nat -> copy_utf fuel W16 W32 junk units = Some ([], cs).
Proof.
  intros cs junk Hs.
  assert (E : text W32 cs = cs).
  { unfold text, utf32. induction cs as [|c cs IH]; [reflexivity|]. simpl. f_equal.
    inversion Hs; auto. }
  exists (text W16 cs). split; [|split; [reflexivity|]].
  - rewrite <- E at 2. apply C05_copy_utf_converts_every_text; [exact Hs|]. rewrite E. lia.
  - intros fuel Hf. rewrite C05_copy_utf_converts_every_text by assumption. now rewrite E.
Qed.
Print Assumptions C05_utf16_round_trip.

Example C04_nonvacuous : Forall scalar [0x41; 0xE9; 0x20AC; 0xFFFF; 0x10000; 0x10FFFF] /\
  copy_utf 6 W32 W8 (fun _ => 7) [0x41; 0xE9; 0x20AC; 0x10FFFF]
    = Some ([], [0x41; 0xC3; 0xA9; 0xE2; 0x82; 0xAC; 0xF4; 0x8F; 0xBF; 0xBF]).
Proof. split; [|vm_compute; reflexivity]. repeat constructor; unfold scalar; lia. Qed.

(** C06 (part a). For every input, malformed or not, and any number of loop iterations, no
    read outside the given range happens. *)
Theorem C06_copy_utf_never_reads_out_of_range :
  forall (fuel : nat) (src dst : width) (junk : nat -> N) (input : list N),
    copy_utf fuel src dst junk input <> None.
Proof.
  intros. destruct (copy_utf_no_overread fuel src dst junk input) as (r & ->). discriminate.
Qed.
Print Assumptions C06_copy_utf_never_reads_out_of_range.

(** C06 (part b). Termination and the documented output bound, for all inputs (well-formed or
    not) except UTF-8 containing a byte >= 0xF8 and, for UTF-16 to UTF-8, input ending in a
    lead surrogate. For these the documented promise is false, see below. *)
Theorem C06_copy_utf_output_bound_partial :
  forall (src dst : width) (junk : nat -> N) (fuel : nat) (input : list N),
    Forall (fun u => u < match src with W8 => 0xF8 | W16 => 0x10000 | W32 => 2 ^ 32 end) input ->
    (src = W16 -> dst = W8 -> ~ (0xD800 <= last input 0 < 0xDC00)) ->
    (length input <= fuel)%nat ->
    exists out, copy_utf fuel src dst junk input = Some ([], out) /\
      (length out <= match src, dst with
                     | W16, W8 => 3 | W32, W8 => 4 | W32, W16 => 2 | _, _ => 1
                     end * length input)%nat.
Proof.
  intros src dst junk fuel input Hb Hl Hf.
  apply (copy_utf_bound src dst junk fuel input); [|exact Hf].
  split; [destruct src; exact Hb|]. intros -> ->. specialize (Hl eq_refl eq_refl).
  unfold lead. lia.
Qed.
Print Assumptions C06_copy_utf_output_bound_partial.

Example C06_nonvacuous : (* ill-formed UTF-8, still within the bound *)
  Forall (fun u => u < 0xF8) [0xE2; 0x41; 0xF0] /\
  copy_utf 3 W8 W16 (fun _ => 0) [0xE2; 0x41; 0xF0] = Some ([], [12400]).
Proof. split; [repeat constructor; lia|]. vm_compute. reflexivity. Qed.

(** C06 refuted (1). On the one-byte UTF-8 input F8 the loop never ends and writes without
    bound: after n iterations the input is unconsumed and at least n units were written. *)
Theorem C06_invalid_lead_byte_refuted :
  forall (dst : width) (junk : nat -> N) (n : nat), dst = W16 \/ dst = W32 ->
    exists out, copy_utf n W8 dst junk [0xF8] = Some ([0xF8], out) /\ (n <= length out)%nat.
Proof.
  intros dst junk n Hd.
  destruct (iterate_stuck n dst junk (junk n) [] Hd) as (out & E & Hl).
  exists out. split; [|exact Hl]. destruct Hd; subst dst; exact E.
Qed.
Print Assumptions C06_invalid_lead_byte_refuted.

(** C06 refuted (2). UTF-16 input consisting of a lone lead surrogate encodes an uninitialised
    variable, which can produce 4 bytes from 1 unit, above the promised factor 3. *)
Theorem C06_lone_lead_surrogate_refuted :
  exists junk out, copy_utf 1 W16 W8 junk [0xD800] = Some ([], out) /\ (length out > 3 * 1)%nat.
Proof. exists (fun _ => 0x10000). eexists. split; [vm_compute; reflexivity|]. simpl. lia. Qed.
Print Assumptions C06_lone_lead_surrogate_refuted.

(** C07. For every scalar value the bytes written are well-formed per table 3-7 and
    every well-formed byte sequence is the output for exactly one scalar value. *)
Theorem C07_utf8_output_well_formed :
  forall (c : N) (junk : nat -> N), scalar c ->
    exists bytes, copy_utf 1 W32 W8 junk [c] = Some ([], bytes) /\ well_formed_utf8 bytes = true.
Proof.
  intros c junk Hc. exists (utf8 c). split; [|exact (utf8_well_formed c Hc)].
  pose proof (C05_copy_utf_converts_every_text W32 W8 [c] junk 1) as H.
  unfold text, utf32 in H. simpl in H. rewrite app_nil_r in H. apply H; [|lia].
  constructor; [exact Hc|constructor].
Qed.
Print Assumptions C07_utf8_output_well_formed.

Theorem C07_utf8_decode_encode_well_formed :
  forall (bytes : list N) (junk : nat -> N), well_formed_utf8 bytes = true ->
    exists c, scalar c /\ copy_utf (length bytes) W8 W32 junk bytes = Some ([], [c]) /\
      copy_utf 1 W32 W8 junk [c] = Some ([], bytes).
Proof.
  intros bytes junk H. destruct (well_formed_utf8_inv bytes H) as (c & Hc & ->).
  assert (Hs : Forall scalar [c]) by (constructor; [exact Hc|constructor]).
  exists c. split; [exact Hc|].
  pose proof (C05_copy_utf_converts_every_text W32 W8 [c] junk 1 Hs) as H1.
  pose proof (C05_copy_utf_converts_every_text W8 W32 [c] junk (length (utf8 c)) Hs) as H2.
  unfold text, utf32 in *. simpl in H1, H2. rewrite app_nil_r in *. split; [apply H2|apply H1]; lia.
Qed.
Print Assumptions C07_utf8_decode_encode_well_formed.

Example C07_nonvacuous : scalar 0x1F600 /\ well_formed_utf8 [0xF0; 0x9F; 0x98; 0x80] = true.
Proof. split; [unfold scalar; lia|reflexivity]. Qed.
