(** Properties C96-C99: zuid_t. *)
From Coq Require Import String Ascii.
From Verif Require Import Prelude Zuid_Model Zuid_Spec Zuid_Text Zuid_Order Zuid_Name Zuid_Gen.
From Verif Require MD5_Spec.
Import ListNotations.
Local Open Scope N_scope.

(** A string literal as bytes. *)
Definition chars (s : string) : list N := map N_of_ascii (list_ascii_of_string s).

(* ---- C96 text ----------------------------------------------------------------------------- *)

(** str() is the 36 character text of the identifier, in lower case ... *)
Theorem C96_text : forall u, legal u ->
  uuid_text (str u) u /\ length (str u) = 36%nat /\ lower_case (str u) /\
  (forall t, uuid_text t u -> lower_case t -> t = str u).
Proof.
  intros u H. destruct (str_spec u H) as (A & B & C). split; [exact A|]. split; [exact B|]. split; [exact C|].
  intros t Ht Hl. eapply lower_text_unique; eauto.
Qed.
Print Assumptions C96_text.

(** ... and both constructors read the text of an identifier, digits in either case and whatever
    follows it, as that identifier; so an identifier survives the round trip through its text. *)
Theorem C96_round_trip : forall u, legal u ->
  (forall t rest, uuid_text t u -> zuid_of_text (t ++ rest) = Some u /\ zuid_of_string (t ++ rest) = Some u) /\
  zuid_of_text (str u) = Some u /\ zuid_of_string (str u) = Some u.
Proof.
  intros u H. split.
  - intros t rest Ht. split; [now apply zuid_of_text_reads|now apply zuid_of_string_reads].
  - destruct (str_spec u H) as (A & _ & _).
    rewrite <- (app_nil_r (str u)). split; [now apply zuid_of_text_reads|now apply zuid_of_string_reads].
Qed.
Print Assumptions C96_round_trip.

(** Identifiers with the same text are the same. *)
Corollary C96_text_identifies : forall u v, legal u -> legal v -> str u = str v -> u = v.
Proof.
  intros u v Hu Hv E. destruct (C96_round_trip u Hu) as (_ & A & _), (C96_round_trip v Hv) as (_ & B & _).
  rewrite E in A. congruence.
Qed.
Print Assumptions C96_text_identifies.

(** Whenever the constructor's result is determined at all it is an identifier. *)
Theorem C96_result_is_legal : forall t u, zuid_of_text t = Some u -> legal u.
Proof. exact zuid_of_text_legal. Qed.
Print Assumptions C96_result_is_legal.

(** The full claim "any string may be given" fails: a text with fewer than eleven hexadecimal
    digits makes the constructor read variables that were never written. *)
Theorem C96_short_texts_refuted :
  (forall t, (length (filter (fun c => match xvalue c with Some _ => true | None => false end) t) < 11)%nat ->
     zuid_of_text t = None) /\
  zuid_of_text [] = None /\ zuid_of_string (chars "not-a-zuid") = None.
Proof.
  split; [|split; vm_compute; reflexivity]. intros t H. now apply few_digits_undefined.
Qed.
Print Assumptions C96_short_texts_refuted.

Definition dns : uuid := Uuid 0x6ba7b810 0x9dad 0x11d1 [0x80; 0xb4; 0x00; 0xc0; 0x4f; 0xd4; 0x30; 0xc8].
Example dns_legal : legal dns.
Proof. unfold legal, dns; cbn. repeat split; try reflexivity. repeat constructor. Qed.
Example C96_example :
  str dns = chars "6ba7b810-9dad-11d1-80b4-00c04fd430c8" /\
  zuid_of_text (chars "6BA7B810-9dAD-11d1-80b4-00C04FD430C8 and more") = Some dns /\
  (* texts that are not UUIDs may be accepted too *)
  zuid_of_text (chars " 1-0x2-+3-4 5-6 7 8 9 a b") = Some (Uuid 1 2 3 [4; 5; 6; 7; 8; 9; 10; 11]).
Proof. split; [|split]; vm_compute; reflexivity. Qed.

(* ---- C97 order ---------------------------------------------------------------------------- *)

(** a == b exactly when they are the same identifier; a < b exactly when the text of [a] comes
    before that of [b] in lexicographic order; that is a strict total order. *)
Theorem C97_order_is_the_order_of_the_texts : forall a b, legal a -> legal b ->
  (zuid_eq a b = true <-> a = b) /\ (zuid_lt a b = true <-> lex_lt (str a) (str b)).
Proof.
  intros a b Ha Hb. destruct (order_text a b Ha Hb) as [A B]. unfold zuid_eq, zuid_lt.
  split; rewrite Z.eqb_eq; assumption.
Qed.
Print Assumptions C97_order_is_the_order_of_the_texts.

Theorem C97_strict_total_order : forall a b c, legal a -> legal b -> legal c ->
  zuid_lt a a = false /\
  (zuid_lt a b = true -> zuid_lt b c = true -> zuid_lt a c = true) /\
  (zuid_lt a b = true \/ zuid_eq a b = true \/ zuid_lt b a = true) /\
  ~ (zuid_lt a b = true /\ zuid_lt b a = true) /\ ~ (zuid_lt a b = true /\ zuid_eq a b = true).
Proof.
  intros a b c Ha Hb Hc.
  pose proof (C97_order_is_the_order_of_the_texts a b Ha Hb) as [E1 L1].
  pose proof (C97_order_is_the_order_of_the_texts b a Hb Ha) as [E2 L2].
  pose proof (C97_order_is_the_order_of_the_texts b c Hb Hc) as [E3 L3].
  pose proof (C97_order_is_the_order_of_the_texts a c Ha Hc) as [E4 L4].
  pose proof (C97_order_is_the_order_of_the_texts a a Ha Ha) as [E5 L5].
  split; [|split; [|split; [|split]]].
  - destruct (zuid_lt a a) eqn:E; [|reflexivity]. exfalso. apply (lex_lt_irrefl (str a)). now apply L5.
  - rewrite L1, L3, L4. apply lex_lt_trans.
  - rewrite L1, E1, L2. destruct (C96_text a Ha) as (_ & La & _), (C96_text b Hb) as (_ & Lb & _).
    destruct (lex_lt_total (str a) (str b)) as [H|[H|H]]; [congruence|auto| |auto].
    right; left. now apply C96_text_identifies.
  - rewrite L1, L2. intros [H1 H2]. apply (lex_lt_irrefl (str a)). eapply lex_lt_trans; eauto.
  - rewrite L1, E1. intros [H1 ->]. now apply lex_lt_irrefl in H1.
Qed.
Print Assumptions C97_strict_total_order.

Example C97_example :
  let a := Uuid 0x10 0 0 (repeat 0 8) in let b := Uuid 0xa 0xffff 0xffff (repeat 255 8) in
  zuid_lt b a = true /\ zuid_lt a b = false /\ zuid_lt a dns = true /\ zuid_eq dns dns = true.
Proof. vm_compute. auto. Qed.

(* ---- C98 name based ------------------------------------------------------------------------ *)

(** zuid_t(ns, name), for names of fewer than 65536 bytes, is the RFC 4122 version 3 identifier of
    [name] in [ns], on a little endian machine that is not a Mac and on a big endian Mac alike. *)
Theorem C98_name_based_partial : forall (big_endian_mac : bool) (junk : list N) ns name,
  legal ns -> length junk = 64%nat -> Forall (fun b => b < 256) name -> N.of_nat (length name) < 2 ^ 16 ->
  exists u, zuid_of_name big_endian_mac big_endian_mac junk ns name = Some u /\ legal u /\
            octets u = name_uuid_octets ns name.
Proof.
  intros be junk ns name Hn Hj Hb Hl. unfold zuid_of_name. rewrite N.mod_small by exact Hl. rewrite Nat2N.id.
  destruct (create_from_name be junk ns name (length name) Hn Hj Hb) as (u & A & B & C).
  exists u. split; [exact A|]. split; [exact B|]. rewrite C, firstn_all. reflexivity.
Qed.
Print Assumptions C98_name_based_partial.

(** What such an identifier looks like: version 3, variant 10. *)
Corollary C98_version_and_variant : forall (be : bool) junk ns name u,
  legal ns -> length junk = 64%nat -> Forall (fun b => b < 256) name ->
  zuid_of_name be be junk ns name = Some u -> d3 u / 4096 = 3 /\ nth 0 (d4 u) 0 / 64 = 2.
Proof.
  intros be junk ns name u Hn Hj Hb E. unfold zuid_of_name in E.
  match type of E with uuid_create_from_name _ _ _ _ _ ?len = _ =>
    destruct (create_from_name be junk ns name len Hn Hj Hb) as (v & A & L & C) end.
  rewrite E in A. injection A as <-. unfold name_uuid_octets in C.
  destruct (md5_shape (octets ns ++ firstn (N.to_nat (N.of_nat (length name) mod 2 ^ 16)) name)) as [S1 S2].
  revert C S1 S2. generalize (MD5_Spec.md5 (octets ns ++ firstn (N.to_nat (N.of_nat (length name) mod 2 ^ 16)) name)).
  intros h C S1 S2.
  assert (C6 := f_equal (fun l => nth 6 l 0) C). assert (C8 := f_equal (fun l => nth 8 l 0) C). clear C E.
  unfold version_and_variant, octets in C6, C8. cbn [app nth] in C6, C8.
  do 16 (destruct h as [|? h]; [discriminate|]). cbn [upd nth] in C6, C8.
  destruct L as (_ & _ & L3 & L4 & _). change (2 ^ 16) with 65536 in *.
  destruct (d4 u) as [|b0 rest]; [discriminate|]. cbn [nth app] in *. clear - C6 C8 L3.
  split; [|lia]. change 4096 with (256 * 16). rewrite <- N.div_div, C6 by discriminate. clear. lia.
Qed.
Print Assumptions C98_version_and_variant.

(** The length of the name is cut to sixteen bits: names of 65536 bytes and more share the
    identifiers of their beginnings. *)
Theorem C98_long_names_refuted :
  (forall mac be junk ns name more, N.of_nat (length name) < 2 ^ 16 -> N.of_nat (length more) = 2 ^ 16 ->
     zuid_of_name mac be junk ns (name ++ more) = zuid_of_name mac be junk ns name) /\
  exists a b : list N, a <> b /\ forall mac be junk ns, zuid_of_name mac be junk ns a = zuid_of_name mac be junk ns b.
Proof.
  assert (G : forall mac be junk ns name more, N.of_nat (length name) < 2 ^ 16 -> N.of_nat (length more) = 2 ^ 16 ->
     zuid_of_name mac be junk ns (name ++ more) = zuid_of_name mac be junk ns name).
  { intros mac be junk ns name more H1 H2. unfold zuid_of_name.
    replace (N.of_nat (length (name ++ more)) mod 2 ^ 16) with (N.of_nat (length name)).
    2:{ rewrite app_length. replace (N.of_nat (length name + length more)) with (N.of_nat (length name) + 1 * 2 ^ 16) by lia.
        rewrite N.mod_add by discriminate. now rewrite N.mod_small. }
    rewrite (N.mod_small (N.of_nat (length name))) by exact H1. rewrite Nat2N.id. unfold uuid_create_from_name.
    rewrite firstn_app, Nat.sub_diag, firstn_all, firstn_O, app_nil_r. reflexivity. }
  split; [exact G|].
  exists ([] ++ repeat 0 (N.to_nat (2 ^ 16))), []. split.
  - intros E. apply (f_equal (@length N)) in E. cbn [app] in E. rewrite repeat_length in E. cbn [length] in E.
    change (2 ^ 16) with 65536 in E. lia.
  - intros mac be junk ns. apply G; [reflexivity|]. rewrite repeat_length. apply N2Nat.id.
Qed.
Print Assumptions C98_long_names_refuted.

(** On a little endian Mac (all since 2006) the fields are not put in network order. *)
Theorem C98_little_endian_mac_refuted :
  exists ns name, legal ns /\ forall u, zuid_of_name true false (repeat 0 64) ns name = Some u ->
    octets u <> name_uuid_octets ns name.
Proof.
  exists dns, (chars "www.example.com"). split; [exact dns_legal|]. intros u E.
  assert (E' : zuid_of_name true false (repeat 0 64) dns (chars "www.example.com") =
    Some (Uuid (d1 u) (d2 u) (d3 u) (d4 u))) by (rewrite E; now destruct u).
  intros C. apply (f_equal (fun l => nth 15 l 0)) in C.
  assert (L : nth 7 (d4 u) 0 <> 0x9e).
  { apply (f_equal (fun o => match o with Some v => nth 7 (d4 v) 0 | None => 0 end)) in E'. cbn [d4] in E'.
    rewrite <- E'. vm_compute. discriminate. }
  unfold octets in C. change (nth 15 _ 0) with (nth 7 (d4 u) 0) in C at 1. rewrite C in L. apply L. vm_compute. reflexivity.
Qed.
Print Assumptions C98_little_endian_mac_refuted.

Example C98_example : exists u,
  zuid_of_name false false (repeat 0xCC 64) dns (chars "www.example.com") = Some u /\
  str u = chars "5df41881-3aed-3515-88a7-2f4a814cf09e".
Proof. eexists. split; vm_compute; reflexivity. Qed.

(* ---- C99 generated ------------------------------------------------------------------------- *)

(** In a program whose zuids are all made by one thread, any two made less than 2^30 - 2^16 calls
    apart are different, whatever the clock does (backwards, stuck, jumping) and whatever the
    random node address and clock sequence. *)
Theorem C99_one_thread_partial : forall t calls i j u v,
  Forall (fun c => fst c = t /\ now (snd c) < 2 ^ 60 - 2 ^ 16) calls ->
  (i < j)%nat -> N.of_nat j < N.of_nat i + (2 ^ 30 - 2 ^ 16) ->
  nth_error (zuids calls) i = Some u -> nth_error (zuids calls) j = Some v -> u <> v.
Proof. exact one_thread_distinct. Qed.
Print Assumptions C99_one_thread_partial.

(** With any number of threads, fewer than 2^16 calls never give the same zuid twice, even if all
    the threads happened to choose the same node address. *)
Theorem C99_threads_partial : forall calls,
  Forall (fun c => now (snd c) < 2 ^ 60 - 2 ^ 16) calls -> N.of_nat (length calls) < 2 ^ 16 -> NoDup (zuids calls).
Proof. exact few_distinct. Qed.
Print Assumptions C99_threads_partial.

(** Threads that chose different node addresses never make the same zuid. *)
Theorem C99_different_nodes : forall calls i j t1 w1 t2 w2 u v,
  Forall (fun c => length (random_node (snd c)) = 6%nat) calls ->
  (forall ta wa tb wb, In (ta, wa) calls -> In (tb, wb) calls -> ta <> tb -> random_node wa <> random_node wb) ->
  nth_error calls i = Some (t1, w1) -> nth_error calls j = Some (t2, w2) -> t1 <> t2 ->
  nth_error (zuids calls) i = Some u -> nth_error (zuids calls) j = Some v -> u <> v.
Proof.
  intros calls i j t1 w1 t2 w2 u v HL HD Hi Hj Ht Hu Hv E. unfold zuids in *.
  destruct (nodes_run calls calls program_start (fun _ => fresh) i u t1 w1) as (c1 & s1 & x1 & I1 & E1); auto.
  { apply incl_refl. } { intros t nd H; discriminate. }
  destruct (nodes_run calls calls program_start (fun _ => fresh) j v t2 w2) as (c2 & s2 & x2 & I2 & E2); auto.
  { apply incl_refl. } { intros t nd H; discriminate. }
  rewrite E1, E2 in E. apply v1_node in E. rewrite Forall_forall in HL.
  pose proof (HL _ I1) as L1. pose proof (HL _ I2) as L2. cbn [snd] in L1, L2.
  rewrite !firstn_all2 in E by lia. exact (HD _ _ _ _ I1 I2 Ht E).
Qed.
Print Assumptions C99_different_nodes.

(** "Unique" without a bound fails in two ways.  With the clock stuck, a thread repeats itself after
    2^30 calls; ... *)
Theorem C99_unbounded_refuted : exists calls i j,
  Forall (fun c => fst c = 0%nat /\ now (snd c) < 2 ^ 60 - 2 ^ 16) calls /\ (i < j)%nat /\
  nth_error (zuids calls) i = nth_error (zuids calls) j /\ nth_error (zuids calls) i <> None.
Proof.
  set (w := World 1000 [1; 2; 3; 4; 5; 6] 7).
  assert (Hw : clock_ok w) by reflexivity.
  destruct (stalled_repeats w Hw 0) as [A B].
  eexists _, 1%nat, _. split; [|split; [|split; [symmetry; exact A|exact B]]].
  - apply Forall_forall. intros c Hc. apply repeat_spec in Hc. subst c. split; [reflexivity|exact Hw].
  - change (2 ^ 30) with 1073741824. lia.
Qed.
Print Assumptions C99_unbounded_refuted.

(** ... and with two threads, one that comes back after the other has made exactly 65535 within the
    same clock reading repeats its last one: uuid_create advances the clock sequence only when the
    time stamp is smaller than the thread's last one, not when it is equal. *)
Theorem C99_two_threads_refuted :
  let a := World 1000 [1; 2; 3; 4; 5; 6] 7 in let b := World 1000 [6; 5; 4; 3; 2; 1] 8 in
  let calls := (0%nat, a) :: repeat (1%nat, b) (N.to_nat 65535) ++ [(0%nat, a)] in
  nth_error (zuids calls) 0 = nth_error (zuids calls) (N.to_nat 65536) /\ nth_error (zuids calls) 0 <> None.
Proof. cbv zeta. split; [vm_compute; reflexivity|vm_compute; discriminate]. Qed.
Print Assumptions C99_two_threads_refuted.

Example C99_example :
  let a := World 1000 [1; 2; 3; 4; 5; 6] 7 in let b := World 900 [6; 5; 4; 3; 2; 1] 8 in
  map str (zuids [(0%nat, a); (1%nat, b); (0%nat, b)]) =
  [chars "000003e9-0000-1000-8007-010203040506"; chars "000003ea-0000-1000-8008-060504030201";
   chars "000003eb-0000-1000-8007-010203040506"].
Proof. vm_compute. reflexivity. Qed.
