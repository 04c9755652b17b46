(** Theorems about json.hpp (C25, C26, C27, C51). *)
From Verif Require Import Prelude Unicode_Spec Json_Model Json_Spec Json_Safe Json_Utf8 Json_Complete
  Json_Complete2 Json_Sound Json_Gen.
Local Open Scope N_scope.

(** * C25: generate then parse *)

(** [generate] accepts exactly the objects and arrays; its text has no NUL, so it can be handed to
    the parser, and parsing gives the value back, each number [x] as what strtod makes of its
    printed form [print x]. *)
Theorem C25_generate_parse {num} (print : num -> list N) (strtod : list N -> option num) (rt : num -> num) v :
  container v ->
  proper (fun x => json_number (print x) /\ strtod (print x) = Some (rt x)) v ->
  exists text, json_generate print v = Ok text /\ nul_free text /\
    json_parse strtod text = Ok (reread rt v).
Proof.
  intros HC HP. exists (generate_ print v 0).
  pose proof (generate_jvalue strtod print rt v HP 0) as J.
  split; [destruct v; easy|]. split; [exact (proj1 (nz_all strtod Common) _ _ J)|].
  rewrite <- (app_nil_r (generate_ print v 0)).
  apply (parse_complete strtod Common (or_introl eq_refl) [] _ _ []); auto; [constructor|].
  destruct v; easy.
Qed.

Lemma reread_id {num} (v : value num) : reread (fun x => x) v = v.
Proof.
  induction v as [|b|x|s|l IH|l IH] using value_ind2; cbn [reread]; auto; f_equal.
  - induction IH as [|v l H1 H2 IH2]; cbn; congruence.
  - induction IH as [|[k v] l H1 H2 IH2]; cbn in *; congruence.
Qed.
(** and nothing but an object or an array is written: any other value is refused *)
Theorem C25_only_objects_and_arrays {num} (print : num -> list N) v :
  (container v /\ exists t, json_generate print v = Ok t) \/ (~ container v /\ json_generate print v = Throw).
Proof. destruct v; cbn [json_generate]; (left; split; [exact I|eauto]) || (right; split; [intros []|reflexivity]). Qed.
(** when the numbers survive being printed with 15 digits, nothing is lost *)
Theorem C25_round_trip_partial {num} (print : num -> list N) (strtod : list N -> option num) v :
  container v ->
  proper (fun x => json_number (print x) /\ strtod (print x) = Some x) v ->
  exists text, json_generate print v = Ok text /\ nul_free text /\ json_parse strtod text = Ok v.
Proof.
  intros HC HP. destruct (C25_generate_parse print strtod (fun x => x) v HC HP) as [t H].
  exists t. now rewrite reread_id in H.
Qed.

(** integers of up to 15 digits do survive, provided strtod reads decimal integers *)
Lemma dec_loop_ok : forall fuel x acc, (N.to_nat (N.log2 x) < fuel)%nat -> Forall is_dig acc ->
  (x = 0 /\ dec_loop fuel x acc = 0x30 :: acc) \/
  (exists d ds, dec_loop fuel x acc = d :: ds /\ 0x31 <= d <= 0x39 /\ Forall is_dig ds).
Proof.
  induction fuel as [|fuel IH]; intros x acc HF HA; [lia|]. cbn [dec_loop].
  destruct (N.ltb_spec x 10) as [L|L].
  - destruct (N.eq_dec x 0) as [->|H0]; [now left|]. right. exists (0x30 + x), acc.
    split; [reflexivity|]. split; [lia|exact HA].
  - right. assert (HL : (N.to_nat (N.log2 (x / 10)) < fuel)%nat).
    { assert (2 * (x / 10) <= x) by lia. assert (0 < x / 10) by lia.
      pose proof (N.log2_double (x / 10) H0). pose proof (N.log2_le_mono _ _ H). lia. }
    destruct (IH (x / 10) ((0x30 + x mod 10) :: acc) HL) as [[E _]|H].
    + constructor; auto. unfold is_dig. lia.
    + exfalso. lia.
    + exact H.
Qed.
Lemma dec_int x : int_part (dec x).
Proof.
  unfold dec. destruct (dec_loop_ok (S (N.to_nat (N.log2 x))) x [] ltac:(lia) (Forall_nil _)) as [[-> E]|[d [ds [E H]]]].
  - left. reflexivity.
  - right. exists d, ds. rewrite E. auto.
Qed.
Lemma fmt15_number z : (Z.abs z < 10 ^ 15)%Z -> json_number (fmt15 z).
Proof.
  intros H. unfold fmt15. exists (if (z <? 0)%Z then [0x2D] else []), (dec (Z.to_N (Z.abs z))), [], [].
  split.
  - destruct (N.ltb_spec (Z.to_N (Z.abs z)) (10 ^ 15)); [now rewrite !app_nil_r|]. exfalso.
    apply N2Z.inj_le in H0. rewrite Z2N.id in H0 by lia. change (Z.of_N (10 ^ 15)) with (10 ^ 15)%Z in H0. lia.
  - split; [destruct (z <? 0)%Z; auto|]. split; [apply dec_int|]. split; now left.
Qed.
Theorem C25_integers_partial {num} (of_Z : Z -> num) (print : num -> list N) (strtod : list N -> option num) v :
  (forall z, (Z.abs z < 10 ^ 15)%Z -> print (of_Z z) = fmt15 z /\ strtod (fmt15 z) = Some (of_Z z)) ->
  container v -> proper (fun x => exists z, (Z.abs z < 10 ^ 15)%Z /\ x = of_Z z) v ->
  exists text, json_generate print v = Ok text /\ nul_free text /\ json_parse strtod text = Ok v.
Proof.
  intros HR HC HP. apply C25_round_trip_partial; auto.
  assert (M : forall (a b : num -> Prop), (forall x, a x -> b x) -> forall v, proper a v -> proper b v).
  { intros a b Hab w. induction w as [|c|x|s|l IH|l IH] using value_ind2; cbn [proper]; auto.
    - intros H. apply fold_and_Forall. apply fold_and_Forall in H. rewrite Forall_forall in *. auto.
    - intros [H1 [H2 H3]]. split; auto. split; auto.
      apply fold_and_Forall. apply fold_and_Forall in H3. rewrite Forall_forall in *. auto. }
  revert HP. apply M. intros x [z [Hz ->]]. destruct (HR z Hz) as [E1 E2].
  rewrite E1. split; [now apply fmt15_number|exact E2].
Qed.
(** Sixteen-digit integers (exact in a double up to 2^53) do not survive: two neighbours give the
    same text, so whatever strtod does they cannot both come back. *)
Theorem C25_digits_refuted {num} (of_Z : Z -> num) (print : num -> list N) q :
  (10 ^ 14 <= q < 10 ^ 15)%Z ->
  (forall z, (10 ^ 15 <= z < 10 ^ 16)%Z -> print (of_Z z) = fmt15 z) ->
  of_Z (10 * q)%Z <> of_Z (10 * q + 1)%Z ->
  exists text,
    json_generate print (VArr [VNum (of_Z (10 * q)%Z)]) = Ok text /\
    json_generate print (VArr [VNum (of_Z (10 * q + 1)%Z)]) = Ok text /\
    forall strtod, ~ (json_parse strtod text = Ok (VArr [VNum (of_Z (10 * q)%Z)]) /\
                      json_parse strtod text = Ok (VArr [VNum (of_Z (10 * q + 1)%Z)])).
Proof.
  intros Hq HP HN.
  assert (EQ : print (of_Z (10 * q)%Z) = print (of_Z (10 * q + 1)%Z)).
  { rewrite !HP by lia. unfold fmt15.
    destruct (Z.ltb_spec (10 * q) 0); [lia|]. destruct (Z.ltb_spec (10 * q + 1) 0); [lia|].
    rewrite !Z.abs_eq by lia.
    assert (E1 : Z.to_N (10 * q) = 10 * Z.to_N q) by lia.
    assert (E2 : Z.to_N (10 * q + 1) = 10 * Z.to_N q + 1) by lia. rewrite E1, E2.
    assert (10 ^ 14 <= Z.to_N q) by (change (10 ^ 14) with (Z.to_N (10 ^ 14)); lia).
    change (10 ^ 15) with (10 * 10 ^ 14).
    destruct (N.ltb_spec (10 * Z.to_N q) (10 * 10 ^ 14)); [lia|].
    destruct (N.ltb_spec (10 * Z.to_N q + 1) (10 * 10 ^ 14)); [lia|].
    f_equal. unfold sci15. assert (R : round10 (10 * Z.to_N q) = round10 (10 * Z.to_N q + 1)).
    { unfold round10. replace (10 * Z.to_N q / 10) with (Z.to_N q) by lia.
      replace (10 * Z.to_N q mod 10) with 0 by lia.
      replace ((10 * Z.to_N q + 1) / 10) with (Z.to_N q) by lia.
      replace ((10 * Z.to_N q + 1) mod 10) with 1 by lia. reflexivity. }
    now rewrite R. }
  eexists. split; [reflexivity|]. split; [cbn [json_generate generate_ map]; now rewrite EQ|].
  intros strtod [H1 H2]. apply HN. congruence.
Qed.

(** a reader of plain decimal integers, for the examples *)
Definition demo_strtod (t : list N) : option N :=
  Some (fold_left (fun a c => a * 10 + (c - 0x30)) t 0).
Definition C25_sample : value N :=
  VObj [([0x61], VArr [VNum 7; VNum 120; VNull; VBool false]); ([0x62; 0x22], VStr [0; 10; 0xC3; 0xA9; 0x5C]);
        ([], VObj [])].
Example C25_ex_proper : container C25_sample /\
  proper (fun x => json_number (dec x) /\ demo_strtod (dec x) = Some x) C25_sample.
Proof.
  split; [exact I|]. cbn [proper C25_sample map fold_right fst snd].
  assert (H : forall x, json_number (dec x)).
  { intros x. exists [], (dec x), [], []. rewrite !app_nil_r. split; auto. split; auto.
    split; [apply dec_int|]. split; now left. }
  repeat first [split | apply H | reflexivity | exact I | apply NoDup_nil | apply NoDup_cons; [cbn; intuition discriminate|]
    | apply Forall_nil | apply Forall_cons; [cbn; repeat constructor; discriminate|]].
Qed.
Example C25_ex_run : match json_generate dec C25_sample with
  | Ok t => json_parse demo_strtod t = Ok C25_sample | _ => False end.
Proof. vm_compute. reflexivity. Qed.
Example C25_ex_digits : fmt15 9007199254740991 = fmt15 9007199254740990 /\ fmt15 (-1200) = [0x2D; 0x31; 0x32; 0x30; 0x30] /\
  (* 9.00719925474099e+15 *)
  fmt15 9007199254740991 = [0x39; 0x2E; 0x30; 0x30; 0x37; 0x31; 0x39; 0x39; 0x32; 0x35; 0x34; 0x37; 0x34; 0x30; 0x39; 0x39; 0x65; 0x2B; 0x31; 0x35].
Proof. vm_compute. repeat split; reflexivity. Qed.

(** * C26: the parser stays inside its input *)

(** On every NUL-free text (the input up to its terminator) the parser ends with a value or an
    exception, unless the text ends with the last letter of true, false or null. *)
Theorem C26_in_bounds_partial {num} (strtod : list N -> option num) text :
  nul_free text ->
  (forall pre lit, In lit [lit_true; lit_false; lit_null] -> text <> pre ++ lit) ->
  (exists v, json_parse strtod text = Ok v) \/ json_parse strtod text = Throw.
Proof.
  intros HZ HL. pose proof (parse_post strtod text HZ) as H.
  destruct (json_parse strtod text) as [v| | |]; eauto; [|easy].
  destruct H as [t [H1 [pre H2]]]. elim (HL pre t H1 H2).
Qed.
(** in all cases the parser terminates (the model's recursion bound is never reached) *)
Theorem C26_terminates {num} (strtod : list N -> option num) text :
  nul_free text -> json_parse strtod text <> Fuel.
Proof.
  intros HZ E. pose proof (parse_post strtod text HZ) as H. now rewrite E in H.
Qed.

(** The parser reads behind the terminator when the text is cut right after such a literal, at any
    depth. *)
Lemma seq_end : forall lit, nz lit -> sequence_loop lit (At lit) = UB.
Proof.
  induction lit as [|x lit IH]; intros H; cbn [sequence_loop]; [reflexivity|].
  rewrite is_char_hit. cbn [bind]. apply IH. exact (Forall_inv_tail H).
Qed.
Lemma value_lit_end {num} (strtod : list N -> option num) fuel lit : In lit [lit_true; lit_false; lit_null] ->
  is_value strtod (S fuel) (At lit) = UB.
Proof.
  intros [<-|[<-|[<-|[]]]]; reflexivity.
Qed.
Lemma array_nested_ub {num} (val : cursor -> res (option (value num) * cursor)) l : starts l ->
  val (At l) = UB -> is_array val (At (0x5B :: l)) = UB.
Proof.
  intros HS HV. unfold is_array. rewrite (structural_hit 0x5B _ l) by (apply skip_nws; reflexivity).
  cbn [bind negb]. rewrite starts_skip by exact HS. now rewrite HV.
Qed.
Lemma starts_nest n lit : In lit [lit_true; lit_false; lit_null] -> starts (repeat 0x5B n ++ lit).
Proof. intros H. destruct n; cbn; auto. destruct H as [<-|[<-|[<-|[]]]]; reflexivity. Qed.
Lemma value_nest {num} (strtod : list N -> option num) lit : In lit [lit_true; lit_false; lit_null] ->
  forall n fuel, (n < fuel)%nat -> is_value strtod fuel (At (repeat 0x5B n ++ lit)) = UB.
Proof.
  intros H. induction n as [|n IH]; intros fuel HF; (destruct fuel as [|fuel]; [lia|]).
  - now apply value_lit_end.
  - cbn [repeat app]. rewrite value_array. rewrite array_nested_ub; [reflexivity|now apply starts_nest|].
    apply IH. lia.
Qed.
Theorem C26_in_bounds_refuted {num} (strtod : list N -> option num) lit n :
  In lit [lit_true; lit_false; lit_null] ->
  json_parse strtod (repeat 0x5B (S n) ++ lit) = UB.
Proof.
  intros H. unfold json_parse. set (L := length _).
  assert (E : or_else (is_object (is_value strtod (S L))) (is_array (is_value strtod (S L))) (At (repeat 0x5B (S n) ++ lit)) = UB).
  { unfold or_else. cbn [repeat app]. rewrite object_miss by (reflexivity || discriminate). cbn [bind].
    apply array_nested_ub; [now apply starts_nest|]. apply value_nest; auto.
    unfold L. rewrite app_length, repeat_length. lia. }
  unfold required. now rewrite E.
Qed.
Example C26_ex : json_parse demo_strtod [0x5B; 0x31; 0x2C; 0x74; 0x72; 0x75] = Throw /\
  (forall pre lit, In lit [lit_true; lit_false; lit_null] -> [0x5B; 0x31; 0x2C; 0x74; 0x72; 0x75] <> pre ++ lit) /\
  json_parse demo_strtod [0x5B; 0x74; 0x72; 0x75; 0x65] = UB.
Proof.
  split; [reflexivity|]. split; [|reflexivity]. intros pre lit H E.
  apply (f_equal (@rev N)) in E. rewrite rev_app_distr in E.
  destruct H as [<-|[<-|[<-|[]]]]; discriminate.
Qed.

(** * C27: escapes *)

(** the dialect without surrogates is part of RFC 7159 *)
Lemma common_rfc raw s : chars Common raw s -> chars RFC raw s.
Proof.
  intros H. induction H; try discriminate.
  - constructor.
  - now apply ch_plain.
  - now apply ch_simple.
  - now apply ch_unicode.
Qed.
(** A string whose escapes are no surrogates is accepted and decoded as RFC 7159 says, as UTF-8. *)
Theorem C27_escapes_partial {num} (strtod : list N -> option num) raw s :
  chars Common raw s ->
  chars RFC raw s /\
  json_parse strtod ([0x5B; 0x22] ++ raw ++ [0x22; 0x5D]) = Ok (VArr [VStr s]).
Proof.
  intros H. split; [now apply common_rfc|].
  replace ([0x5B; 0x22] ++ raw ++ [0x22; 0x5D]) with ([] ++ ([0x5B] ++ [] ++ (([0x22] ++ raw ++ [0x22]) ++ []) ++ [0x5D]) ++ [])
    by (rewrite ?app_nil_r; repeat (rewrite <- app_assoc; cbn [app]); reflexivity).
  apply (parse_complete strtod Common (or_introl eq_refl)); [constructor| |exact I].
  apply j_arr; [constructor|]. apply je_one; [|constructor]. constructor. exists raw. auto.
Qed.

(** Every surrogate pair written as RFC 7159 requires makes the parser throw, wherever it stands in a
    string. *)
Definition throws (l : list N) : Prop :=
  forall fuel acc, (length l < fuel)%nat -> string_loop fuel acc (At l) = Throw.
Lemma throws_plain c l : 0x20 <= c -> c <> 0x22 -> c <> 0x5C -> throws l -> throws (c :: l).
Proof.
  intros H1 H2 H3 T fuel acc HF. destruct fuel as [|fuel]; [lia|]. cbn [length] in HF.
  specialize (T (S fuel) (acc ++ [c]) ltac:(lia)). cbn [string_loop] in T |- *.
  rewrite is_char_miss by exact H2. cbn [bind plain_run]. unfold control at 1.
  destruct (N.ltb_spec c 0x20); [lia|]. destruct (N.eqb_spec c 0x22); [lia|].
  destruct (N.eqb_spec c 0x5C); [lia|]. cbn [negb andb].
  destruct (is_char_cases 0x22 l ltac:(lia)) as [[r [_ E]]|[E _]]; rewrite E in T; cbn [bind] in T; [discriminate|].
  destruct (plain_run l) as [run r]. rewrite <- app_assoc in T. exact T.
Qed.
Lemma throws_simple e c l : simple_escape e c -> throws l -> throws (0x5C :: e :: l).
Proof.
  intros HE T fuel acc HF. destruct fuel as [|fuel]; [lia|]. cbn [length] in HF. cbn [string_loop].
  rewrite is_char_miss by discriminate. cbn [bind].
  change (plain_run (0x5C :: e :: l)) with (@nil N, 0x5C :: e :: l). cbn [rd bind].
  change (control 0x5C) with false. cbn [negb require bind]. rewrite is_char_hit. cbn [bind negb rd adv].
  destruct (simple_escape_ok _ _ HE) as [E3 [E4 [E5 E6]]]. rewrite E3.
  destruct (N.eqb_spec c 0); [lia|]. cbn [negb require bind].
  destruct (N.eqb_spec c 0x75); [lia|]. apply T. lia.
Qed.
Lemma loop_u fuel acc l : string_loop (S fuel) acc (At (0x5C :: 0x75 :: l)) =
  ('(utf, p) <- get_four_digits (At l) ;;
   '(utf, p) <-
     (if (0xD800 <=? utf) && (utf <=? 0xDBFF) then
        '(b, p) <- is_char 0x75 p ;;
        _ <- require b ;;
        '(trailing, p) <- get_four_digits p ;;
        _ <- require ((0xDC00 <=? trailing) && (trailing <=? 0xDFFF)) ;;
        Ok (N.shiftl (utf - 0xD800) 10 + (trailing - 0xDC00), p)
      else Ok (utf, p)) ;;
   buffer <- json_utf8 utf ;;
   string_loop fuel ((acc ++ []) ++ buffer) p).
Proof. reflexivity. Qed.
Lemma throws_unicode h u l : hex4 h u -> ~ lead_surrogate u -> throws l -> throws (0x5C :: 0x75 :: h ++ l).
Proof.
  intros HH HL T fuel acc HF. destruct fuel as [|fuel]; [lia|]. cbn [length] in HF. rewrite app_length in HF.
  rewrite loop_u, (four_ok h u) by exact HH. cbn [bind]. pose proof (hex4_lt _ _ HH).
  unfold lead_surrogate in HL.
  destruct (N.leb_spec 0xD800 u), (N.leb_spec u 0xDBFF); cbn [andb bind]; try lia;
    rewrite json_utf8_ok by lia; cbn [bind]; apply T; lia.
Qed.
Lemma throws_lead h u c l : hex4 h u -> lead_surrogate u -> c <> 0x75 -> throws (0x5C :: 0x75 :: h ++ c :: l).
Proof.
  intros HH HL HC fuel acc HF. destruct fuel as [|fuel]; [lia|].
  rewrite loop_u, (four_ok h u) by exact HH. cbn [bind]. unfold lead_surrogate in HL.
  destruct (N.leb_spec 0xD800 u), (N.leb_spec u 0xDBFF); cbn [andb bind]; try lia.
  rewrite is_char_miss by exact HC. reflexivity.
Qed.
Lemma throws_chars raw s l : chars Common raw s -> throws l -> throws (raw ++ l).
Proof.
  intros H T. induction H; try discriminate; cbn [app]; auto.
  - now apply throws_plain.
  - eapply throws_simple; eauto.
  - rewrite <- app_assoc. eapply throws_unicode; eauto.
Qed.
Theorem C27_pairs_refuted {num} (strtod : list N -> option num) raw s h1 u1 h2 u2 rest :
  chars Common raw s -> hex4 h1 u1 -> hex4 h2 u2 -> lead_surrogate u1 -> trail_surrogate u2 ->
  json_parse strtod ([0x5B; 0x22] ++ raw ++ [0x5C; 0x75] ++ h1 ++ [0x5C; 0x75] ++ h2 ++ rest) = Throw.
Proof.
  intros HR H1 H2 L1 L2. unfold json_parse. set (text := [0x5B; 0x22] ++ _).
  set (l := raw ++ [0x5C; 0x75] ++ h1 ++ [0x5C; 0x75] ++ h2 ++ rest) in text.
  assert (T : throws l).
  { unfold l. eapply throws_chars; [exact HR|]. cbn [app]. now apply (throws_lead h1 u1). }
  unfold or_else. set (val := is_value strtod (S (length text))). change (At text) with (At (0x5B :: 0x22 :: l)).
  rewrite object_miss by (reflexivity || discriminate). cbn [bind].
  unfold is_array. rewrite (structural_hit 0x5B _ (0x22 :: l)) by (apply skip_nws; reflexivity).
  cbn [bind negb]. rewrite (skip_nws 0x22) by reflexivity.
  assert (V : val (At (0x22 :: l)) = Throw).
  { unfold val. cbn [is_value]. unfold or_else at 1. unfold is_string, is_string_to. rewrite is_char_hit. cbn [bind].
    rewrite T by (cbn [plen]; lia). reflexivity. }
  rewrite V. reflexivity.
Qed.

Lemma hex_fun c d d' : hex c d -> hex c d' -> d = d'.
Proof. intros A B. apply hex_digit_ok in A, B. congruence. Qed.
Lemma hex4_len h u : hex4 h u -> length h = 4%nat.
Proof. intros (c1&c2&c3&c4&d1&d2&d3&d4&->&_). reflexivity. Qed.
Lemma hex4_fun h u u' : hex4 h u -> hex4 h u' -> u = u'.
Proof.
  intros H H'. pose proof (four_ok h u [] H) as A. pose proof (four_ok h u' [] H') as B. congruence.
Qed.
Lemma app_eq_len {A} (a b c d : list A) : length a = length b -> a ++ c = b ++ d -> a = b /\ c = d.
Proof.
  revert b. induction a as [|x a IH]; intros [|y b] HL HE; try discriminate; auto.
  injection HE as -> HE. injection HL as HL. destruct (IH b HL HE) as [-> ->]. auto.
Qed.
(** Instead the library accepts the pair without its second backslash, which is no JSON string, and
    decodes it to the wrong character (0x10000 is not added). *)
Theorem C27_malformed_pair_refuted {num} (strtod : list N -> option num) h1 u1 h2 u2 :
  hex4 h1 u1 -> hex4 h2 u2 -> lead_surrogate u1 -> trail_surrogate u2 ->
  let raw := [0x5C; 0x75] ++ h1 ++ [0x75] ++ h2 in
  (~ exists s, chars RFC raw s) /\
  json_parse strtod ([0x5B; 0x22] ++ raw ++ [0x22; 0x5D]) =
    Ok (VArr [VStr (utf8 ((u1 - 0xD800) * 0x400 + (u2 - 0xDC00)))]).
Proof.
  intros H1 H2 L1 L2 raw. split.
  - intros [s H]. unfold raw in H. cbn [app] in H.
    remember (0x5C :: 0x75 :: h1 ++ 0x75 :: h2) as x eqn:EX.
    destruct H as [|c r s H3 H4 H5 H|e c r s HE H|h u r s Hh Ha Hb H
      |g1 v1 g2 v2 r s HD G1 G2 G3 G4 H|g1 v1 g2 v2 r s HD G1 G2 G3 G4 H|h u r s HD Hh Hb H]; try discriminate.
    + injection EX; intros; subst; lia.
    + injection EX as -> ->. destruct (simple_escape_ok _ _ HE) as [E1 [E2 [E3 _]]]. cbn in E1. congruence.
    + injection EX as EX. apply app_eq_len in EX; [|now rewrite (hex4_len _ _ Hh), (hex4_len _ _ H1)].
      destruct EX as [-> _].
      rewrite (hex4_fun _ _ _ Hh H1) in Ha. tauto.
    + injection EX as EX. apply app_eq_len in EX; [|now rewrite (hex4_len _ _ G1), (hex4_len _ _ H1)].
      destruct EX as [_ EX]. discriminate.
  - replace ([0x5B; 0x22] ++ raw ++ [0x22; 0x5D]) with ([] ++ ([0x5B] ++ [] ++ (([0x22] ++ raw ++ [0x22]) ++ []) ++ [0x5D]) ++ [])
      by (rewrite ?app_nil_r; repeat (rewrite <- app_assoc; cbn [app]); reflexivity).
    apply (parse_complete strtod ASL (or_intror eq_refl)); [constructor| |exact I].
    apply j_arr; [constructor|]. apply je_one; [|constructor]. constructor. exists raw. split; auto.
    unfold raw. cbn [app]. rewrite <- (app_nil_r h2), <- (app_nil_r (utf8 _)).
    apply ch_asl_pair; auto. constructor.
Qed.
(** A lone trailing surrogate is accepted and gives a string that is not UTF-8. *)
Theorem C27_lone_trail_refuted {num} (strtod : list N -> option num) h u :
  hex4 h u -> trail_surrogate u ->
  json_parse strtod ([0x5B; 0x22] ++ ([0x5C; 0x75] ++ h) ++ [0x22; 0x5D]) = Ok (VArr [VStr (utf8 u)]) /\
  well_formed_utf8 (utf8 u) = false.
Proof.
  intros H1 H2. split.
  - set (raw := [0x5C; 0x75] ++ h).
    replace ([0x5B; 0x22] ++ raw ++ [0x22; 0x5D]) with ([] ++ ([0x5B] ++ [] ++ (([0x22] ++ raw ++ [0x22]) ++ []) ++ [0x5D]) ++ [])
      by (rewrite ?app_nil_r; repeat (rewrite <- app_assoc; cbn [app]); reflexivity).
    apply (parse_complete strtod ASL (or_intror eq_refl)); [constructor| |exact I].
    apply j_arr; [constructor|]. apply je_one; [|constructor]. constructor. exists raw. split; auto.
    unfold raw. cbn [app]. rewrite <- (app_nil_r h), <- (app_nil_r (utf8 _)).
    apply ch_asl_trail; auto. constructor.
  - unfold trail_surrogate in H2. unfold utf8. destruct (N.ltb_spec u 0x80); [lia|].
    destruct (N.ltb_spec u 0x800); [lia|]. destruct (N.ltb_spec u 0x10000); [|lia].
    cbn [well_formed_utf8]. replace (u / 4096) with 13 by lia. change (0xE0 + 13) with 0xED.
    unfold within. cbn [N.eqb Pos.eqb N.leb N.compare Pos.compare Pos.compare_cont andb orb].
    destruct (N.leb_spec (0x80 + u / 64 mod 64) 0x9F); [exfalso; lia|].
    rewrite andb_false_r. reflexivity.
Qed.
Example C27_ex : (* "\u00E9\n" decodes; "\uD83D\uDE00" throws; "\uD83DuDE00" gives U+F600 *)
  json_parse demo_strtod [0x5B; 0x22; 0x5C; 0x75; 0x30; 0x30; 0x45; 0x39; 0x5C; 0x6E; 0x22; 0x5D] = Ok (VArr [VStr [0xC3; 0xA9; 10]]) /\
  json_parse demo_strtod [0x5B; 0x22; 0x5C; 0x75; 0x44; 0x38; 0x33; 0x44; 0x5C; 0x75; 0x44; 0x45; 0x30; 0x30; 0x22; 0x5D] = Throw /\
  json_parse demo_strtod [0x5B; 0x22; 0x5C; 0x75; 0x44; 0x38; 0x33; 0x44; 0x75; 0x44; 0x45; 0x30; 0x30; 0x22; 0x5D] = Ok (VArr [VStr (utf8 0xF600)]) /\
  hex4 [0x44; 0x38; 0x33; 0x44] 0xD83D /\ lead_surrogate 0xD83D.
Proof.
  repeat (split; [reflexivity|]). split; [|unfold lead_surrogate; lia].
  exists 0x44, 0x38, 0x33, 0x44, 13, 8, 3, 13. unfold hex. repeat (split; [reflexivity || lia|]). reflexivity.
Qed.

(** * C51: what the parser accepts *)

(** Completeness: every JSON text (an object or array, in the dialect without surrogate escapes) is
    accepted and gives the value it denotes. *)
Theorem C51_complete_partial {num} (strtod : list N -> option num) text v :
  jtext strtod Common text v -> json_parse strtod text = Ok v.
Proof.
  intros [w1 [u [w2 [-> [H1 [H2 [H3 H4]]]]]]].
  apply (parse_complete strtod Common (or_introl eq_refl)); auto.
Qed.
(** so such a text denotes one value only *)
Theorem C51_unambiguous {num} (strtod : list N -> option num) text v v' :
  jtext strtod Common text v -> jtext strtod Common text v' -> v = v'.
Proof. intros A B. apply C51_complete_partial in A, B. congruence. Qed.
(** Soundness: whatever is accepted begins with a text of the library's dialect that denotes the
    value returned. *)
Theorem C51_sound_partial {num} (strtod : list N -> option num) text v :
  json_parse strtod text = Ok v ->
  exists t junk, text = t ++ junk /\ jtext strtod ASL t v.
Proof.
  intros H. destruct (parse_sound strtod text v H) as [w [u [junk [-> [H1 [H2 H3]]]]]].
  exists (w ++ u), junk. split; [now rewrite <- app_assoc|]. exists w, u, []. rewrite app_nil_r.
  split; auto. split; auto. split; [constructor|auto].
Qed.
(** What follows the outermost bracket is not looked at: anything is accepted there. *)
Theorem C51_trailing_refuted {num} (strtod : list N -> option num) text v junk :
  jtext strtod Common text v -> json_parse strtod (text ++ junk) = Ok v.
Proof.
  intros [w1 [u [w2 [-> [H1 [H2 [H3 H4]]]]]]]. rewrite <- !app_assoc.
  apply (parse_complete strtod Common (or_introl eq_refl)); auto.
Qed.
(** A name is cut at an escaped NUL, so two different names become one. *)
Theorem C51_nul_name_refuted : exists text v,
  json_parse demo_strtod text = Ok (VObj [([0x61], v)]) /\
  (* {"a\u0000b":1,"a\u0000c":2} *)
  text = [0x7B; 0x22; 0x61; 0x5C; 0x75; 0x30; 0x30; 0x30; 0x30; 0x62; 0x22; 0x3A; 0x31; 0x2C;
          0x22; 0x61; 0x5C; 0x75; 0x30; 0x30; 0x30; 0x30; 0x63; 0x22; 0x3A; 0x32; 0x7D].
Proof. eexists _, (VNum 2). split; [|reflexivity]. vm_compute. reflexivity. Qed.
Example C51_ex : exists v, jtext demo_strtod Common [0x20; 0x5B; 0x31; 0x20; 0x2C; 0x7B; 0x7D; 0x5D; 0x0A] v /\
  json_parse demo_strtod [0x20; 0x5B; 0x31; 0x20; 0x2C; 0x7B; 0x7D; 0x5D; 0x0A] = Ok v /\
  json_parse demo_strtod [0x5B; 0x31; 0x5D; 0x5D; 0x78] = Ok (VArr [VNum 1]).
Proof.
  exists (VArr [VNum 1; VObj []]). split; [|split; reflexivity].
  exists [0x20], [0x5B; 0x31; 0x20; 0x2C; 0x7B; 0x7D; 0x5D], [0x0A].
  split; [reflexivity|]. split; [repeat constructor|].
  split; [apply Forall_cons; [unfold is_ws; auto|constructor]|]. split; [|exact I].
  apply (j_arr demo_strtod Common [] [0x31; 0x20; 0x2C; 0x7B; 0x7D]); [constructor|].
  apply (je_cons demo_strtod Common [0x31] _ [0x20] [] [0x7B; 0x7D]); [|repeat constructor|constructor|].
  - constructor; [|reflexivity]. exists [], [0x31], [], []. split; auto. split; auto.
    split; [right; exists 0x31, []; split; auto; split; [lia|constructor]|]. split; now left.
  - apply (je_one demo_strtod Common [0x7B; 0x7D] _ []); [|constructor].
    apply (j_obj0 demo_strtod Common []). constructor.
Qed.

Print Assumptions C25_generate_parse.
Print Assumptions C25_integers_partial.
Print Assumptions C25_digits_refuted.
Print Assumptions C26_in_bounds_partial.
Print Assumptions C26_terminates.
Print Assumptions C26_in_bounds_refuted.
Print Assumptions C27_escapes_partial.
Print Assumptions C27_pairs_refuted.
Print Assumptions C27_malformed_pair_refuted.
Print Assumptions C27_lone_trail_refuted.
Print Assumptions C51_complete_partial.
Print Assumptions C51_sound_partial.
Print Assumptions C51_trailing_refuted.
