(** Every JSON text without surrogate escapes is parsed to the value it denotes. *)
From Verif Require Import Prelude Unicode_Spec Json_Model Json_Spec Json_Safe Json_Utf8.
Ltac Zify.zify_post_hook ::= idtac.
Local Open Scope N_scope.

Scheme jvalue_mind := Induction for jvalue Sort Prop
  with jelements_mind := Induction for jelements Sort Prop
  with jmembers_mind := Induction for jmembers Sort Prop.
Combined Scheme jtext_mutind from jvalue_mind, jelements_mind, jmembers_mind.

(** ** whitespace *)
Lemma ws_iff c : ws c = true <-> is_ws c.
Proof.
  unfold ws, is_ws. rewrite !orb_true_iff, !N.eqb_eq. tauto.
Qed.
Lemma skip_blank w l : blank w -> skip_ws_list (w ++ l) = skip_ws_list l.
Proof.
  induction w as [|c w IH]; intros H; auto. cbn [app skip_ws_list].
  rewrite (proj2 (ws_iff c) (Forall_inv H)). apply IH. exact (Forall_inv_tail H).
Qed.
Lemma skip_ws_idem l : skip_ws_list (skip_ws_list l) = skip_ws_list l.
Proof.
  induction l as [|c l IH]; auto. cbn [skip_ws_list]. destruct (ws c) eqn:E; auto.
  cbn [skip_ws_list]. now rewrite E.
Qed.
Lemma skip_nws c l : ws c = false -> skip_ws_list (c :: l) = c :: l.
Proof. intros H. cbn [skip_ws_list]. now rewrite H. Qed.
Lemma structural_hit x l r : skip_ws_list l = x :: r ->
  is_structural_char x (At l) = Ok (true, At (skip_ws_list r)).
Proof.
  intros H. unfold is_structural_char. cbn [skip_white_space bind]. rewrite H, is_char_hit. reflexivity.
Qed.
Lemma structural_miss x l : x <> 0 -> (forall r, skip_ws_list l <> x :: r) ->
  is_structural_char x (At l) = Ok (false, At (skip_ws_list l)).
Proof.
  intros Hx H. unfold is_structural_char. cbn [skip_white_space bind].
  destruct (is_char_cases x (skip_ws_list l) Hx) as [[r [E _]]|[-> _]]; [now apply H in E|reflexivity].
Qed.

(** ** strings *)
Lemma hex_digit_ok c d : hex c d -> hex_digit c = Some d.
Proof.
  unfold hex, hex_digit. intros H.
  destruct (N.leb_spec 0x30 c), (N.leb_spec c 0x39), (N.leb_spec 0x41 c), (N.leb_spec c 0x46),
    (N.leb_spec 0x61 c), (N.leb_spec c 0x66); cbn [andb]; try (exfalso; lia); f_equal; lia.
Qed.
Lemma hex_lt c d : hex c d -> d < 16.
Proof. unfold hex. lia. Qed.
Lemma hex4_lt h u : hex4 h u -> u < 0x10000.
Proof.
  intros (c1&c2&c3&c4&d1&d2&d3&d4&_&H1&H2&H3&H4&->).
  apply hex_lt in H1, H2, H3, H4. lia.
Qed.
Lemma four_ok h u r : hex4 h u -> get_four_digits (At (h ++ r)) = Ok (u, At r).
Proof.
  intros (c1&c2&c3&c4&d1&d2&d3&d4&->&H1&H2&H3&H4&->).
  unfold get_four_digits, one_digit. cbn [app rd bind adv].
  rewrite (hex_digit_ok _ _ H1). cbn [bind rd adv]. rewrite (hex_digit_ok _ _ H2). cbn [bind rd adv].
  rewrite (hex_digit_ok _ _ H3). cbn [bind rd adv]. rewrite (hex_digit_ok _ _ H4). cbn [bind rd adv].
  f_equal. f_equal. lia.
Qed.
Lemma simple_escape_ok e c : simple_escape e c -> escape e = c /\ c <> 0 /\ c <> 0x75 /\ e <> 0.
Proof.
  unfold simple_escape. intros H. cbn [In] in H.
  repeat (destruct H as [H|H]; [injection H as <- <-; cbn; repeat split; discriminate|]). easy.
Qed.

(** the plain run at the front of the characters of a string *)
Lemma plain_split D raw s : chars D raw s -> forall rest,
  exists run raw' s', plain_run (raw ++ 0x22 :: rest) = (run, raw' ++ 0x22 :: rest) /\
    raw = run ++ raw' /\ s = run ++ s' /\ chars D raw' s' /\
    (raw' = [] \/ exists x, raw' = 0x5C :: x).
Proof.
  intros H. assert (Stop : forall rest, plain_run (0x5C :: rest) = ([], 0x5C :: rest)) by reflexivity.
  induction H as [|c raw s H1 H2 H3 H IH|e c raw s HE H IH|h u raw s H1 H2 H3 H IH
    |h1 u1 h2 u2 raw s HD H1 H2 H3 H4 H IH|h1 u1 h2 u2 raw s HD H1 H2 H3 H4 H IH
    |h u raw s HD H1 H2 H IH]; intros rest.
  - exists [], [], []. repeat split; auto. constructor.
  - destruct (IH rest) as [run [raw' [s' [E1 [E2 [E3 [E4 E5]]]]]]].
    exists (c :: run), raw', s'. cbn [app plain_run]. unfold control.
    destruct (N.ltb_spec c 0x20); [lia|]. destruct (N.eqb_spec c 0x22); [lia|].
    destruct (N.eqb_spec c 0x5C); [lia|]. cbn [negb andb]. rewrite E1.
    repeat split; auto; congruence.
  - exists [], (0x5C :: e :: raw), (c :: s). split; [apply Stop|]. repeat (split; [auto; now constructor|]). right; eauto.
  - eexists [], (0x5C :: _), _. split; [apply (Stop (_ ++ _))|]. split; [reflexivity|]. split; [reflexivity|]. split; [|right; eauto]. now apply ch_unicode.
  - eexists [], (0x5C :: _), _. split; [apply (Stop (_ ++ _))|]. split; [reflexivity|]. split; [reflexivity|]. split; [|right; eauto]. now apply ch_pair.
  - eexists [], (0x5C :: _), _. split; [apply (Stop (_ ++ _))|]. split; [reflexivity|]. split; [reflexivity|]. split; [|right; eauto]. now apply ch_asl_pair.
  - eexists [], (0x5C :: _), _. split; [apply (Stop (_ ++ _))|]. split; [reflexivity|]. split; [reflexivity|]. split; [|right; eauto]. now apply ch_asl_trail.
Qed.

Definition asl_ok (D : dialect) : Prop := D = Common \/ D = ASL.
Lemma app_cons_assoc {A} (a b : list A) x c : (a ++ x :: b) ++ c = a ++ x :: (b ++ c).
Proof. now rewrite <- app_assoc. Qed.

Lemma string_loop_ok D : asl_ok D -> forall fuel raw s, (length raw < fuel)%nat -> chars D raw s ->
  forall acc rest, string_loop fuel acc (At (raw ++ 0x22 :: rest)) = Ok (acc ++ s, At rest).
Proof.
  intros HD. induction fuel as [|fuel IH]; intros raw s HF HC acc rest; [lia|]. cbn [string_loop].
  destruct (is_char_cases 0x22 (raw ++ 0x22 :: rest) ltac:(lia)) as [[r [E1 E2]]|[E1 N1]].
  { (* the first character is the closing quote *)
    rewrite E2. cbn [bind]. destruct HC; cbn [app] in E1; try (injection E1; intros; lia).
    injection E1 as <-. now rewrite app_nil_r. }
  rewrite E1. cbn [bind].
  destruct (plain_split D raw s HC rest) as [run [raw' [s' [P1 [P2 [P3 [P4 P5]]]]]]].
  rewrite P1. destruct P5 as [->|[x ->]].
  - (* run up to the closing quote *)
    cbn [app rd bind]. change (control 34) with false. cbn [negb require bind].
    rewrite is_char_miss by lia. cbn [bind negb].
    assert (s' = []) as -> by (remember [] as z eqn:EZ in P4; destruct P4; congruence).
    rewrite app_nil_r in P3, P2. subst run s.
    assert (raw <> []) by (intros ->; cbn in N1; now apply (N1 rest)).
    destruct fuel as [|fuel]; [destruct raw; [congruence|cbn in HF; lia]|].
    cbn [string_loop]. rewrite is_char_hit. reflexivity.
  - (* an escape *)
    cbn [app rd bind]. change (control 0x5C) with false. cbn [negb require bind].
    rewrite is_char_hit. cbn [bind negb].
    assert (LF : (length (0x5C%N :: x) <= length raw)%nat) by (rewrite P2, app_length; lia).
    cbn [length] in LF. rewrite P3.
    remember (0x5C :: x) as rr eqn:ERR.
    destruct P4 as [|c raw2 s2 H1 H2 H3 H|e c raw2 s2 HE H|h u raw2 s2 H1 H2 H3 H
      |h1 u1 h2 u2 raw2 s2 HD' H1 H2 H3 H4 H|h1 u1 h2 u2 raw2 s2 HD' H1 H2 H3 H4 H
      |h u raw2 s2 HD' H1 H2 H]; try discriminate; injection ERR; intros; subst; try lia.
    + destruct (simple_escape_ok _ _ HE) as [E3 [E4 [E5 E6]]].
      cbn [app rd bind adv]. rewrite E3. destruct (N.eqb_spec c 0); [lia|]. cbn [negb require bind].
      destruct (N.eqb_spec c 0x75); [lia|]. cbn [length] in LF. rewrite (IH raw2 s2); [|lia|assumption].
      now rewrite <- !app_assoc.
    + cbn [app rd bind adv]. change (escape 0x75) with 0x75. cbn [N.eqb negb require bind Pos.eqb].
      rewrite <- (app_assoc h), (four_ok h u) by exact H1. cbn [bind].
      pose proof (hex4_lt _ _ H1). unfold lead_surrogate in H2.
      destruct (N.leb_spec 0xD800 u), (N.leb_spec u 0xDBFF); cbn [andb bind]; try lia;
      rewrite json_utf8_ok by lia; cbn [bind]; rewrite (IH raw2 s2); auto; try (now rewrite <- !app_assoc);
      cbn [length] in LF; rewrite app_length in LF; lia.
    + destruct HD; congruence.
    + cbn [app rd bind adv]. change (escape 0x75) with 0x75. cbn [N.eqb negb require bind Pos.eqb].
      rewrite <- (app_assoc h1), (four_ok h1 u1) by exact H1. cbn [bind].
      pose proof (hex4_lt _ _ H1). unfold lead_surrogate in H3. unfold trail_surrogate in H4.
      destruct (N.leb_spec 0xD800 u1); [|lia]. destruct (N.leb_spec u1 0xDBFF); [|lia]. cbn [andb bind].
      cbn [app]. rewrite is_char_hit. cbn [require bind]. rewrite <- (app_assoc h2), (four_ok h2 u2) by exact H2. cbn [bind].
      destruct (N.leb_spec 0xDC00 u2); [|lia]. destruct (N.leb_spec u2 0xDFFF); [|lia].
      cbn [andb require bind]. rewrite N.shiftl_mul_pow2. change (2 ^ 10) with 0x400.
      rewrite json_utf8_ok by lia. cbn [bind]. rewrite (IH raw2 s2); auto.
      * now rewrite <- !app_assoc.
      * cbn [length] in LF. rewrite app_length in LF. cbn [length] in LF. rewrite app_length in LF. lia.
    + cbn [app rd bind adv]. change (escape 0x75) with 0x75. cbn [N.eqb negb require bind Pos.eqb].
      rewrite <- (app_assoc h), (four_ok h u) by exact H1. cbn [bind].
      pose proof (hex4_lt _ _ H1). unfold trail_surrogate in H2.
      destruct (N.leb_spec 0xD800 u); [|lia]. destruct (N.leb_spec u 0xDBFF); [lia|]. cbn [andb bind].
      rewrite json_utf8_ok by lia; cbn [bind]; rewrite (IH raw2 s2); auto; try (now rewrite <- !app_assoc).
      cbn [length] in LF; rewrite app_length in LF; lia.
Qed.
Lemma string_to_ok D : asl_ok D -> forall t s, quoted D t s -> forall rest,
  is_string_to [] (At (t ++ rest)) = Ok (true, s, At rest).
Proof.
  intros HD t s [raw [-> H]] rest. unfold is_string_to. cbn [app]. rewrite is_char_hit. cbn [bind].
  rewrite <- app_assoc. cbn [app]. rewrite (string_loop_ok D HD _ raw s); auto.
  cbn [plen]. rewrite app_length. lia.
Qed.
Lemma string_to_miss c r : c <> 0x22 -> is_string_to [] (At (c :: r)) = Ok (false, [], At (c :: r)).
Proof. intros H. unfold is_string_to. now rewrite is_char_miss. Qed.

(** ** numbers *)
Lemma digit_iff c : digit c = true <-> is_dig c.
Proof. unfold digit, is_dig. rewrite andb_true_iff, !N.leb_le. tauto. Qed.
Definition nodigit (r : list N) : Prop := match r with [] => True | c :: _ => digit c = false end.
Lemma skip_digits_ok ds r : Forall is_dig ds -> nodigit r -> skip_digits_list (ds ++ r) = r.
Proof.
  induction ds as [|d ds IH]; intros H N0.
  - cbn [app]. destruct r as [|c r]; auto. cbn [skip_digits_list]. cbn in N0. now rewrite N0.
  - cbn [app skip_digits_list]. rewrite (proj2 (digit_iff d) (Forall_inv H)). apply IH; auto.
    exact (Forall_inv_tail H).
Qed.
(** what may follow a number so that it is read as a whole *)
Definition stops (r : list N) : Prop :=
  match r with [] => True | c :: _ => digit c = false /\ c <> 0x2E /\ c <> 0x65 /\ c <> 0x45 end.

Lemma digits1_ok ds r : digits1 ds -> nodigit r -> exists d ds', ds = d :: ds' /\
  is_digit (At (ds ++ r)) = Ok (true, At (ds' ++ r)) /\ skip_digits (At (ds' ++ r)) = Ok (At r).
Proof.
  intros [H1 H2] N0. destruct ds as [|d ds]; [congruence|]. exists d, ds. split; auto.
  unfold is_digit. cbn [app rd bind adv]. rewrite (proj2 (digit_iff d) (Forall_inv H2)). split; auto.
  cbn [skip_digits]. rewrite skip_digits_ok; auto. exact (Forall_inv_tail H2).
Qed.
Lemma is_int_ok i r : int_part i -> (i = [0x30] \/ nodigit r) -> is_int (At (i ++ r)) = Ok (true, At r).
Proof.
  intros H HN. unfold is_int. destruct H as [->|[d [ds [-> [H1 H2]]]]].
  - cbn [app]. now rewrite is_char_hit.
  - cbn [app]. rewrite is_char_miss by lia. cbn [bind].
    unfold is_digit. cbn [rd bind adv]. rewrite (proj2 (digit_iff d)) by (unfold is_dig; lia).
    cbn [bind negb skip_digits]. rewrite skip_digits_ok; auto.
    destruct HN as [HN|HN]; auto. injection HN; intros; lia.
Qed.
Lemma is_char_no x r : x <> 0 -> (match r with [] => True | c :: _ => c <> x end) ->
  is_char x (At r) = Ok (false, At r).
Proof.
  intros Hx H. destruct r as [|c r]; [|now apply is_char_miss].
  unfold is_char. cbn [rd bind]. destruct (N.eqb_spec 0 x); [lia|reflexivity].
Qed.
Lemma frac_ok f r : frac_part f -> nodigit r -> (match r with [] => True | c :: _ => c <> 0x2E end) ->
  frac (At (f ++ r)) = Ok (At r).
Proof.
  intros H HN HD. unfold frac. destruct H as [->|[ds [-> H]]].
  - cbn [app]. now rewrite is_char_no by (auto; lia).
  - cbn [app]. rewrite is_char_hit. cbn [bind negb].
    destruct (digits1_ok ds r H HN) as [d [ds' [-> [E1 E2]]]]. rewrite E1. cbn [bind require]. exact E2.
Qed.
Lemma exp_ok e r : exp_part e -> nodigit r ->
  (match r with [] => True | c :: _ => c <> 0x65 /\ c <> 0x45 end) -> exp (At (e ++ r)) = Ok (At r).
Proof.
  intros H HN HD. unfold exp. destruct H as [->|[c [sg [ds [-> [Hc [Hs H]]]]]]].
  - cbn [app]. rewrite is_char_no; [|lia|destruct r; tauto]. cbn [bind].
    rewrite is_char_no; [|lia|destruct r; tauto]. reflexivity.
  - cbn [app]. rewrite <- app_assoc.
    destruct (digits1_ok ds r H HN) as [d [ds' [Ed [E1 E2]]]].
    assert (Q : forall p, is_digit (At p) = Ok (true, At (ds' ++ r)) ->
      '(b, q) <- is_digit (At p) ;; _ <- require b ;; skip_digits q = Ok (At r)).
    { intros p Hp. rewrite Hp. cbn [bind require]. exact E2. }
    assert (Hd : is_dig d) by (rewrite Ed in H; destruct H as [_ H]; exact (Forall_inv H)).
    unfold is_dig in Hd.
    assert (R : '(b, p) <- is_char 0x2D (At (sg ++ ds ++ r)) ;;
      '(_, p) <- (if b : bool then Ok (true, p) else is_char 0x2B p) ;;
      '(b, p) <- is_digit p ;; _ <- require b ;; skip_digits p = Ok (At r)).
    { destruct Hs as [->|[->| ->]]; cbn [app].
      - rewrite Ed. cbn [app]. rewrite is_char_miss by lia. cbn [bind].
        rewrite is_char_miss by lia. cbn [bind]. apply Q. rewrite Ed in E1. exact E1.
      - rewrite is_char_hit. cbn [bind]. apply Q. exact E1.
      - rewrite is_char_miss by lia. cbn [bind]. rewrite is_char_hit. cbn [bind]. apply Q. exact E1. }
    destruct Hc as [->| ->].
    + rewrite is_char_hit. cbn [bind negb]. exact R.
    + rewrite is_char_miss by lia. cbn [bind]. rewrite is_char_hit. cbn [bind negb]. exact R.
Qed.

Section V.
Context {num : Type} (strtod : list N -> option num).
Notation value := (value num).
Notation is_value := (is_value strtod).

Lemma hd_frac f r : frac_part f -> (match r with [] => True | c :: _ => digit c = false /\ c <> 0x2E end) ->
  nodigit (f ++ r).
Proof. clear strtod. intros [->|[ds [-> _]]] H; cbn; [destruct r; tauto|reflexivity]. Qed.
Lemma hd_exp e r : exp_part e -> stops r ->
  match e ++ r with [] => True | c :: _ => digit c = false /\ c <> 0x2E end.
Proof. clear strtod.
  intros [->|[c [sg [ds [-> [[->| ->] _]]]]]] H; cbn.
  - destruct r; cbn in *; tauto.
  - split; [reflexivity|lia].
  - split; [reflexivity|lia].
Qed.
Lemma number_ok t x rest : json_number t -> strtod t = Some x -> stops rest ->
  is_number strtod (At (t ++ rest)) = Ok (Some (VNum x), At rest).
Proof.
  intros (sg&i&f&e&->&Hs&Hi&Hf&He) Hx HR. unfold is_number.
  pose proof (hd_exp e rest He HR) as H1. pose proof (hd_frac f (e ++ rest) Hf H1) as H2.
  set (all := (sg ++ i ++ f ++ e) ++ rest).
  assert (E0 : exists neg, is_char 0x2D (At all) = Ok (neg, At (i ++ f ++ e ++ rest))).
  { unfold all. destruct Hs as [->| ->]; cbn [app]; rewrite <- !app_assoc.
    - exists false. destruct Hi as [->|[d [ds [-> [Hd _]]]]]; cbn [app]; rewrite is_char_miss; auto; lia.
    - exists true. apply is_char_hit. }
  destruct E0 as [neg E0]. rewrite E0. cbn [bind].
  rewrite is_int_ok by auto. cbn [bind negb].
  rewrite frac_ok; [|exact Hf| |].
  2:{ destruct (e ++ rest); cbn in *; tauto. }
  2:{ destruct (e ++ rest); cbn in *; tauto. }
  cbn [bind]. rewrite exp_ok; [|exact He| |].
  2:{ destruct rest; cbn in *; tauto. }
  2:{ destruct rest; cbn in *; tauto. }
  cbn [bind between]. unfold all.
  replace (length ((sg ++ i ++ f ++ e) ++ rest) - length rest)%nat with (length (sg ++ i ++ f ++ e))
    by (rewrite (app_length _ rest); lia).
  rewrite firstn_app, Nat.sub_diag, firstn_all, firstn_O, app_nil_r, Hx. reflexivity.
Qed.
Lemma number_miss c r : c <> 0x2D -> digit c = false -> is_number strtod (At (c :: r)) = Ok (None, At (c :: r)).
Proof.
  intros H1 H2. unfold is_number. rewrite is_char_miss by assumption. cbn [bind].
  unfold is_int. rewrite is_char_miss.
  2:{ intros ->. discriminate. }
  cbn [bind]. unfold is_digit. cbn [rd bind adv]. rewrite H2. reflexivity.
Qed.
Lemma string_miss c r : c <> 0x22 -> @is_string num (At (c :: r)) = Ok (None, At (c :: r)).
Proof. clear strtod. intros H. unfold is_string. now rewrite string_to_miss. Qed.
Lemma object_miss (val : cursor -> res (option value * cursor)) c r : ws c = false -> c <> 0x7B ->
  is_object val (At (c :: r)) = Ok (None, At (c :: r)).
Proof. clear strtod.
  intros H1 H2. unfold is_object. rewrite structural_miss; [now rewrite skip_nws|lia|].
  intros q. rewrite skip_nws by assumption. congruence.
Qed.
Lemma array_miss (val : cursor -> res (option value * cursor)) c r : ws c = false -> c <> 0x5B ->
  is_array val (At (c :: r)) = Ok (None, At (c :: r)).
Proof. clear strtod.
  intros H1 H2. unfold is_array. rewrite structural_miss; [now rewrite skip_nws|lia|].
  intros q. rewrite skip_nws by assumption. congruence.
Qed.
Lemma sequence_miss x lit c r : c <> x -> is_sequence (x :: lit) (At (c :: r)) = Ok (false, At (c :: r)).
Proof. clear strtod. intros H. cbn [is_sequence]. now rewrite is_char_miss. Qed.
Lemma sequence_ok : forall lit r, (match r with [] => False | c :: _ => c <> 0 end) ->
  sequence_loop lit (At (lit ++ r)) = Ok (true, At r).
Proof. clear strtod.
  induction lit as [|x lit IH]; intros r H; cbn [sequence_loop app].
  - destruct r as [|c r]; [easy|]. now rewrite is_char_miss.
  - rewrite is_char_hit. cbn [bind]. auto.
Qed.
(** a closing bracket is no value *)
Lemma value_none fuel c r : c = 0x5D \/ c = 0x7D -> is_value (S fuel) (At (c :: r)) = Ok (None, At (c :: r)).
Proof.
  intros H. cbn [Json_Model.is_value]. unfold or_else.
  assert (ws c = false /\ digit c = false) as [W Dg] by (destruct H as [->| ->]; split; reflexivity).
  rewrite string_miss by (destruct H; lia). cbn [bind].
  rewrite number_miss by (auto; destruct H; lia). cbn [bind].
  rewrite object_miss by (auto; destruct H; lia). cbn [bind].
  rewrite array_miss by (auto; destruct H; lia). cbn [bind].
  unfold is_bool, is_null, lit_true, lit_false, lit_null.
  rewrite sequence_miss by (destruct H; lia). cbn [bind].
  rewrite sequence_miss by (destruct H; lia). cbn [bind].
  rewrite sequence_miss by (destruct H; lia). reflexivity.
Qed.
End V.
