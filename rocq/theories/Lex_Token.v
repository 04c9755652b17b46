(** parse_token, computed exactly on each kind of lexeme; and when there is no lexeme. *)
From Coq Require Import String Ascii ZArith List Bool Lia Floats.SpecFloat.
From Verif Require Import Prelude Vm_Value Search_Model Token_Model Token_Props Expr_Model Lex_Model Lex_Spec Lex_Proofs.
Import ListNotations.
Local Open Scope Z_scope.
Ltac Zify.zify_post_hook ::= idtac.

Section Token.
Variable kw : string -> bool.
Variable bp : bool.
Variable rd : list ascii -> spec_float.
Variable fuel : nat.
Notation parse := (parse_token kw bp rd fuel).
Notation means := (means kw rd).

(** what parse_token must answer for the lexeme [x] followed by [r], whose first character is got *)
Definition answers (x : lexeme) (r : list ascii) (p : place) (res : lres (option token)) : Prop :=
  let good := exists s', res = LOk (if comment x && bp then None else Some (means x)) s' /\ at_ s' 1 r (after x p) in
  (looks x = false \/ clear_ahead r -> good) /\ (res = LUndef \/ good).
Lemma clear_first r : clear_ahead r -> not_first high r.
Proof. intros [H _]. exact H. Qed.
Lemma answers_intro x r p res :
  (not_first high r -> exists s', res = LOk (if comment x && bp then None else Some (means x)) s' /\ at_ s' 1 r (after x p)) ->
  (~ not_first high r -> res = LUndef) -> looks x = true -> answers x r p res.
Proof.
  intros H1 H2 Hl. split.
  - intros [H|H]; [congruence|]. apply H1, clear_first, H.
  - destruct (not_high_first r); auto.
Qed.

Lemma no_comment c s : c <> "/"%char -> is_comment fuel c s = LOk None s.
Proof. intros H. unfold is_comment. replace (Ascii.eqb c "/") with false by (symmetry; apply Ascii.eqb_neq, H). reflexivity. Qed.
Lemma no_hex c s : c <> "0"%char -> is_hex_number fuel c s = LOk None s.
Proof. intros H. unfold is_hex_number. replace (Ascii.eqb c "0") with false by (symmetry; apply Ascii.eqb_neq, H). reflexivity. Qed.
Lemma no_number c s : digit c = false -> high c = false -> is_number rd fuel c s = LOk None s.
Proof.
  intros H Hh. unfold is_number. rewrite no_hex by (intros ->; discriminate H). cbn [lbind].
  unfold is_dec_number. rewrite isdigit_c. unfold guard. rewrite Hh, H. reflexivity.
Qed.
Lemma high_number c s : high c = true -> is_number rd fuel c s = LUndef.
Proof.
  intros H. unfold is_number. rewrite no_hex by (intros ->; discriminate H). cbn [lbind].
  unfold is_dec_number. rewrite isdigit_c. unfold guard. rewrite H. reflexivity.
Qed.
Lemma no_word c s : word_start c = false -> high c = false -> is_identifier_or_keyword kw fuel c s = LOk None s.
Proof.
  intros H Hh. unfold is_identifier_or_keyword. rewrite isalpha_c. unfold guard. rewrite Hh.
  apply orb_false_iff in H as [-> H]. rewrite H. reflexivity.
Qed.
Lemma no_string c s : quote c = false -> is_string fuel c s = LOk None s.
Proof. intros H. unfold is_string. rewrite (not_quote_cases _ H). reflexivity. Qed.

(** the keyword table *)
Lemma keyword_table i : in_keyword_table i = existsb (String.eqb i) ["true"; "false"; "empty"]%string.
Proof.
  destruct (existsb (String.eqb i) ["true"; "false"; "empty"]%string) eqn:E.
  - cbn [existsb] in E. rewrite !orb_true_iff in E.
    destruct E as [E|[E|[E|E]]]; [apply String.eqb_eq in E; subst i; vm_compute; reflexivity..|discriminate].
  - unfold in_keyword_table. destruct (lower_bound name_less (fun k => k) keywords i) as [[j n]|]; [|reflexivity].
    destruct (nth_error keywords j) as [k|] eqn:Ek; [|reflexivity]. apply String.eqb_neq. intros ->.
    apply nth_error_In in Ek. cbn [keywords In existsb] in *. rewrite !orb_false_iff in E. destruct E as (E1 & E2 & E3 & _).
    destruct Ek as [<- |[<- |[<- |[]]]]; [rewrite String.eqb_refl in E3|rewrite String.eqb_refl in E2|rewrite String.eqb_refl in E1]; discriminate.
Qed.

Lemma word_answers c w r s p :
  word_start c = true -> all word_char w -> not_first word_char r -> at_ s 0 (w ++ r) (move 1 p) -> (S (List.length w) < fuel)%nat ->
  answers (Word (c :: w)) r p (parse c s).
Proof.
  intros Hc Hw Hr Hs Hf. unfold parse_token. pose proof (start_word _ Hc) as Hwc. pose proof (word_low _ Hwc) as Hh.
  rewrite no_comment by (intros ->; discriminate Hc). cbn [lbind].
  rewrite no_number; [|apply negb_true_iff; revert c Hc Hwc Hh; clear; intros c Hc _ _; revert c Hc; apply bytes_imp; vm_compute; reflexivity|exact Hh].
  unfold lor. cbn [lbind].
  assert (E : is_identifier_or_keyword kw fuel c s =
    lbind (ident_loop fuel [] c s) (fun w s' =>
      LOk (Some (mk_token (if in_keyword_table (text w) || kw (text w) then keyword_k else identifier_k) (VName (text w)))) s')).
  { unfold is_identifier_or_keyword. rewrite isalpha_c. unfold guard. rewrite Hh. unfold word_start in Hc.
    destruct (letter c); [reflexivity|]. cbn [orb] in Hc. rewrite Hc. reflexivity. }
  rewrite E. destruct (word_exact w r c s (move 1 p) [] fuel Hwc Hw Hr Hs Hf) as [Hok Hbad].
  apply answers_intro; [..|reflexivity].
  - intros H. destruct (Hok H) as (s' & -> & H'). cbn [lbind app]. exists s'. split.
    + cbn [comment andb Lex_Spec.means]. unfold keyword. rewrite keyword_table. reflexivity.
    + rewrite move_move in H'. cbn [after spelled]. replace (List.length (c :: w)) with (List.length w + 1)%nat by (cbn; lia). exact H'.
  - intros H. rewrite (Hbad H). reflexivity.
Qed.

Lemma tolower_cases c : tolower (to_int c) = if high c then None else Some (if in_range 65 90 c then to_int c + 32 else to_int c).
Proof.
  unfold tolower, high, in_range, between, to_int, code. pose proof (N_ascii_bounded c).
  destruct (Z.of_N (N_of_ascii c) <? 128) eqn:E.
  - destruct ((-1 <=? Z.of_N (N_of_ascii c)) && (Z.of_N (N_of_ascii c) <=? 255)) eqn:E1; [|lia].
    destruct ((128 <=? Z.of_N (N_of_ascii c)) && (Z.of_N (N_of_ascii c) <=? 254)) eqn:E2; [lia|]. reflexivity.
  - destruct ((128 <=? Z.of_N (N_of_ascii c)) && (Z.of_N (N_of_ascii c) <=? 254)) eqn:E2.
    + destruct ((-1 <=? Z.of_N (N_of_ascii c) - 256) && (Z.of_N (N_of_ascii c) - 256 <=? 255)) eqn:E1; [lia|reflexivity].
    + destruct ((-1 <=? Z.of_N (N_of_ascii c) - 256) && (Z.of_N (N_of_ascii c) - 256 <=? 255)) eqn:E1; [|lia].
      destruct ((65 <=? Z.of_N (N_of_ascii c)) && (Z.of_N (N_of_ascii c) <=? 90)) eqn:E3; [lia|].
      destruct ((65 <=? Z.of_N (N_of_ascii c) - 256) && (Z.of_N (N_of_ascii c) - 256 <=? 90)) eqn:E4; [lia|]. reflexivity.
Qed.
Definition ex (c : ascii) : bool := Ascii.eqb c "x" || Ascii.eqb c "X".
Lemma ex_lower c : high c = false -> (match tolower (to_int c) with Some z => z =? 120 | None => false end) = ex c.
Proof.
  intros _. assert (H : Bool.eqb (match tolower (to_int c) with Some z => z =? 120 | None => false end) (ex c) = true);
  [|apply eqb_prop in H; exact H]. revert c. apply every_byte. vm_compute. reflexivity.
Qed.
Lemma ex_cases c : ex c = true <-> c = "x"%char \/ c = "X"%char.
Proof. unfold ex. rewrite orb_true_iff, !Ascii.eqb_eq. reflexivity. Qed.

Lemma hex_answers x ds r s p :
  well_formed (Hex x ds) -> not_first hexit r -> at_ s 0 (x :: ds ++ r) (move 1 p) -> (List.length ds < fuel)%nat ->
  answers (Hex x ds) r p (parse "0" s).
Proof.
  intros (Hx & Hne & Hd) Hr Hs Hf. unfold parse_token. rewrite no_comment by discriminate. cbn [lbind].
  unfold is_number at 1. unfold is_hex_number. cbn [Ascii.eqb Bool.eqb negb].
  rewrite (peek_cons _ _ _ _ _ Hs). apply ex_cases in Hx. assert (Hh : high x = false).
  { apply ex_cases in Hx as [-> | ->]; reflexivity. }
  pose proof (ex_lower x Hh) as El. rewrite Hx in El. destruct (tolower (to_int x)) as [z|]; [|discriminate]. rewrite El. cbn [negb].
  destruct (get_cons _ _ _ _ _ Hs) as (s1 & -> & H1). cbn [pred] in H1.
  destruct ds as [|d ds]; [congruence|]. inversion Hd as [|? ? Hd1 Hd2]; subst. cbn [app] in H1.
  rewrite (peek_cons _ _ _ _ _ H1), isxdigit_c. unfold guard. rewrite (hexit_low _ Hd1), Hd1. cbn [check].
  destruct (hex_exact (d :: ds) r s1 _ 0 fuel Hd Hr H1 Hf) as [Hok Hbad]. apply answers_intro; [..|reflexivity].
  - intros H. destruct (Hok H) as (s' & -> & H'). unfold lor. cbn [lbind]. exists s'. split.
    + rewrite hex_fold_value by exact Hd. reflexivity.
    + rewrite !move_move in H'. cbn [after spelled]. replace (List.length ("0" :: x :: d :: ds)%char) with (List.length (d :: ds) + 1 + 1)%nat by (cbn; lia). 
      exact H'.
  - intros H. rewrite (Hbad H). reflexivity.
Qed.

(** a decimal number is not taken for a hexadecimal one *)
Lemma dec_not_hex c w r s p :
  digit c = true -> all dec_char w -> ends_before (Dec (c :: w)) r -> at_ s 0 (w ++ r) (move 1 p) ->
  (exists s', is_hex_number fuel c s = LOk None s' /\ at_ s' 1 (w ++ r) (move 1 p)) \/
  (is_hex_number fuel c s = LUndef /\ ~ clear_ahead r).
Proof.
  intros Hc Hw [He1 He2] Hs. destruct (Ascii.eqb_spec c "0") as [-> | N].
  2:{ left. rewrite no_hex by exact N. exists s. split; [reflexivity|]. apply (at_weaken _ 0); auto. }
  unfold is_hex_number. cbn [Ascii.eqb Bool.eqb negb].
  assert (E0 : forall l : list ascii, at_ s 0 l (move 1 p) -> not_first (fun c => ex c || high c) l ->
     exists s', match tolower (peek_char s) with
       | Some z => if negb (z =? 120) then LOk None s else match get_char s with
          | Some (x, s1) => check (isxdigit (peek_char s1))
              (lbind (hex_loop fuel 0 s1) (fun v s2 => LOk (Some (mk_token number_k (VNum (f_of_Z v)))) s2))
              (lbind (putback_char x s1) (fun _ s2 => LOk None s2))
          | None => LUndef end
       | None => LUndef end = LOk None s' /\ at_ s' 1 l (move 1 p)).
  { intros l Hl Hnf. exists s. split; [|apply (at_weaken _ 0); auto]. destruct l as [|d l].
    - rewrite (peek_nil _ _ _ Hl). reflexivity.
    - rewrite (peek_cons _ _ _ _ _ Hl). cbn [not_first] in Hnf. apply orb_false_iff in Hnf as [Hx Hh].
      pose proof (ex_lower d Hh) as El. rewrite Hx in El. rewrite tolower_cases in *. rewrite Hh in *. rewrite El. reflexivity. }
  destruct w as [|d w].
  2:{ left. apply (E0 (d :: w ++ r)); [exact Hs|]. cbn [not_first]. inversion Hw as [|? ? Hd _]; subst. rewrite (dec_low _ Hd).
      rewrite orb_false_r. apply negb_true_iff. clear - Hd. revert d Hd. apply bytes_imp. vm_compute. reflexivity. }
  cbn [app] in *. destruct r as [|x r]; [left; apply (E0 []); [exact Hs|exact I]|].
  destruct (high x) eqn:Hhx.
  { right. split; [|intros H; apply clear_first in H; cbn in H; congruence]. rewrite (peek_cons _ _ _ _ _ Hs), tolower_cases, Hhx. reflexivity. }
  destruct (ex x) eqn:Ex; [|left; apply (E0 (x :: r)); [exact Hs|cbn [not_first]; rewrite Ex, Hhx; reflexivity]].
  rewrite (peek_cons _ _ _ _ _ Hs). pose proof (ex_lower x Hhx) as El. rewrite Ex in El.
  destruct (tolower (to_int x)) as [z|]; [|discriminate]. rewrite El. cbn [negb].
  destruct (get_cons _ _ _ _ _ Hs) as (s1 & -> & H1). cbn [pred] in H1.
  assert (Hback : exists s', lbind (putback_char x s1) (fun _ s2 => LOk (@None token) s2) = LOk None s' /\ at_ s' 1 (x :: r) (move 1 p)).
  { destruct (put s1 0 x r (move 1 p)) as (s2 & -> & H2); [lia|exact H1|]. exists s2. auto. }
  destruct r as [|d r].
  - rewrite (peek_nil _ _ _ H1). left. exact Hback.
  - rewrite (peek_cons _ _ _ _ _ H1), isxdigit_c. unfold guard. destruct (high d) eqn:Hd.
    + right. split; [reflexivity|]. intros [_ H]. apply H. exists x, d, r. apply ex_cases in Ex. auto.
    + destruct (hexit d) eqn:Hx; [|left; exact Hback]. exfalso. apply He2. split; [reflexivity|]. exists x, d, r.
      apply ex_cases in Ex. auto.
Qed.

Lemma dec_answers c w r s p :
  digit c = true -> all dec_char w -> ends_before (Dec (c :: w)) r -> at_ s 0 (w ++ r) (move 1 p) -> (S (List.length w) < fuel)%nat ->
  answers (Dec (c :: w)) r p (parse c s).
Proof.
  intros Hc Hw He Hs Hf. unfold parse_token. rewrite no_comment by (intros ->; discriminate Hc). cbn [lbind].
  unfold is_number. destruct (dec_not_hex c w r s p Hc Hw He Hs) as [(s1 & -> & H1)|[-> Hb]].
  2:{ split; [intros [H|H]; [discriminate H|contradiction]|left; reflexivity]. }
  cbn [lbind]. unfold is_dec_number. rewrite isdigit_c. unfold guard. rewrite (dec_low _ (digit_dec _ Hc)), Hc. cbn [check].
  destruct (put s1 1 c (w ++ r) p) as (s2 & -> & H2); [lia|exact H1|]. cbn [lbind].
  destruct (dec_exact (c :: w) r s2 p [] 2 fuel) as [Hok Hbad]; [constructor; [apply digit_dec|]; assumption|apply He|cbn; lia|lia|exact H2|cbn; lia|].
  apply answers_intro; [..|reflexivity].
  - intros H. destruct (Hok H) as (s' & -> & H'). exists s'. split; [reflexivity|exact H'].
  - intros H. rewrite (Hbad H). reflexivity.
Qed.

Lemma trail_answers body le r s p :
  well_formed (Trail body le) -> ends_before (Trail body le) r -> at_ s 0 ("/"%char :: body ++ le ++ r) (move 1 p) -> (List.length body < fuel)%nat ->
  answers (Trail body le) r p (parse "/" s).
Proof.
  intros Hw He Hs Hf. unfold parse_token, is_comment. cbn [Ascii.eqb Bool.eqb negb].
  rewrite (peek_cons _ _ _ _ _ Hs).
  replace ((to_int "/" =? EOF) || (negb (to_int "/" =? 47) && negb (to_int "/" =? 42))) with false by reflexivity.
  destruct (get_cons _ _ _ _ _ Hs) as (s1 & -> & H1). cbn [pred] in H1. cbn [Ascii.eqb Bool.eqb].
  destruct (trail_exact body le r s1 _ fuel Hw He H1 Hf) as (s2 & -> & H2). cbn [lbind].
  rewrite no_number by reflexivity. unfold lor. cbn [lbind]. rewrite no_word by reflexivity. cbn [lbind].
  assert (G : exists s', LOk (if bp then None else Some (mk_token trail_comment_k (VStr (text (c_str body))))) s2
     = LOk (if comment (Trail body le) && bp then None else Some (means (Trail body le))) s' /\ at_ s' 1 r (after (Trail body le) p)).
  { exists s2. split; [reflexivity|]. apply (at_weaken _ 0); [lia|]. rewrite !move_move in H2. cbn [after].
    replace (2 + List.length body)%nat with (List.length body + 1 + 1)%nat by lia. exact H2. }
  split; [intros _; exact G|right; exact G].
Qed.
Lemma lead_answers body r s p :
  well_formed (Lead body) -> at_ s 0 ("*"%char :: body ++ closing ++ r) (move 1 p) -> (List.length body < fuel)%nat ->
  answers (Lead body) r p (parse "/" s).
Proof.
  intros Hw Hs Hf. unfold parse_token, is_comment. cbn [Ascii.eqb Bool.eqb negb].
  rewrite (peek_cons _ _ _ _ _ Hs).
  replace ((to_int "*" =? EOF) || (negb (to_int "*" =? 47) && negb (to_int "*" =? 42))) with false by reflexivity.
  destruct (get_cons _ _ _ _ _ Hs) as (s1 & -> & H1). cbn [pred] in H1. cbn [Ascii.eqb Bool.eqb].
  destruct (lead_exact body r s1 _ [] fuel Hw H1 Hf) as (s2 & -> & H2). cbn [lbind app].
  rewrite no_number by reflexivity. unfold lor. cbn [lbind]. rewrite no_word by reflexivity. cbn [lbind].
  assert (G : exists s', LOk (if bp then None else Some (mk_token lead_comment_k (VStr (text (c_str (unify_line_ends body)))))) s2
     = LOk (if comment (Lead body) && bp then None else Some (means (Lead body))) s' /\ at_ s' 1 r (after (Lead body) p)).
  { exists s2. split; [reflexivity|]. apply (at_weaken _ 0); [lia|]. rewrite !move_move in H2. exact H2. }
  split; [intros _; exact G|right; exact G].
Qed.
Lemma lead_unclosed body s p :
  no_close body -> at_ s 0 ("*"%char :: body) p -> (List.length body < fuel)%nat -> parse "/" s = LThrow.
Proof.
  intros Hw Hs Hf. unfold parse_token, is_comment. cbn [Ascii.eqb Bool.eqb negb].
  rewrite (peek_cons _ _ _ _ _ Hs).
  replace ((to_int "*" =? EOF) || (negb (to_int "*" =? 47) && negb (to_int "*" =? 42))) with false by reflexivity.
  destruct (get_cons _ _ _ _ _ Hs) as (s1 & -> & H1). cbn [pred] in H1. cbn [Ascii.eqb Bool.eqb].
  rewrite (lead_open body s1 _ [] fuel Hw H1 Hf). reflexivity.
Qed.

Lemma quote_parse q s : quote q = true ->
  parse q s = lbind (string_loop fuel fuel [] q s) (fun l s' => LOk (Some (mk_token string_k (VStr (text (c_str l))))) s').
Proof.
  intros Hq. unfold parse_token. rewrite no_comment by (intros ->; discriminate Hq). cbn [lbind].
  assert (Hd : digit q = false) by (unfold quote in Hq; apply orb_true_iff in Hq as [H|H]; apply Ascii.eqb_eq in H; subst; reflexivity).
  assert (Hw : word_start q = false) by (unfold quote in Hq; apply orb_true_iff in Hq as [H|H]; apply Ascii.eqb_eq in H; subst; reflexivity).
  rewrite no_number by (auto using quote_low). unfold lor. cbn [lbind]. rewrite no_word by (auto using quote_low). cbn [lbind].
  unfold is_string. rewrite (quote_cases _ Hq). destruct (string_loop fuel fuel [] q s); reflexivity.
Qed.
Lemma string_answers ps lone r c w s p :
  well_formed (Str ps lone) -> ends_before (Str ps lone) r -> spelled (Str ps lone) ++ r = c :: w ->
  at_ s 0 w (move 1 p) -> (List.length (c :: w) < fuel)%nat -> answers (Str ps lone) r p (parse c s).
Proof.
  intros (Hps & Hl) He E Hs Hf. cbn [List.length] in Hf. destruct ps as [|x ps].
  - destruct Hl as [[_ ?]|(q & -> & Hq)]; [congruence|]. cbn in E. injection E as <- ->. cbn in He. subst w.
    rewrite (quote_parse _ _ Hq). destruct fuel as [|f] eqn:Ef; [lia|]. rewrite <- Ef in *. rewrite Ef at 2.
    destruct (lone_exact fuel q s _ [] f Hs) as (s' & -> & H'); [lia|]. cbn [lbind].
    assert (G : exists s'', LOk (Some (mk_token string_k (VStr (text (c_str []))))) s'
      = LOk (if comment (Str [] [q]) && bp then None else Some (means (Str [] [q]))) s'' /\ at_ s'' 1 [] (after (Str [] [q]) p))
      by (exists s'; split; [reflexivity|exact H']).
    split; [intros _; exact G|right; exact G].
  - inversion Hps as [|? ? [Hq [Hb Hw]] _]; subst.
    assert (Er : spelled (Str (x :: ps) lone) ++ r = p_quote x :: p_body x ++ p_quote x :: p_space x ++ str_rest ps lone r).
    { unfold str_rest. cbn [spelled map concat]. unfold written_piece at 1. cbn [app]. rewrite <- !app_assoc. reflexivity. }
    rewrite Er in E. injection E as <- <-. rewrite (quote_parse _ _ Hq).
    assert (Hl' : lone = [] \/ exists q, lone = [q] /\ quote q = true) by (destruct Hl as [[? _]|?]; auto).
    assert (Hn : (List.length ps + List.length lone < fuel)%nat).
    { rewrite app_length in Hf. cbn [List.length] in Hf. unfold str_rest in Hf. rewrite !app_length in Hf.
      assert (List.length ps <= List.length (concat (map written_piece ps)))%nat; [|lia]. clear.
      induction ps as [|y ps IH]; [cbn; lia|]. cbn [map concat List.length]. rewrite app_length. unfold written_piece at 1. cbn [app List.length]. lia. }
    destruct (string_exact fuel ps x lone r s p [] fuel Hps Hl' He Hs) as [H1 H2]; [lia|exact Hn|]. cbn [app] in *.
    destruct lone as [|q lone].
    + destruct (H1 eq_refl) as [Hok Hbad]. apply answers_intro; [..|reflexivity].
      * intros H. destruct (Hok H) as (s' & -> & H'). exists s'. split; [reflexivity|]. cbn [after List.length]. rewrite move_0. exact H'.
      * intros H. rewrite (Hbad H). reflexivity.
    + destruct H2 as (s' & -> & H'); [discriminate|].
      assert (G : exists s'', LOk (Some (mk_token string_k (VStr (text (c_str (concat (map p_body (x :: ps)))))))) s'
        = LOk (if comment (Str (x :: ps) (q :: lone)) && bp then None else Some (means (Str (x :: ps) (q :: lone)))) s'' /\ at_ s'' 1 r (after (Str (x :: ps) (q :: lone)) p))
        by (exists s'; split; [reflexivity|exact H']).
      split; [intros _; exact G|right; exact G].
Qed.

(** *** operators *)
Lemma no_comment_slash s n r p :
  at_ s n r p -> ~ (exists c r', r = c :: r' /\ (c = "/"%char \/ c = "*"%char)) -> is_comment fuel "/" s = LOk None s.
Proof.
  intros Hs H. unfold is_comment. cbn [Ascii.eqb Bool.eqb negb]. destruct r as [|c r].
  - rewrite (peek_nil _ _ _ Hs). reflexivity.
  - rewrite (peek_cons _ _ _ _ _ Hs). change 47 with (code "/"). change 42 with (code "*").
    rewrite !to_int_char by reflexivity.
    replace (Ascii.eqb c "/") with false by (symmetry; apply Ascii.eqb_neq; intros ->; apply H; eauto).
    replace (Ascii.eqb c "*") with false by (symmetry; apply Ascii.eqb_neq; intros ->; apply H; eauto).
    cbn [negb andb]. rewrite orb_true_r. reflexivity.
Qed.
Lemma op_parse c s :
  is_comment fuel c s = LOk None s -> digit c = false -> word_start c = false -> quote c = false -> high c = false ->
  parse c s = lbind (lor (is_compound c s) (is_simple c)) (fun r s' => match r with None => LThrow | Some t => LOk (Some t) s' end).
Proof.
  intros Hc Hd Hw Hq Hh. unfold parse_token. rewrite Hc. cbn [lbind]. rewrite no_number by assumption. unfold lor. cbn [lbind].
  rewrite no_word by assumption. cbn [lbind]. rewrite no_string by assumption. reflexivity.
Qed.
Definition opchar (c : ascii) : bool := negb (digit c) && negb (word_start c) && negb (quote c) && negb (high c).
Lemma op_parse' c s : is_comment fuel c s = LOk None s -> opchar c = true ->
  parse c s = lbind (lor (is_compound c s) (is_simple c)) (fun r s' => match r with None => LThrow | Some t => LOk (Some t) s' end).
Proof.
  intros H Ho. unfold opchar in Ho. rewrite !andb_true_iff, !negb_true_iff in Ho. destruct Ho as [[[? ?] ?] ?]. apply op_parse; assumption.
Qed.
(** the simple ones *)
Lemma simple_answer c k s r p : simple_index c <> 0%nat -> name_at (simple_index c) = k -> written k = [c] ->
  at_ s 0 r (move 1 p) -> is_compound c s = LOk None s ->
  exists s', lbind (lor (is_compound c s) (is_simple c)) (fun r s' => match r with None => LThrow | Some t => LOk (Some t) s' end)
    = LOk (Some (means (Op k))) s' /\ at_ s' 1 r (after (Op k) p).
Proof.
  intros Hi Hk Hw Hs ->. unfold lor. cbn [lbind]. unfold is_simple. apply Nat.eqb_neq in Hi. rewrite Hi. cbn [lbind].
  exists s. rewrite Hk. split; [reflexivity|]. cbn [after spelled]. rewrite Hw. apply (at_weaken _ 0); [lia|exact Hs].
Qed.
Lemma peek_is d s n r p : at_ s n r p -> (code d <? 128) = true ->
  (peek_char s =? code d) = match r with c :: _ => Ascii.eqb c d | [] => false end.
Proof.
  intros Hs Hd. destruct r as [|c r].
  - rewrite (peek_nil _ _ _ Hs). apply Z.eqb_neq. unfold code. lia.
  - rewrite (peek_cons _ _ _ _ _ Hs). apply to_int_char, Hd.
Qed.
Definition starts (d : ascii) (r : list ascii) : bool := match r with c :: _ => Ascii.eqb c d | [] => false end.
Lemma starts_true d r : starts d r = true -> exists r', r = d :: r'.
Proof. destruct r as [|c r]; [discriminate|]. cbn [starts]. intros H. apply Ascii.eqb_eq in H. subst. eauto. Qed.
(** what is_compound does, by its first character *)
Lemma compound_two c d k s r p : compound_match c = d -> Ascii.eqb d "0" = false -> Ascii.eqb d "#" = false -> (code d <? 128) = true ->
  name_at (compound_index c) = k -> at_ s 0 r p ->
  is_compound c s = if starts d r then LOk (Some (op k)) (ignore_char s) else LOk None s.
Proof.
  intros Hm H0 Hh Hd Hk Hs. unfold is_compound. rewrite Hm, H0, Hh, Hk.
  assert (Ed : to_int d = code d) by (unfold to_int, code in *; rewrite Hd; reflexivity). rewrite Ed.
  rewrite (peek_is d _ _ _ _ Hs Hd). fold (starts d r). destruct r as [|e r].
  - rewrite (peek_nil _ _ _ Hs). reflexivity.
  - destruct (peek_char s =? EOF) eqn:E; [|cbn [starts]; destruct (Ascii.eqb e d); reflexivity].
    destruct (starts d (e :: r)) eqn:Es; [|reflexivity]. exfalso. cbn [starts] in Es. apply Ascii.eqb_eq in Es. subst e.
    rewrite (peek_cons _ _ _ _ _ Hs), Ed in E. apply Z.eqb_eq in E. unfold code, EOF in *. lia.
Qed.
Lemma compound_none c s : compound_match c = "0"%char -> is_compound c s = LOk None s.
Proof. intros H. unfold is_compound. rewrite H. reflexivity. Qed.
Lemma compound_greater s r p : at_ s 0 r p ->
  is_compound ">" s = if starts ">" r then LOk (Some (op bitwise_rshift_k)) (ignore_char s)
    else if starts "=" r then LOk (Some (op greater_equal_k)) (ignore_char s) else LOk None s.
Proof.
  intros Hs. unfold is_compound. replace (compound_match ">") with "#"%char by reflexivity. cbn [Ascii.eqb Bool.eqb andb].
  change 62 with (code ">"). change 61 with (code "="). rewrite !(peek_is _ _ _ _ _ Hs) by reflexivity. fold (starts ">" r) (starts "=" r).
  destruct (peek_char s =? EOF) eqn:E; [|reflexivity].
  destruct r as [|e r]; [reflexivity|]. rewrite (peek_cons _ _ _ _ _ Hs) in E.
  cbn [starts]. destruct (Ascii.eqb_spec e ">") as [-> | ]; [discriminate E|]. destruct (Ascii.eqb_spec e "=") as [-> | ]; [discriminate E|reflexivity].
Qed.
Lemma compound_less s r p : at_ s 0 r p ->
  is_compound "<" s = if starts "<" r then LOk (Some (op bitwise_lshift_k)) (ignore_char s)
    else if starts "=" r then
      (if starts "=" (tl r) then LOk (Some (op is_k)) (ignore_char (ignore_char s)) else LOk (Some (op less_equal_k)) (ignore_char s))
    else LOk None s.
Proof.
  intros Hs. unfold is_compound. replace (compound_match "<") with "#"%char by reflexivity. cbn [Ascii.eqb Bool.eqb andb].
  change 60 with (code "<"). change 61 with (code "="). rewrite !(peek_is _ _ _ _ _ Hs) by reflexivity. fold (starts "<" r) (starts "=" r).
  destruct (peek_char s =? EOF) eqn:E.
  - destruct r as [|e r]; [reflexivity|]. rewrite (peek_cons _ _ _ _ _ Hs) in E.
    cbn [starts]. destruct (Ascii.eqb_spec e "<") as [-> | ]; [discriminate E|]. destruct (Ascii.eqb_spec e "=") as [-> | ]; [discriminate E|reflexivity].
  - destruct (starts "<" r); [reflexivity|]. destruct (starts "=" r) eqn:Es; [|reflexivity].
    apply starts_true in Es as [r' ->]. apply ignore_cons in Hs. cbn [pred tl] in *. rewrite (peek_is _ _ _ _ _ Hs) by reflexivity. reflexivity.
Qed.

Lemma longer_refused k r : ends_before (Op k) r ->
  forall k' u, operator k' = true -> written k' = written k ++ u -> u <> [] ->
  forall d, u = [d] -> starts d r = false.
Proof.
  intros [He _] k' u Ho Hw Hu d ->. destruct (starts d r) eqn:E; [|reflexivity]. exfalso.
  apply starts_true in E as [r' ->]. apply (He k' [d] Ho Hw Hu). exists r'. reflexivity.
Qed.

Lemma op_answers k r c w s p :
  operator k = true -> ends_before (Op k) r -> written k ++ r = c :: w -> at_ s 0 w (move 1 p) -> answers (Op k) r p (parse c s).
Proof.
  intros Ho He E Hs.
  assert (G : exists s', parse c s = LOk (Some (means (Op k))) s' /\ at_ s' 1 r (after (Op k) p));
    [|split; [intros _; exact G|right; exact G]].
  pose proof (longer_refused k r He) as HL.
  destruct (tk_beq k divide_k) eqn:Ek.
  { destruct k; try discriminate. cbn in E. injection E as <- <-. rewrite op_parse'; [|eapply no_comment_slash; [exact Hs|]|reflexivity].
    - apply (simple_answer "/" divide_k); auto; try discriminate. 
    - intros H. apply (proj2 He). auto. }
  assert (Hc0 : c <> "/"%char) by (intros ->; destruct k; discriminate).
  assert (Hoc : opchar c = true) by (destruct k; try discriminate Ho; cbn in E; injection E as <- _; reflexivity).
  rewrite op_parse' by (auto using no_comment).
  Ltac simple_op c k Hs := apply (simple_answer c k); auto; try discriminate.
  destruct k; try discriminate Ho; try discriminate Ek; cbn in E; injection E as <- <-.
  all: try (match goal with |- context [is_compound ?c _] => match goal with |- context [Op ?k] =>
       simple_op c k Hs; apply compound_none; reflexivity end end).
  (* 17 cases are left: the compound operators, and the operators that begin one *)
  Ltac two c d k Hs := rewrite (compound_two c d k _ _ _ eq_refl eq_refl eq_refl eq_refl eq_refl Hs); cbn [starts]; rewrite ?Ascii.eqb_refl.
  Ltac shorter c k HL k' d := apply (simple_answer c k); auto; try discriminate.
  Ltac took Hs := unfold lor; cbn [lbind starts]; rewrite ?Ascii.eqb_refl; cbn [lbind]; eexists; split; [reflexivity|];
    apply ignore_cons in Hs; cbn [pred] in Hs; rewrite ?move_move in Hs; apply (at_weaken _ 0); [lia|exact Hs].
  - two "&"%char "&"%char and_k Hs. took Hs.
  - simple_op "&"%char bitwise_and_k Hs. rewrite (compound_two "&" "&" and_k _ _ _ eq_refl eq_refl eq_refl eq_refl eq_refl Hs).
    rewrite (HL and_k ["&"%char]); auto; discriminate.
  - rewrite (compound_less _ _ _ Hs). took Hs.
  - simple_op "|"%char bitwise_or_k Hs. rewrite (compound_two "|" "|" or_k _ _ _ eq_refl eq_refl eq_refl eq_refl eq_refl Hs).
    rewrite (HL or_k ["|"%char]); auto; discriminate.
  - rewrite (compound_greater _ _ _ Hs). took Hs.
  - two "="%char "="%char equal_k Hs. took Hs.
  - rewrite (compound_greater _ _ _ Hs). replace (starts ">" ("="%char :: r)) with false by reflexivity. took Hs.
  - simple_op ">"%char greater_k Hs. rewrite (compound_greater _ _ _ Hs).
    rewrite (HL bitwise_rshift_k [">"%char]), (HL greater_equal_k ["="%char]); auto; discriminate.
  - rewrite (compound_less _ _ _ Hs). replace (starts "<" ("="%char :: "="%char :: r)) with false by reflexivity.
    cbn [starts tl]. rewrite !Ascii.eqb_refl. unfold lor. cbn [lbind]. eexists; split; [reflexivity|].
    apply ignore_cons in Hs. cbn [pred] in Hs. apply ignore_cons in Hs. cbn [pred] in Hs. rewrite !move_move in Hs. apply (at_weaken _ 0); [lia|exact Hs].
  - rewrite (compound_less _ _ _ Hs). replace (starts "<" ("="%char :: r)) with false by reflexivity. cbn [tl].
    rewrite (HL is_k ["="%char]); auto; try discriminate. took Hs.
  - simple_op "<"%char less_k Hs. rewrite (compound_less _ _ _ Hs).
    rewrite (HL bitwise_lshift_k ["<"%char]), (HL less_equal_k ["="%char]); auto; discriminate.
  - two "!"%char "="%char not_equal_k Hs. took Hs.
  - simple_op "!"%char not_k Hs. rewrite (compound_two "!" "=" not_equal_k _ _ _ eq_refl eq_refl eq_refl eq_refl eq_refl Hs).
    rewrite (HL not_equal_k ["="%char]); auto; discriminate.
  - two "|"%char "|"%char or_k Hs. took Hs.
  - simple_op "-"%char subtract_k Hs. rewrite (compound_two "-" ">" to_k _ _ _ eq_refl eq_refl eq_refl eq_refl eq_refl Hs).
    rewrite (HL to_k [">"%char]); auto; discriminate.
  - two "-"%char ">"%char to_k Hs. took Hs.
  - simple_op "="%char assign_k Hs. rewrite (compound_two "=" "=" equal_k _ _ _ eq_refl eq_refl eq_refl eq_refl eq_refl Hs).
    rewrite (HL equal_k ["="%char]); auto; discriminate.
Qed.

(** *** every text begins with a lexeme, or is refused *)
Lemma span f l : exists a b, l = a ++ b /\ all f a /\ not_first f b.
Proof.
  induction l as [|c l (a & b & -> & Ha & Hb)]; [exists [], []; repeat split; constructor|].
  destruct (f c) eqn:E; [exists (c :: a), b; repeat split; auto; constructor; auto|].
  exists [], (c :: a ++ b). repeat split; [constructor|exact E].
Qed.
Lemma find_close l : no_close l \/ exists a b, l = a ++ closing ++ b /\ no_close a.
Proof.
  induction l as [|c l IH].
  - left. intros (a & b & H). destruct a; discriminate.
  - destruct (Ascii.eqb_spec c "*") as [-> | N].
    + destruct l as [|d l].
      * left. intros (a & b & H). destruct a as [|x [|y a]]; discriminate.
      * destruct (Ascii.eqb_spec d "/") as [-> | N].
        -- right. exists [], l. split; [reflexivity|]. intros (a & b & H). destruct a; discriminate.
        -- destruct IH as [IH|(a & b & E & IH)].
           ++ left. intros (a & b & H). destruct a as [|x a]; cbn [app] in H; [injection H as H _; congruence|].
              injection H as _ H. apply IH. exists a, b. exact H.
           ++ right. exists ("*"%char :: a), b. rewrite E. split; [reflexivity|]. intros (a' & b' & H).
              destruct a' as [|x a']; cbn [app] in H.
              ** injection H as H. destruct a as [|y a]; [discriminate|]. cbn in E. injection E as -> _. injection H as H _. congruence.
              ** injection H as _ H. apply IH. exists a', b'. exact H.
    + destruct IH as [IH|(a & b & E & IH)].
      * left. intros (a & b & H). destruct a as [|x a]; cbn [app] in H; [injection H as H _; congruence|].
        injection H as _ H. apply IH. exists a, b. exact H.
      * right. exists (c :: a), b. rewrite E. split; [reflexivity|]. intros (a' & b' & H). destruct a' as [|x a']; cbn [app] in H; [injection H as H _; congruence|].
        injection H as _ H. apply IH. exists a', b'. exact H.
Qed.
Lemma find_char q l : all (fun c => negb (Ascii.eqb c q)) l \/ exists a b, l = a ++ q :: b /\ all (fun c => negb (Ascii.eqb c q)) a.
Proof.
  destruct (span (fun c => negb (Ascii.eqb c q)) l) as (a & b & -> & Ha & Hb). destruct b as [|c b].
  - left. rewrite app_nil_r. exact Ha.
  - right. exists a, b. cbn [not_first] in Hb. apply negb_false_iff, Ascii.eqb_eq in Hb. subst c. auto.
Qed.
(** strings, after their opening quote *)
Lemma string_found : forall n w q acc s p,
  quote q = true -> at_ s 0 w p -> (List.length w < n)%nat -> (n <= fuel)%nat ->
  (exists x ps lone r, w = p_body x ++ q :: p_space x ++ str_rest ps lone r /\ p_quote x = q /\ Forall piece_ok (x :: ps) /\
     (lone = [] \/ exists q, lone = [q] /\ quote q = true) /\ ends_before (Str (x :: ps) lone) r) \/
  w = [] \/ string_loop fuel n acc q s = LThrow.
Proof.
  induction n as [n IH] using lt_wf_ind. intros w q acc s p Hq Hs Hn Hf. destruct n as [|n]; [lia|].
  destruct (find_char q w) as [Hb|(body & w1 & -> & Hb)].
  - destruct w as [|c w]; [auto|]. right; right. apply (string_open fuel w q c s p); auto. lia.
  - destruct (span space w1) as (ws & w2 & -> & Hws & Hnf).
    assert (Hp : piece_ok (mk_piece q body ws)) by (repeat split; auto).
    destruct w2 as [|q2 w3].
    { left. exists (mk_piece q body ws), [], [], []. repeat split; auto. }
    destruct (quote q2) eqn:Hq2.
    2:{ left. exists (mk_piece q body ws), [], [], (q2 :: w3). repeat split; auto. }
    assert (Hlen : (List.length (body ++ q :: ws ++ q2 :: w3) < S n)%nat) by exact Hn.
    rewrite !app_length in Hlen. cbn [List.length] in Hlen. rewrite app_length in Hlen. cbn [List.length] in Hlen.
    assert (Hstep : exists s3, string_loop fuel (S n) acc q s = string_loop fuel n (acc ++ body) q2 s3 /\ exists p3, at_ s3 0 w3 p3).
    { cbn [string_loop]. destruct (quoted_exact body _ s p acc q q fuel Hb Hs) as (s1 & -> & H1); [lia|]. cbn [lbind].
      rewrite Ascii.eqb_refl. cbn [negb].
      destruct (skip_exact ws (q2 :: w3) s1 0 _ fuel Hws Hnf (Nat.le_0_l 1) H1) as [Hok _]; [lia|].
      destruct (Hok (quote_low _ Hq2)) as (s2 & -> & H2). cbn [lbind].
      destruct (get_cons _ _ _ _ _ H2) as (s3 & -> & H3). cbn [pred] in H3. rewrite (quote_cases _ Hq2). exists s3. eauto. }
    destruct Hstep as (s3 & Estep & p3 & H3).
    destruct (IH n ltac:(lia) w3 q2 (acc ++ body) s3 p3 Hq2 H3 ltac:(lia) ltac:(lia)) as [(x & ps & lone & r & -> & Eq & Hps & Hl & He)|[-> | Ht]].
    + left. exists (mk_piece q body ws), (x :: ps), lone, r. cbn [p_body p_quote p_space].
      split; [|split; [reflexivity|split; [constructor; auto|split; [exact Hl|exact He]]]].
      unfold str_rest. cbn [map concat]. change (written_piece x) with ((p_quote x :: p_body x ++ [p_quote x]) ++ p_space x). rewrite Eq. cbn [app]. rewrite <- !app_assoc. reflexivity.
    + left. exists (mk_piece q body ws), [], [q2], []. repeat split; auto. right. eauto.
    + right; right. rewrite Estep. exact Ht.
Qed.

(** which operator a text starts with *)
Definition next (k : tk) : list ascii :=
  match k with
  | bitwise_and_k => ["&"] | bitwise_or_k => ["|"] | not_k => ["="] | assign_k => ["="] | subtract_k => [">"]
  | greater_k => [">"; "="] | less_k => ["<"; "="] | less_equal_k => ["="] | _ => []
  end%char.
Lemma next_spec k k' u : operator k' = true -> written k' = written k ++ u -> u <> [] -> operator k = true -> exists d u', u = d :: u' /\ In d (next k).
Proof.
  intros Ho E Hu Ho2. destruct u as [|d u]; [congruence|]. exists d, u. split; [reflexivity|].
  destruct k; try discriminate Ho2; destruct k'; try discriminate Ho; cbn in E; try discriminate E;
    injection E; intros; subst; cbn; auto.
Qed.
Lemma ends_op k r : operator k = true -> (forall d, In d (next k) -> starts d r = false) ->
  (k = divide_k -> starts "/" r = false /\ starts "*" r = false) -> ends_before (Op k) r.
Proof.
  intros Ho Hn Hd. split.
  - intros k' u Ho' E Hu (r' & ->). destruct (next_spec k k' u Ho' E Hu Ho) as (d & u' & -> & Hin).
    specialize (Hn d Hin). cbn [app starts] in Hn. rewrite Ascii.eqb_refl in Hn. discriminate.
  - intros [-> (c & r' & -> & Hc)]. destruct (Hd eq_refl) as [H1 H2]. cbn [starts] in *.
    destruct Hc as [-> | ->]; rewrite Ascii.eqb_refl in *; discriminate.
Qed.
Lemma op_found c w : simple_index c <> 0%nat -> (c = "/"%char -> starts "/" w = false /\ starts "*" w = false) ->
  exists k r, c :: w = written k ++ r /\ operator k = true /\ ends_before (Op k) r.
Proof.
  intros Hi Hs.
  assert (Hop : forall k r, operator k = true -> c :: w = written k ++ r -> (forall d, In d (next k) -> starts d r = false) ->
      (k = divide_k -> starts "/" r = false /\ starts "*" r = false) ->
      exists k r, c :: w = written k ++ r /\ operator k = true /\ ends_before (Op k) r).
  { intros k r Ho E Hn Hd. exists k, r. split; [exact E|]. split; [exact Ho|]. apply ends_op; assumption. }
  Ltac opk Hop k r := apply (Hop k r); [reflexivity|reflexivity| |discriminate];
    let d := fresh "d" in let H := fresh in intros d H; cbn [next In] in H; repeat (destruct H as [<- |H]; [assumption|]); destruct H.
  Ltac second Hop w d k k0 := let E := fresh in let r := fresh "r" in destruct (starts d w) eqn:E;
    [apply starts_true in E as [r ->]; opk Hop k r|opk Hop k0 w].
  destruct (Ascii.eqb_spec c "&") as [-> | N1]; [second Hop w "&"%char and_k bitwise_and_k|].
  destruct (Ascii.eqb_spec c "|") as [-> | N2]; [second Hop w "|"%char or_k bitwise_or_k|].
  destruct (Ascii.eqb_spec c "!") as [-> | N3]; [second Hop w "="%char not_equal_k not_k|].
  destruct (Ascii.eqb_spec c "=") as [-> | N4]; [second Hop w "="%char equal_k assign_k|].
  destruct (Ascii.eqb_spec c "-") as [-> | N5]; [second Hop w ">"%char to_k subtract_k|].
  destruct (Ascii.eqb_spec c ">") as [-> | N6].
  { destruct (starts ">" w) eqn:E; [apply starts_true in E as [r ->]; opk Hop bitwise_rshift_k r|]. second Hop w "="%char greater_equal_k greater_k. }
  destruct (Ascii.eqb_spec c "<") as [-> | N7].
  { destruct (starts "<" w) eqn:E; [apply starts_true in E as [r ->]; opk Hop bitwise_lshift_k r|].
    destruct (starts "=" w) eqn:E'; [|opk Hop less_k w]. apply starts_true in E' as [r ->]. second Hop r "="%char is_k less_equal_k. }
  destruct (Ascii.eqb_spec c "/") as [-> | N8].
  { apply (Hop divide_k w); [reflexivity|reflexivity|intros d []|intros _; apply Hs; reflexivity]. }
  apply (Hop (name_at (simple_index c)) w).
  all: clear Hop Hs; revert Hi N1 N2 N3 N4 N5 N6 N7 N8; destruct c as [b0 b1 b2 b3 b4 b5 b6 b7];
    destruct b0, b1, b2, b3, b4, b5, b6, b7; intros; try congruence; try (exfalso; apply Hi; reflexivity); try reflexivity;
    try discriminate; try (match goal with H : In _ _ |- _ => destruct H end).
Qed.

Definition found (c : ascii) (w : list ascii) : Prop :=
  exists x r, c :: w = spelled x ++ r /\ well_formed x /\ ends_before x r.
Theorem token_or_refused c w s p :
  at_ s 0 w p -> (List.length (c :: w) < fuel)%nat -> space c = false -> found c w \/ parse c s = LThrow \/ (parse c s = LUndef /\ high c = true).
Proof.
  intros Hs Hf Hsp. destruct (high c) eqn:Hh.
  { right; right. split; [|reflexivity]. unfold parse_token. rewrite no_comment by (intros ->; discriminate). cbn [lbind]. rewrite high_number by exact Hh. reflexivity. }
  destruct (word_start c) eqn:Hw.
  { left. destruct (span word_char w) as (a & b & -> & Ha & Hb). exists (Word (c :: a)), b. repeat split; auto. exists c, a. auto. }
  destruct (digit c) eqn:Hd.
  { left. assert (Hdec : (c = "0"%char /\ exists x d r', w = x :: d :: r' /\ (x = "x"%char \/ x = "X"%char) /\ hexit d = true) \/
       ~ (c = "0"%char /\ exists x d r', w = x :: d :: r' /\ (x = "x"%char \/ x = "X"%char) /\ hexit d = true)).
    { destruct (Ascii.eqb_spec c "0") as [-> | N]; [|right; tauto].
      destruct w as [|x [|d w]]; [right; intros (_ & x' & d' & r & H & _); discriminate..|].
      destruct (ex x) eqn:Ex; [|right; intros (_ & x' & d' & r & [= <- <- <-] & Hx & _); apply ex_cases in Hx; congruence].
      destruct (hexit d) eqn:Ed; [|right; intros (_ & x' & d' & r & [= <- <- <-] & _ & Hx); congruence].
      left. split; [reflexivity|]. exists x, d, w. apply ex_cases in Ex. auto. }
    destruct Hdec as [(-> & x & d & r & -> & Hx & Hhd)|Hdec].
    - destruct (span hexit (d :: r)) as (a & b & E & Ha & Hb). exists (Hex x a), b. rewrite E. repeat split; auto.
      intros ->. cbn in E. subst b. cbn [not_first] in Hb. congruence.
    - destruct (span dec_char w) as (a & b & -> & Ha & Hb). exists (Dec (c :: a)), b. repeat split; auto; [exists c, a; auto|].
      intros [[= -> ->] H]. apply Hdec. split; [reflexivity|exact H]. }
  destruct (quote c) eqn:Hq.
  { rewrite (quote_parse _ _ Hq). destruct fuel as [|f] eqn:Ef; [cbn in Hf; lia|]. rewrite <- Ef in *.
    destruct (string_found fuel w c [] s p Hq Hs) as [(x & ps & lone & r & -> & Eq & Hps & Hl & He)|[-> | Ht]]; [cbn in Hf; lia|lia|..].
    - left. exists (Str (x :: ps) lone), r. split; [|split; [split; [exact Hps|]|exact He]].
      + unfold str_rest. cbn [spelled map concat]. change (written_piece x) with ((p_quote x :: p_body x ++ [p_quote x]) ++ p_space x). rewrite Eq. cbn [app]. rewrite <- !app_assoc. reflexivity.
      + destruct Hl as [-> |Hl]; [left; split; [reflexivity|discriminate]|right; exact Hl].
    - left. exists (Str [] [c]), []. split; [reflexivity|]. split; [split; [constructor|right; eauto]|reflexivity].
    - right; left. rewrite Ht. reflexivity. }
  destruct (Nat.eq_dec (simple_index c) 0) as [Hi|Hi].
  { right; left. assert (Hc : c <> "/"%char) by (intros ->; discriminate Hi).
    rewrite op_parse by (auto using no_comment). rewrite compound_none.
    - unfold lor. cbn [lbind]. unfold is_simple. rewrite Hi. reflexivity.
    - clear - Hi. revert Hi. destruct c as [b0 b1 b2 b3 b4 b5 b6 b7]. destruct b0, b1, b2, b3, b4, b5, b6, b7; intros; try reflexivity; discriminate. }
  destruct (Ascii.eqb_spec c "/") as [-> | Nc].
  - destruct (starts "/" w) eqn:E1; [apply starts_true in E1 as [w' ->]|destruct (starts "*" w) eqn:E2; [apply starts_true in E2 as [w' ->]|]].
    + left. destruct (span (fun c => negb (line_end c)) w') as (a & b & -> & Ha & Hb).
      assert (Hx : exists le r, b = le ++ r /\ (le = [] \/ le = [LF] \/ le = [CR] \/ le = [CR; LF]) /\ ends_before (Trail a le) r).
      { destruct b as [|d b]; [exists [], []; repeat split; auto|]. cbn [not_first] in Hb. apply negb_false_iff, orb_true_iff in Hb as [Hb|Hb];
          apply Ascii.eqb_eq in Hb; subst d.
        - exists [LF], b. repeat split; auto. cbn. discriminate.
        - destruct b as [|d b]; [exists [CR], []; repeat split; auto|]. destruct (Ascii.eqb_spec d LF) as [-> | N].
          + exists [CR; LF], b. repeat split; auto. cbn. discriminate.
          + exists [CR], (d :: b). repeat split; auto. cbn [ends_before]. intros _. cbn [not_first]. apply Ascii.eqb_neq. congruence. }
      destruct Hx as (le & r & -> & Hle & He). exists (Trail a le), r. split; [cbn [spelled app]; rewrite <- app_assoc; reflexivity|].
      split; [split; [exact Ha|exact Hle]|exact He].
    + destruct (find_close w') as [Hn|(a & b & -> & Ha)].
      * right; left. apply (lead_unclosed w' s p Hn Hs). cbn in Hf; lia.
      * left. exists (Lead a), b. split; [cbn [spelled app]; rewrite <- app_assoc; reflexivity|]. split; [exact Ha|exact I].
    + left. destruct (op_found "/" w Hi) as (k & r & E & Ho & He); [auto|]. exists (Op k), r. repeat split; auto; apply He.
  - left. destruct (op_found c w Hi) as (k & r & E & Ho & He); [congruence|]. exists (Op k), r. repeat split; auto; apply He.
Qed.

(** *** a lexeme is read as itself *)
Theorem token_answers x r c w s p :
  well_formed x -> ends_before x r -> spelled x ++ r = c :: w -> at_ s 0 w (move 1 p) -> (List.length (c :: w) < fuel)%nat ->
  answers x r p (parse c s).
Proof.
  intros Hw He E Hs Hf. destruct x as [w0|x ds|w0|k|ps lone|body le|body].
  - destruct Hw as (c0 & w' & -> & H1 & H2). cbn in E. injection E as -> <-. apply word_answers; auto.
    cbn in Hf. rewrite app_length in Hf. lia.
  - cbn [spelled app] in E. injection E as <- <-. apply hex_answers; auto. cbn in Hf. rewrite app_length in Hf. lia.
  - destruct Hw as (c0 & w' & -> & H1 & H2). cbn in E. injection E as -> <-. apply dec_answers; auto.
    cbn in Hf. rewrite app_length in Hf. lia.
  - apply (op_answers k r c w); auto.
  - apply (string_answers ps lone r c w); auto.
  - cbn [spelled app] in E. injection E as <- <-. rewrite <- app_assoc in *. apply trail_answers; auto. cbn in Hf. rewrite app_length in Hf. lia.
  - cbn [spelled app] in E. injection E as <- <-. rewrite <- app_assoc in *. apply lead_answers; auto. cbn in Hf. rewrite app_length in Hf. lia.
Qed.
End Token.
