(** The lexer recognises exactly the tokens of Xml_Spec. *)
From Verif Require Import Prelude Xml_Model Xml_Spec.
Local Open Scope nat_scope.
Ltac Zify.zify_post_hook ::= idtac.

Ltac chars := unfold plain, quote in *; unfold lt, gt, slash, amp, semi, dash, bang, quest, equal_sign in *.

Lemma absent_nil p q : absent [p; q] [].
Proof. intros [|a x] b E; discriminate. Qed.
Lemma absent_cons p q c u : absent [p; q] (c :: u) <-> absent [p; q] u /\ ~ (c = p /\ begins (eq q) u).
Proof.
  split.
  - intros H. split.
    + intros a b E. apply (H (c :: a) b). rewrite E. reflexivity.
    + intros [-> B]. destruct u as [|d u]; [contradiction|]. cbn in B. subst d. apply (H [] u). reflexivity.
  - intros [H1 H2] [|x a] b E.
    + cbn in E. injection E as -> ->. apply H2. split; [reflexivity|]. cbn. reflexivity.
    + injection E as -> E. exact (H1 a b E).
Qed.

Lemma name_start_charP c : reflect (name_start c) (name_start_char c).
Proof.
  apply iff_reflect. unfold name_start, name_start_char. split; intros H; lia.
Qed.
Lemma name_charP c : reflect (name_byte c) (name_char c).
Proof.
  apply iff_reflect. unfold name_byte, name_start, name_char, name_start_char. split; intros H; lia.
Qed.
Lemma is_spaceP c : reflect (space c) (is_space c).
Proof. apply iff_reflect. unfold space, is_space. split; intros H; lia. Qed.

(** *** The loops *)
Lemma pi_loop_found b r n : absent [quest; gt] b ->
  pi_loop (b ++ quest :: gt :: r) n = LTok KPI 0 (n + length b + 2) (n + length b + 2).
Proof.
  revert n. induction b as [|c b IH]; intros n H.
  - cbn. f_equal; lia.
  - apply absent_cons in H. destruct H as [H1 H2]. cbn [app pi_loop].
    replace ((c =? 63)%N && _) with false.
    + rewrite IH by exact H1. cbn [length]. f_equal; lia.
    + symmetry. apply andb_false_iff. destruct (N.eqb_spec c 63) as [-> | N]; [right|left; reflexivity].
      destruct b as [|d b]; [reflexivity|]. cbn [app]. apply N.eqb_neq. intros ->. apply H2. split; reflexivity.
Qed.
Lemma pi_loop_none u n : absent [quest; gt] u -> pi_loop u n = LExn.
Proof.
  revert n. induction u as [|c u IH]; intros n H; [reflexivity|]. apply absent_cons in H. destruct H as [H1 H2].
  cbn [pi_loop]. replace ((c =? 63)%N && _) with false; [apply IH, H1|].
  symmetry. apply andb_false_iff. destruct (N.eqb_spec c 63) as [-> | N]; [right|left; reflexivity].
  destruct u as [|d u]; [reflexivity|]. apply N.eqb_neq. intros ->. apply H2. split; reflexivity.
Qed.
(** every text either has the pair or not; the first occurrence *)
Lemma first_pair p q u : absent [p; q] u \/ exists b r, u = b ++ p :: q :: r /\ absent [p; q] (b ++ [p]).
Proof.
  induction u as [|c u IH]; [left; apply absent_nil|].
  destruct (N.eq_dec c p) as [-> | N].
  - destruct u as [|d u].
    + left. apply absent_cons. split; [apply absent_nil|]. intros [_ []].
    + destruct (N.eq_dec d q) as [-> | N].
      * right. exists [], u. split; [reflexivity|]. intros [|x [|y a]] b E; discriminate.
      * destruct IH as [H | (b & r & E & H)].
        -- left. apply absent_cons. split; [exact H|]. intros [_ B]. cbn in B. congruence.
        -- right. exists (p :: b), r. split; [rewrite E; reflexivity|]. cbn [app]. apply absent_cons.
           split; [exact H|]. intros [_ B]. destruct b as [|e b]; cbn in B, E; injection E as E1 E2; congruence.
  - destruct IH as [H | (b & r & E & H)].
    + left. apply absent_cons. split; [exact H|]. intros [? _]. congruence.
    + right. exists (c :: b), r. split; [rewrite E; reflexivity|]. cbn [app]. apply absent_cons.
      split; [exact H|]. intros [? _]. congruence.
Qed.
Lemma absent_app_l p q a b : absent [p; q] (a ++ b) -> absent [p; q] a.
Proof. intros H x y E. apply (H x (y ++ b)). rewrite E. rewrite <- !app_assoc. reflexivity. Qed.

Lemma comment_loop_found b r n : absent [dash; dash] (b ++ [dash]) ->
  comment_loop (b ++ dash :: dash :: r) n =
  match r with e :: _ => if (e =? 62)%N then LTok KComment 0 (n + length b + 3) (n + length b + 3) else LExn
             | [] => LExn end.
Proof.
  revert n. induction b as [|c b IH]; intros n H.
  - cbn [app comment_loop length]. change ((dash =? 45)%N && (dash =? 45)%N) with true.
    cbv iota. destruct r as [|e r]; [reflexivity|]. destruct (e =? 62)%N; [f_equal; lia|reflexivity].
  - cbn [app] in *. apply absent_cons in H. destruct H as [H1 H2]. cbn [comment_loop].
    replace ((c =? 45)%N && _) with false.
    + rewrite IH by exact H1. destruct r as [|e r]; [reflexivity|]. destruct (e =? 62)%N; [|reflexivity].
      cbn [length]. f_equal; lia.
    + symmetry. apply andb_false_iff. destruct (N.eqb_spec c 45) as [-> | N]; [right|left; reflexivity].
      destruct b as [|d b]; [exfalso; apply H2; split; reflexivity|].
      cbn [app] in *. apply N.eqb_neq. intros ->. apply H2. split; reflexivity.
Qed.
Lemma comment_loop_none u n : absent [dash; dash] u -> comment_loop u n = LExn.
Proof.
  revert n. induction u as [|c u IH]; intros n H; [reflexivity|]. apply absent_cons in H. destruct H as [H1 H2].
  cbn [comment_loop]. replace ((c =? 45)%N && _) with false; [apply IH, H1|].
  symmetry. apply andb_false_iff. destruct (N.eqb_spec c 45) as [-> | N]; [right|left; reflexivity].
  destruct u as [|d u]; [reflexivity|]. apply N.eqb_neq. intros ->. apply H2. split; reflexivity.
Qed.

Lemma name_length_spec n r : Forall name_byte n -> ~ begins name_byte r -> name_length (n ++ r) = length n.
Proof.
  induction n as [|c n IH]; intros H1 H2.
  - cbn [app]. destruct r as [|c r]; [reflexivity|]. cbn. destruct (name_charP c); [contradiction|reflexivity].
  - inversion H1; subst. cbn [app name_length length]. destruct (name_charP c); [|contradiction].
    f_equal. apply IH; assumption.
Qed.
Lemma name_length_split u : exists n r, u = n ++ r /\ Forall name_byte n /\ ~ begins name_byte r.
Proof.
  induction u as [|c u (n & r & E & H1 & H2)]; [exists [], []; repeat split; auto|].
  destruct (name_charP c) as [Y | N].
  - exists (c :: n), r. rewrite E. repeat split; auto.
  - exists [], (c :: u). repeat split; auto.
Qed.
Lemma att_loop_found q v r n : Forall plain v -> ~ In q v -> plain q ->
  att_loop q (v ++ q :: r) n = LTok KAttValue 1 (n + length v) (n + length v + 1).
Proof.
  intros H1 H2 [Q1 Q2]. revert n. induction v as [|c v IH]; intros n.
  - cbn [app att_loop]. destruct (N.eqb_spec q 60); [contradiction|]. destruct (N.eqb_spec q 38); [contradiction|].
    rewrite N.eqb_refl. cbn [orb length]. f_equal; lia.
  - inversion H1 as [|? ? [C1 C2] V]; subst. cbn [app att_loop]. cbn [In] in H2.
    destruct (N.eqb_spec c 60); [contradiction|]. destruct (N.eqb_spec c 38); [contradiction|].
    destruct (N.eqb_spec c q) as [-> | ]; [tauto|]. cbn [orb]. rewrite IH by tauto. cbn [length]. f_equal; lia.
Qed.
Lemma att_loop_open q v n : Forall plain v -> ~ In q v ->
  att_loop q v n = LTok KAttValue 1 (n + length v) (n + length v + 1).
Proof.
  intros H1 H2. revert n. induction v as [|c v IH]; intros n.
  - cbn [att_loop length]. f_equal; lia.
  - inversion H1 as [|? ? [C1 C2] V]; subst. cbn [att_loop]. cbn [In] in H2.
    destruct (N.eqb_spec c 60); [contradiction|]. destruct (N.eqb_spec c 38); [contradiction|].
    destruct (N.eqb_spec c q) as [-> | ]; [tauto|]. cbn [orb]. rewrite IH by tauto. cbn [length]. f_equal; lia.
Qed.
Lemma att_loop_bad q v r n : Forall plain v -> ~ In q v -> ~ begins plain r -> r <> [] -> att_loop q (v ++ r) n = LExn.
Proof.
  intros H1 H2 H3 H4. revert n. induction v as [|c v IH]; intros n.
  - cbn [app]. destruct r as [|c r]; [contradiction|]. cbn [att_loop]. cbn [begins] in H3. chars.
    destruct (N.eqb_spec c 60); [reflexivity|]. destruct (N.eqb_spec c 38); [reflexivity|]. tauto.
  - inversion H1 as [|? ? [C1 C2] V]; subst. cbn [app att_loop]. cbn [In] in H2.
    destruct (N.eqb_spec c 60); [contradiction|]. destruct (N.eqb_spec c 38); [contradiction|].
    destruct (N.eqb_spec c q) as [-> | ]; [tauto|]. cbn [orb]. apply IH; tauto.
Qed.
Lemma att_split q u : plain q -> exists v, Forall plain v /\ ~ In q v /\
  (u = v \/ (exists r, u = v ++ q :: r) \/ exists r, u = v ++ r /\ ~ begins plain r /\ r <> []).
Proof.
  intros [Q1 Q2]. induction u as [|c u (v & H1 & H2 & H3)]; [exists []; repeat split; auto|].
  destruct (N.eq_dec c q) as [-> | N].
  - exists []. repeat split; auto. right. left. exists u. reflexivity.
  - destruct (N.eq_dec c lt) as [-> | N1]; [|destruct (N.eq_dec c amp) as [-> | N2]].
    + exists []. repeat split; auto. right. right. exists (lt :: u). repeat split; [|discriminate]. cbn. unfold plain. tauto.
    + exists []. repeat split; auto. right. right. exists (amp :: u). repeat split; [|discriminate]. cbn. unfold plain. tauto.
    + exists (c :: v). split; [constructor; [split; assumption|exact H1]|].
      split; [cbn; intros [E|E]; [congruence|contradiction]|].
      destruct H3 as [-> | [(r & ->) | (r & -> & R)]]; [left; reflexivity|right; left|right; right].
      * exists r. reflexivity.
      * exists r. split; [reflexivity|exact R].
Qed.
Lemma ref_length_found b r : ~ In semi b -> ref_length (b ++ semi :: r) = length b + 1.
Proof.
  induction b as [|c b IH]; intros H; [reflexivity|]. cbn [app ref_length length]. cbn [In] in H.
  destruct (N.eqb_spec c 59) as [-> | ]; [exfalso; apply H; left; reflexivity|]. rewrite IH by tauto. lia.
Qed.
Lemma ref_length_open b : ~ In semi b -> ref_length b = length b.
Proof.
  induction b as [|c b IH]; intros H; [reflexivity|]. cbn [ref_length length]. cbn [In] in H.
  destruct (N.eqb_spec c 59) as [-> | ]; [exfalso; apply H; left; reflexivity|]. rewrite IH by tauto. lia.
Qed.
Lemma ref_split u : exists b, ~ In semi b /\ (u = b \/ exists r, u = b ++ semi :: r).
Proof.
  induction u as [|c u (b & H1 & H2)]; [exists []; cbn; auto|].
  destruct (N.eq_dec c semi) as [-> | N]; [exists []; split; [auto|right; exists u; reflexivity]|].
  exists (c :: b). split; [cbn; tauto|]. destruct H2 as [-> | (r & ->)]; [left; reflexivity|right; exists r; reflexivity].
Qed.
Lemma char_length_spec c r : Forall plain c -> ~ begins plain r -> char_length (c ++ r) = length c.
Proof.
  intros H1 H2. induction c as [|x c IH].
  - cbn [app length]. destruct r as [|x r]; [reflexivity|]. cbn in *. chars.
    destruct (N.eqb_spec x 60); [reflexivity|]. destruct (N.eqb_spec x 38); [reflexivity|tauto].
  - inversion H1 as [|? ? [C1 C2] V]; subst. cbn [app char_length length].
    destruct (N.eqb_spec x 60); [contradiction|]. destruct (N.eqb_spec x 38); [contradiction|]. cbn [orb].
    f_equal. apply IH, V.
Qed.
Lemma char_split u : exists c r, u = c ++ r /\ Forall plain c /\ ~ begins plain r.
Proof.
  induction u as [|x u (c & r & E & H1 & H2)]; [exists [], []; repeat split; auto|].
  destruct (N.eq_dec x lt) as [-> | N1]; [|destruct (N.eq_dec x amp) as [-> | N2]].
  - exists [], (lt :: u). repeat split; auto. cbn. unfold plain. tauto.
  - exists [], (amp :: u). repeat split; auto. cbn. unfold plain. tauto.
  - exists (x :: c), r. rewrite E. repeat split; auto. constructor; [split; assumption|exact H1].
Qed.
Lemma white_split u : exists w r, u = w ++ r /\ spaces w /\ ~ begins space r /\ white_length u = length w.
Proof.
  induction u as [|x u (c & r & E & H1 & H2 & H3)]; [exists [], []; split; [reflexivity|split; [constructor|split; [auto|reflexivity]]]|].
  cbn [white_length]. destruct (is_spaceP x) as [Y | N].
  - exists (x :: c), r. split; [rewrite E; reflexivity|]. split; [constructor; assumption|].
    split; [exact H2|]. rewrite H3. reflexivity.
  - exists [], (x :: u). split; [reflexivity|]. split; [constructor|]. split; [exact N|reflexivity].
Qed.
Lemma white_length_spec w r : spaces w -> ~ begins space r -> white_length (w ++ r) = length w.
Proof.
  intros H1 H2. induction w as [|x w IH].
  - cbn [app length]. destruct r as [|x r]; [reflexivity|]. cbn in *. destruct (is_spaceP x); [contradiction|reflexivity].
  - inversion H1; subst. cbn [app white_length length]. destruct (is_spaceP x); [|contradiction]. f_equal. auto.
Qed.

(** *** The tokens *)
Lemma no_lt c u : c <> lt ->
  is_processing_instruction (c :: u) = LNo /\ is_comment (c :: u) = LNo /\ is_tag_open (c :: u) = LNo.
Proof.
  intros N. unfold is_processing_instruction, is_comment, is_tag_open.
  destruct (N.eqb_spec c 60); [contradiction|]. cbn [andb].
  destruct u as [|d [|e [|f u]]]; repeat split; reflexivity.
Qed.
Lemma no_gt c u : c <> gt -> (c = slash -> ~ begins (eq gt) u) -> is_tag_close (c :: u) = LNo.
Proof.
  intros N H. unfold is_tag_close. destruct (N.eqb_spec c 62); [contradiction|].
  destruct (N.eqb_spec c 47) as [-> | ]; [|reflexivity]. specialize (H eq_refl).
  destruct u as [|d u]; [reflexivity|]. cbn [andb]. destruct (N.eqb_spec d 62) as [-> | ]; [|reflexivity].
  exfalso. apply H. reflexivity.
Qed.
Lemma no_name c u : ~ name_start c -> is_name (c :: u) = LNo.
Proof. intros N. unfold is_name. destruct (name_start_charP c); [contradiction|reflexivity]. Qed.
Lemma no_equals c u : c <> equal_sign -> is_equals (c :: u) = LNo.
Proof. intros N. unfold is_equals. destruct (N.eqb_spec c 61); [contradiction|reflexivity]. Qed.
Lemma no_value c u : ~ quote c -> is_att_value (c :: u) = LNo.
Proof.
  intros N. unfold is_att_value. chars.
  destruct (N.eqb_spec c 34); [tauto|]. destruct (N.eqb_spec c 39); [tauto|]. reflexivity.
Qed.
Lemma yes_value c u : quote c -> is_att_value (c :: u) = att_loop c u 1.
Proof. intros [-> | ->]; reflexivity. Qed.
Lemma no_reference c u : c <> amp -> is_reference (c :: u) = LNo.
Proof. intros N. unfold is_reference. destruct (N.eqb_spec c 38); [contradiction|reflexivity]. Qed.
Lemma quote_plain c : quote c -> plain c.
Proof. intros [-> | ->]; chars; lia. Qed.
Lemma open_lt r : ~ begins (eq quest) r -> (forall r', r <> bang :: dash :: dash :: r') ->
  is_processing_instruction (lt :: r) = LNo /\ is_comment (lt :: r) = LNo.
Proof.
  intros H1 H2. unfold is_processing_instruction, is_comment. change (lt =? 60)%N with true. cbn [andb].
  split.
  - destruct r as [|d r]; [reflexivity|]. destruct (N.eqb_spec d 63) as [-> | ]; [exfalso; apply H1; reflexivity|reflexivity].
  - destruct r as [|b [|c [|d r]]]; try reflexivity.
    destruct (N.eqb_spec b 33) as [-> | ]; [|reflexivity]. destruct (N.eqb_spec c 45) as [-> | ]; [|reflexivity].
    destruct (N.eqb_spec d 45) as [-> | ]; [|reflexivity]. exfalso. apply (H2 r). reflexivity.
Qed.

Lemma token_parses np u k f l n : Token np u k f l n -> parse_token np u = LTok k f l n.
Proof.
  intros H. destruct H as [b r A|b r A|r|r A B C|r|r|n r -> A B|r ->|q v r -> Q V I|q v -> Q V I|b r I|b I|c r A B C D E F].
  - unfold parse_token. cbn [is_processing_instruction]. change ((lt =? 60)%N && (quest =? 63)%N) with true. cbv iota.
    rewrite pi_loop_found by exact A. cbn [or_else]. f_equal; lia.
  - unfold parse_token. cbn [is_processing_instruction]. change ((lt =? 60)%N && (bang =? 63)%N) with false. cbv iota.
    cbn [or_else is_comment]. change ((lt =? 60)%N && (bang =? 33)%N && (dash =? 45)%N && (dash =? 45)%N) with true. cbv iota.
    rewrite comment_loop_found by exact A. change (gt =? 62)%N with true. cbv iota. cbn [or_else]. f_equal; lia.
  - unfold parse_token. destruct r as [|? [|? ?]]; reflexivity.
  - unfold parse_token. destruct (open_lt r A C) as [-> ->]. cbn [or_else is_tag_open]. change (lt =? 60)%N with true. cbv iota.
    destruct r as [|d r]; [reflexivity|]. destruct (N.eqb_spec d 47) as [-> | ]; [exfalso; apply B; reflexivity|reflexivity].
  - unfold parse_token. destruct (no_lt gt r ltac:(discriminate)) as (-> & -> & ->). reflexivity.
  - unfold parse_token. destruct (no_lt slash (gt :: r) ltac:(discriminate)) as (-> & -> & ->). reflexivity.
  - destruct n as [|c n]; [contradiction|]. destruct A as [A1 A2]. cbn [app]. unfold parse_token.
    assert (Hn : name_start c) by exact A1. unfold name_start in Hn.
    destruct (no_lt c (n ++ r)) as (-> & -> & ->); [unfold lt; lia|].
    rewrite no_gt by (unfold gt, slash; lia). cbn [or_else].
    unfold is_name. destruct (name_start_charP c); [|contradiction]. change (c :: n ++ r) with ((c :: n) ++ r).
    rewrite name_length_spec by assumption. reflexivity.
  - unfold parse_token. destruct (no_lt equal_sign r ltac:(discriminate)) as (-> & -> & ->). reflexivity.
  - unfold parse_token. assert (q <> lt /\ q <> gt /\ q <> slash /\ q <> equal_sign /\ ~ name_start q) as (L1 & L2 & L3 & L4 & L5)
      by (destruct Q as [-> | ->]; unfold name_start; chars; lia).
    destruct (no_lt q (v ++ q :: r) L1) as (-> & -> & ->). rewrite no_gt by tauto. rewrite no_name, no_equals by assumption.
    rewrite yes_value by exact Q. rewrite att_loop_found; [|assumption..|apply quote_plain, Q]. cbn [or_else]. f_equal; lia.
  - unfold parse_token. assert (q <> lt /\ q <> gt /\ q <> slash /\ q <> equal_sign /\ ~ name_start q) as (L1 & L2 & L3 & L4 & L5)
      by (destruct Q as [-> | ->]; unfold name_start; chars; lia).
    destruct (no_lt q v L1) as (-> & -> & ->). rewrite no_gt by tauto. rewrite no_name, no_equals by assumption.
    rewrite yes_value by exact Q. rewrite att_loop_open by assumption. cbn [or_else]. f_equal; lia.
  - unfold parse_token. destruct (no_lt amp (b ++ semi :: r) ltac:(discriminate)) as (-> & -> & ->).
    rewrite no_gt by (intros; discriminate). cbn [or_else].
    assert ((if np then or_else (is_name (amp :: b ++ semi :: r)) (or_else (is_equals (amp :: b ++ semi :: r)) (is_att_value (amp :: b ++ semi :: r))) else LNo) = LNo) as ->
      by (destruct np; reflexivity).
    cbn [or_else is_reference]. change (amp =? 38)%N with true. cbv iota zeta. rewrite ref_length_found by exact I. cbn [or_else]. f_equal; lia.
  - unfold parse_token. destruct (no_lt amp b ltac:(discriminate)) as (-> & -> & ->).
    rewrite no_gt by (intros; discriminate). cbn [or_else].
    assert ((if np then or_else (is_name (amp :: b)) (or_else (is_equals (amp :: b)) (is_att_value (amp :: b))) else LNo) = LNo) as ->
      by (destruct np; reflexivity).
    cbn [or_else is_reference]. change (amp =? 38)%N with true. cbv iota zeta. rewrite ref_length_open by exact I. cbn [or_else]. f_equal; lia.
  - destruct c as [|x c]; [contradiction|]. inversion B as [|? ? [X1 X2] Y]; subst. cbn [app]. unfold parse_token.
    destruct (no_lt x (c ++ r) X1) as (-> & -> & ->). rewrite no_gt; [|intros ->; apply D; reflexivity|].
    + cbn [or_else]. rewrite no_reference by exact X2.
      assert ((if np then or_else (is_name (x :: c ++ r)) (or_else (is_equals (x :: c ++ r)) (is_att_value (x :: c ++ r))) else LNo) = LNo) as ->.
      { destruct np; [|reflexivity]. destruct (F eq_refl) as (F1 & F2 & F3). cbn [begins] in F1, F2, F3.
        rewrite no_name by exact F1. rewrite no_equals by congruence. rewrite no_value by exact F3. reflexivity. }
      cbn [or_else]. unfold is_char_data. change (x :: c ++ r) with ((x :: c) ++ r).
      rewrite char_length_spec by assumption. reflexivity.
    + intros ->. destruct c as [|y c].
      * cbn [app]. destruct r as [|y r]; [auto|]. cbn. intros <-. apply C. chars. cbn. lia.
      * cbn. intros <-. exact (E c eq_refl).
Qed.
Lemma no_token_fails np u : NoToken np u -> parse_token np u = LExn.
Proof.
  intros H. destruct H as [b A|b A|b r A B|q v r -> Q V I R1 R2].
  - unfold parse_token. cbn [is_processing_instruction]. change ((lt =? 60)%N && (quest =? 63)%N) with true. cbv iota.
    rewrite pi_loop_none by exact A. reflexivity.
  - unfold parse_token. cbn [is_processing_instruction]. change ((lt =? 60)%N && (bang =? 63)%N) with false. cbv iota.
    cbn [or_else is_comment]. change ((lt =? 60)%N && (bang =? 33)%N && (dash =? 45)%N && (dash =? 45)%N) with true. cbv iota.
    rewrite comment_loop_none by exact A. reflexivity.
  - unfold parse_token. cbn [is_processing_instruction]. change ((lt =? 60)%N && (bang =? 63)%N) with false. cbv iota.
    cbn [or_else is_comment]. change ((lt =? 60)%N && (bang =? 33)%N && (dash =? 45)%N && (dash =? 45)%N) with true. cbv iota.
    rewrite comment_loop_found by exact A. destruct r as [|e r]; [reflexivity|].
    destruct (N.eqb_spec e 62) as [-> | ]; [exfalso; apply B; reflexivity|reflexivity].
  - unfold parse_token. assert (q <> lt /\ q <> gt /\ q <> slash /\ q <> equal_sign /\ ~ name_start q) as (L1 & L2 & L3 & L4 & L5)
      by (destruct Q as [-> | ->]; unfold name_start; chars; lia).
    destruct (no_lt q (v ++ r) L1) as (-> & -> & ->). rewrite no_gt by tauto. rewrite no_name, no_equals by assumption.
    rewrite yes_value by exact Q. rewrite att_loop_bad by assumption. reflexivity.
Qed.

(** at every byte there is a token, or there is none *)
Lemma token_or_not np c u : (exists k f l n, Token np (c :: u) k f l n) \/ NoToken np (c :: u).
Proof.
  destruct (N.eq_dec c lt) as [-> | NL].
  { destruct u as [|d u].
    { left. repeat eexists. apply T_open; cbn; auto. intros r' E; discriminate. }
    destruct (N.eq_dec d quest) as [-> | N1].
    { destruct (first_pair quest gt u) as [A | (b & r & -> & A)].
      - right. apply N_pi, A.
      - left. repeat eexists. apply T_pi. exact (absent_app_l _ _ _ _ A). }
    destruct (N.eq_dec d slash) as [-> | N2]; [left; repeat eexists; apply T_open_slash|].
    assert (D : (exists r, d :: u = bang :: dash :: dash :: r) \/ forall r, d :: u <> bang :: dash :: dash :: r).
    { destruct u as [|e [|f u]]; try (right; intros r E; discriminate).
      destruct (N.eq_dec d bang) as [-> | ]; [|right; intros r E; congruence].
      destruct (N.eq_dec e dash) as [-> | ]; [|right; intros r E; congruence].
      destruct (N.eq_dec f dash) as [-> | ]; [|right; intros r E; congruence].
      left. exists u. reflexivity. }
    destruct D as [(r & E) | D].
    - rewrite E. destruct (first_pair dash dash r) as [A | (b & r' & -> & A)].
      + right. apply N_comment, A.
      + destruct r' as [|g r']; [right; apply N_comment_dashes; [exact A|cbn; auto]|].
        destruct (N.eq_dec g gt) as [-> | N3]; [left; repeat eexists; apply T_comment, A|].
        right. apply N_comment_dashes; [exact A|]. cbn. congruence.
    - left. repeat eexists. apply T_open; [| |exact D]; cbn; congruence. }
  destruct (N.eq_dec c gt) as [-> | NG]; [left; repeat eexists; apply T_close|].
  assert (D : (exists r, c :: u = slash :: gt :: r) \/ forall r, c :: u <> slash :: gt :: r).
  { destruct u as [|d u]; [right; intros r E; discriminate|].
    destruct (N.eq_dec c slash) as [-> | ]; [|right; intros r E; congruence].
    destruct (N.eq_dec d gt) as [-> | ]; [|right; intros r E; congruence]. left. exists u. reflexivity. }
  destruct D as [(r & E) | D]; [rewrite E; left; repeat eexists; apply T_slash_close|].
  destruct (N.eq_dec c amp) as [-> | NA].
  { destruct (ref_split u) as (b & B & [-> | (r & ->)]); left; repeat eexists;
      [apply T_open_reference, B|apply T_reference, B]. }
  assert (K : np = true /\ (name_start c \/ c = equal_sign \/ quote c) \/
              (np = true -> ~ name_start c /\ c <> equal_sign /\ ~ quote c)).
  { destruct np; [|right; discriminate].
    destruct (name_start_charP c) as [Y|N]; [left; tauto|].
    destruct (N.eq_dec c equal_sign); [left; tauto|].
    destruct (N.eq_dec c 34%N); [left; unfold quote; tauto|].
    destruct (N.eq_dec c 39%N); [left; unfold quote; tauto|].
    right. intros _. unfold quote. tauto. }
  destruct K as [(-> & [Y | [-> | Q]]) | K].
  - destruct (name_length_split (c :: u)) as (n & r & E & H1 & H2). destruct n as [|x n].
    { cbn in E. subst r. exfalso. apply H2. cbn. left. exact Y. }
    pose proof E as E'. injection E' as -> _. left. rewrite E. repeat eexists. apply T_name; auto. split; assumption.
  - left. repeat eexists. apply T_equals. reflexivity.
  - destruct (att_split c u (quote_plain c Q)) as (v & V1 & V2 & [-> | [(r & ->) | (r & -> & R1 & R2)]]).
    + left. repeat eexists. apply T_open_value; auto.
    + left. repeat eexists. apply T_value; auto.
    + right. apply N_value; auto.
  - left. destruct (char_split (c :: u)) as (x & r & E & H1 & H2).
    assert (X : x <> []). { intros ->. cbn in E. subst r. apply H2. cbn. split; assumption. }
    destruct x as [|y x]; [contradiction|]. pose proof E as E'. injection E' as -> Eu. rewrite E.
    repeat eexists. apply T_chars; [exact X|exact H1|exact H2| | |].
    + cbn. congruence.
    + intros r' E2. injection E2 as -> ->. apply (D (r' ++ r)). rewrite Eu. reflexivity.
    + intros Hn. destruct (K Hn) as (K1 & K2 & K3). cbn. repeat split; congruence.
Qed.

Lemma parse_token_iff np c u k f l n : parse_token np (c :: u) = LTok k f l n <-> Token np (c :: u) k f l n.
Proof.
  split; [|apply token_parses]. intros H. destruct (token_or_not np c u) as [(k' & f' & l' & n' & T) | N].
  - rewrite (token_parses _ _ _ _ _ _ T) in H. injection H as <- <- <- <-. exact T.
  - rewrite (no_token_fails _ _ N) in H. discriminate.
Qed.
Lemma parse_token_never_no np c u : parse_token np (c :: u) <> LNo.
Proof.
  destruct (token_or_not np c u) as [(k' & f' & l' & n' & T) | N].
  - rewrite (token_parses _ _ _ _ _ _ T). discriminate.
  - rewrite (no_token_fails _ _ N). discriminate.
Qed.
Lemma parse_token_exn_iff np c u : parse_token np (c :: u) = LExn <-> NoToken np (c :: u).
Proof.
  split; [|apply no_token_fails]. intros H. destruct (token_or_not np c u) as [(k' & f' & l' & n' & T) | N]; [|exact N].
  rewrite (token_parses _ _ _ _ _ _ T) in H. discriminate.
Qed.
