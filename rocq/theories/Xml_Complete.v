(** Every well-formed sequence of items is accepted, with the result Xml_Spec gives for it. *)
From Verif Require Import Prelude Entity_Model Xml_Model Xml_Spec Xml_Lex Xml_Attr Xml_Sound.
Local Open Scope nat_scope.
Ltac Zify.zify_post_hook ::= idtac.

(** *** Forward rules for the token operations *)
Lemma is_token_yes b k s p sk np t l' : At b (p_lex s) p sk np ->
  get_token b (Lx p sk np None) = GTok t l' -> t_kind t = k -> is_token b k s = Ok (Some t) (with_lex l' s).
Proof.
  intros A G K. unfold is_token, next_token. rewrite (get_at _ _ _ _ _ A), G. cbn [bind].
  destruct (kind_eqbP (t_kind t) k); [reflexivity|contradiction].
Qed.
Lemma is_token_no b k s p sk np t l' : At b (p_lex s) p sk np ->
  get_token b (Lx p sk np None) = GTok t l' -> t_kind t <> k -> is_token b k s = Ok None (with_lex (putback t l') s).
Proof.
  intros A G K. unfold is_token, next_token. rewrite (get_at _ _ _ _ _ A), G. cbn [bind].
  destruct (kind_eqbP (t_kind t) k); [contradiction|reflexivity].
Qed.
Lemma require_yes b k s p sk np t l' : At b (p_lex s) p sk np ->
  get_token b (Lx p sk np None) = GTok t l' -> t_kind t = k -> require_token b k s = Ok t (with_lex l' s).
Proof.
  intros A G K. unfold require_token, next_token. rewrite (get_at _ _ _ _ _ A), G. cbn [bind].
  destruct (kind_eqbP (t_kind t) k); [reflexivity|contradiction].
Qed.
Lemma at_eq b l p sk np : l = Lx p sk np None -> At b l p sk np.
Proof. intros ->. left. reflexivity. Qed.

(** the token at [w ++ u] *)
Lemma get_tok b p sk np w u k f l n : sits b p (w ++ u) -> Token np u k f l n ->
  spaces w -> (sk = false -> w = []) -> (sk = true -> ~ begins space u) ->
  get_token b (Lx p sk np None) = GTok (Tok k (p + length w + f) (p + length w + l))
          (Lx (p + length w + n) (skip_after k sk) (name_after k np) None).
Proof. intros. eapply reads_get. apply Rd_tok; eassumption. Qed.

Lemma name_not_space c : name_start c -> ~ space c.
Proof. unfold name_start, space. lia. Qed.
Lemma begins_name_space nm r : xname nm -> ~ begins space (nm ++ r).
Proof. unfold xname. destruct nm as [|c n]; [intros []|]. intros (H & _). cbn. apply name_not_space, H. Qed.
Lemma begins_spaces_name w r : spaces w -> ~ begins name_byte r -> ~ begins name_byte (w ++ r).
Proof.
  intros W N. destruct w as [|c w]; [exact N|]. cbn. inversion W; subst. unfold name_byte, name_start. unfold space in *. lia.
Qed.
Lemma spaces_nil_or w : spaces w -> w = [] \/ exists c w', w = c :: w' /\ space c.
Proof. intros W. destruct w as [|c w]; [auto|]. right. inversion W; subst. eauto. Qed.

(** *** Attributes *)
Lemma attr_bytes_no_name ats r : Forall attr_ok ats ->
  match ats with a :: _ => a_before a <> [] | [] => ~ begins name_byte r end -> ~ begins name_byte (flat_map attr_bytes ats ++ r).
Proof.
  intros F B. destruct ats as [|a ats]; [exact B|]. cbn [flat_map]. inversion F as [|? ? Ha ?]; subst.
  destruct Ha as (W & _). unfold attr_bytes. destruct (a_before a) as [|c w]; [contradiction|]. cbn.
  inversion W; subst. unfold name_byte, name_start. unfold space in *. lia.
Qed.
Lemma attr_bytes_length a : attr_ok a -> 4 <= length (attr_bytes a).
Proof.
  intros (_ & N & _). unfold attr_bytes. lens. unfold xname in N. destruct (a_name a); [contradiction|]. cbn [length]. lia.
Qed.
Lemma attributes_complete ats : forall fuel b s p r ats0 acc t l',
  At b (p_lex s) p true true -> sits b p (flat_map attr_bytes ats ++ r) -> Forall attr_ok ats -> built ats0 acc ->
  length ats < fuel ->
  get_token b (Lx (p + length (flat_map attr_bytes ats)) true true None) = GTok t l' -> t_kind t <> KName ->
  exists acc', built (ats0 ++ written ats) acc' /\ attributes fuel b acc s = Ok acc' (with_lex (putback t l') s).
Proof.
  induction ats as [|a ats IH]; intros fuel b s p r ats0 acc t l' A V F Bd L G K; (destruct fuel as [|fuel]; [cbn in L; lia|]);
    cbn [attributes].
  - cbn [flat_map length] in G. rewrite Nat.add_0_r in G. rewrite (is_token_no b KName s p true true t l' A G K). cbn [bind].
    exists acc. cbn [written map]. rewrite app_nil_r. auto.
  - inversion F as [|? ? Ha F']; subst. destruct a as [w nm w1 w2 q x].
    destruct Ha as (H1 & H2 & H3 & H4 & H5 & H6 & H7). cbn [a_before a_name a_w1 a_w2 a_quote a_text] in *.
    cbn [flat_map] in V, G. unfold attr_bytes at 1 in V. cbn [a_before a_name a_w1 a_w2 a_quote a_text] in V.
    rewrite <- !app_assoc in V. cbn [app] in V.
    pose proof (sits_app _ _ _ _ V) as V2. pose proof (sits_app _ _ _ _ V2) as V3.
    assert (Nr : ~ begins name_byte (w1 ++ equal_sign :: (w2 ++ q :: x ++ [q]) ++ flat_map attr_bytes ats ++ r)).
    { apply begins_spaces_name; [exact H3|]. cbn [begins app]. unfold name_byte, name_start, equal_sign. lia. }
    assert (G1 := get_tok b p true true w _ _ _ _ _ V (T_name true nm _ eq_refl H2 Nr) H1 ltac:(discriminate) ltac:(intros _; apply begins_name_space; exact H2)).
    rewrite (is_token_yes b KName s p true true _ _ A G1 eq_refl). cbn [bind t_first t_last skip_after name_after].
    assert (G2 := get_tok b (p + length w + length nm) true true w1 _ _ _ _ _ V3 (T_equals true _ eq_refl) H3 ltac:(discriminate) ltac:(intros _; cbn [begins app]; unfold space, equal_sign; lia)).
    erewrite (require_yes b KEquals); [|apply at_eq; reflexivity|exact G2|reflexivity]. cbn [bind skip_after name_after].
    pose proof (sits_cons _ _ _ _ (sits_app _ _ _ _ V3)) as V4. rewrite <- !app_assoc in V4. cbn [app] in V4. rewrite <- app_assoc in V4. cbn [app] in V4.
    assert (G3 := get_tok b (p + length w + length nm + length w1 + 1) true true w2 _ _ _ _ _ V4 (T_value true q x _ eq_refl H5 H6 H7) H4 ltac:(discriminate) ltac:(intros _; cbn [begins app]; unfold space; destruct H5; subst; lia)).
    erewrite (require_yes b KAttValue); [|apply at_eq; reflexivity|exact G3|reflexivity]. cbn [bind skip_after name_after t_first t_last].
    set (q1 := p + length w + length nm + length w1 + 1 + length w2) in *.
    pose proof (sits_app _ _ _ _ V4) as V5. fold q1 in V5.
    assert (V6 : sits b (q1 + 1) (x ++ q :: flat_map attr_bytes ats ++ r)) by exact (sits_cons _ _ _ _ V5).
    pose proof (sits_cons _ _ _ _ (sits_app _ _ _ _ V6)) as V7.
    rewrite Nat.add_0_r, (sub_sits _ _ _ _ V2).
    replace (q1 + (length x + 1)) with (q1 + 1 + length x) by lia. rewrite (sub_sits _ _ _ _ V6).
    replace (q1 + (length x + 2)) with (q1 + 1 + length x + 1) by lia.
    assert (Eq : p + length (attr_bytes (Attr w nm w1 w2 q x) ++ flat_map attr_bytes ats) = q1 + 1 + length x + 1 + length (flat_map attr_bytes ats)).
    { unfold attr_bytes, q1. cbn [a_before a_name a_w1 a_w2 a_quote a_text]. lens. lia. }
    rewrite Eq in G.
    match goal with |- context [attributes fuel b ?ac ?st] =>
      destruct (IH fuel b st (q1 + 1 + length x + 1) r (ats0 ++ [(nm, x)]) ac t l') as (acc' & B1 & B2) end;
      [apply at_eq; reflexivity|exact V7|exact F'|exact (built_insert ats0 acc nm (TR (q1 + 1) x) Bd)|cbn [length] in L; lia|exact G|exact K|].
    cbn [tr_text] in B1. exists acc'. split.
    + cbn [written map a_name a_text]. unfold written in B1. rewrite <- app_assoc in B1. exact B1.
    + exact B2.
Qed.

(** *** Tags *)
Lemma open_token w0 nm r : spaces w0 -> xname nm -> Token false (lt :: w0 ++ nm ++ r) KOpen 0 1 1.
Proof.
  intros W N. assert (B : forall c, begins (eq c) (w0 ++ nm ++ r) -> space c \/ name_start c).
  { intros c. destruct w0 as [|d w0]; cbn [app].
    - unfold xname in N. destruct nm as [|d nm]; [contradiction|]. cbn. intros ->. right. apply N.
    - cbn. intros ->. left. inversion W; assumption. }
  apply T_open.
  - intros H. specialize (B _ H). unfold space, name_start, quest in B. lia.
  - intros H. specialize (B _ H). unfold space, name_start, slash in B. lia.
  - intros r' E. assert (begins (eq bang) (w0 ++ nm ++ r)) as H by (rewrite E; reflexivity).
    specialize (B _ H). unfold space, name_start, bang in B. lia.
Qed.
Lemma slash_close_token np r : Token np (slash :: gt :: r) KSlashClose 0 2 2.
Proof. constructor. Qed.
Lemma ats_length ats : length ats <= length (flat_map attr_bytes ats).
Proof.
  induction ats as [|a ats IH]; cbn [flat_map length]; [lia|]. rewrite app_length.
  assert (1 <= length (attr_bytes a)) by (unfold attr_bytes; lens; lia). lia.
Qed.

Scheme Render_mut := Minimality for Xml_Spec.Render Sort Prop
  with RenderE_mut := Minimality for Xml_Spec.RenderE Sort Prop
  with Parsed_mut := Minimality for Xml_Spec.Parsed Sort Prop.
Combined Scheme Render_ind3 from Render_mut, RenderE_mut, Parsed_mut.

Section Complete.
Variable name_index : list entry.
Variable pred : list call -> bytes -> bool.
Variable cb : list call -> call -> answer.
Notation element := (element name_index pred cb).
Notation content_callback := (content_callback name_index pred cb).
Notation content := (content name_index pred cb).
Notation content_loop := (content_loop name_index pred cb).
Notation parse_content := (parse_content name_index pred cb).
Notation Render := (Render name_index pred cb).
Notation RenderE := (RenderE name_index pred cb).
Notation Parsed := (Parsed name_index pred cb).

Definition parent_of (s : ps) (nm : bytes) : bool := if p_pre s then false else pred (p_calls s) nm.
(** the parser after the start tag *)
Definition entered (s : ps) (nm : bytes) (p : nat) : ps :=
  Ps (Lx p false false None) (p_pre s || parent_of s nm) (p_out s) (p_calls s).

Lemma element_empty b s p sk w w0 nm ats w1 r : At b (p_lex s) p sk false ->
  sits b p (w ++ raw (Empty w0 nm ats w1) ++ r) -> spaces w -> (sk = false -> w = []) -> tag_ok w0 nm ats w1 ->
  exists acc, built (written ats) acc /\ forall f, element (S f) b s =
    let q := p + length w in let e := q + length (raw (Empty w0 nm ats w1)) in let s1 := entered s nm e in
    if p_pre s1 then content_callback f b q e nm acc VNull (parent_of s nm) s1
    else let k := Call (raw (Empty w0 nm ats w1)) nm (texts acc) (Some []) in
         match answer_bytes (raw (Empty w0 nm ats w1)) (cb (p_calls s) k) with
         | Some x => Ok (Some VNull) (emit x (log k s1))
         | None => UB
         end.
Proof.
  intros A V W Wk (H1 & H2 & H3 & H4 & H5). set (i := Empty w0 nm ats w1) in *. set (q := p + length w).
  assert (Er : raw i ++ r = lt :: w0 ++ nm ++ flat_map attr_bytes ats ++ w1 ++ slash :: gt :: r).
  { unfold i. cbn [raw]. unfold tag_bytes. apps. reflexivity. }
  pose proof V as V0. rewrite Er in V. pose proof (sits_app _ _ _ _ V) as V1. fold q in V1.
  assert (G1 := get_tok b p sk false w _ _ _ _ _ V (open_token w0 nm _ H1 H2) W Wk ltac:(intros _; cbn [begins app]; unfold space, lt; lia)).
  pose proof (sits_cons _ _ _ _ V1) as V2.
  assert (Nr : ~ begins name_byte (flat_map attr_bytes ats ++ w1 ++ slash :: gt :: r)).
  { apply attr_bytes_no_name; [exact H3|]. destruct ats; [|exact H4]. apply begins_spaces_name; [exact H5|].
    cbn [begins app]. unfold name_byte, name_start, slash. lia. }
  assert (G2 := get_tok b (q + 1) true true w0 _ _ _ _ _ V2 (T_name true nm _ eq_refl H2 Nr) H1 ltac:(discriminate) ltac:(intros _; apply begins_name_space; exact H2)).
  pose proof (sits_app _ _ _ _ V2) as V3. pose proof (sits_app _ _ _ _ V3) as V4. pose proof (sits_app _ _ _ _ V4) as V5.
  set (q3 := q + 1 + length w0 + length nm + length (flat_map attr_bytes ats)) in *.
  assert (G4 := get_tok b q3 true true w1 _ _ _ _ _ V5 (T_slash_close true r) H5 ltac:(discriminate) ltac:(intros _; cbn [begins app]; unfold space, slash; lia)).
  edestruct (attributes_complete ats (S (length b)) b
     (with_pre (p_pre s || parent_of s nm) (with_lex (Lx (q + 1 + length w0 + length nm) true true None) (with_lex (Lx (q + 1) true true None) s)))
     (q + 1 + length w0 + length nm)) as (acc & Bd & Ea);
    [apply at_eq; reflexivity|exact V4|exact H3|exact built_nil| |exact G4|discriminate|].
  { pose proof (ats_length ats). apply sits_length in V4. rewrite app_length in V4. lia. }
  exists acc. split; [exact Bd|]. intros f. rewrite element_eq.
  rewrite (is_token_yes b KOpen s p sk false _ _ A G1 eq_refl). cbn [bind t_first t_last skip_after name_after].
  erewrite (require_yes b KName); [|apply at_eq; reflexivity|exact G2|reflexivity]. cbn [bind t_first t_last skip_after name_after].
  cbn [with_lex p_pre p_calls]. fold q.
  replace (sub b (q + 1 + length w0 + 0) (q + 1 + length w0 + length nm)) with nm
    by (rewrite Nat.add_0_r; symmetry; exact (sub_sits _ _ _ _ V3)).
  cbn zeta. fold (parent_of s nm). cbn [with_lex p_pre p_calls p_out p_lex with_pre] in Ea |- *. rewrite Ea. cbn [bind].
  erewrite (is_token_yes b KSlashClose); [|apply (at_putback b _ _ q3 true true); exact G4|exact G4|reflexivity].
  cbn [bind t_first t_last skip_after name_after].
  assert (L : q3 + length w1 + 2 = q + length (raw i)).
  { unfold i, q3. cbn [raw]. unfold tag_bytes. lens. lia. }
  rewrite L. replace (q + 0) with q by lia.
  rewrite (sub_sits b q (raw i) r) by (rewrite Er; exact V1). reflexivity.
Qed.

Lemma e_tag_complete b s p w2 nm w3 r : At b (p_lex s) p false false -> sits b p (close_bytes w2 nm w3 ++ r) ->
  spaces w2 -> xname nm -> spaces w3 ->
  exists n c, is_e_tag b s = Ok (Some (n, c)) (with_lex (Lx (p + length (close_bytes w2 nm w3)) false false None) s) /\
    t_first n = p + 2 + length w2 /\ t_last n = p + 2 + length w2 + length nm /\ t_last c = p + length (close_bytes w2 nm w3).
Proof.
  intros A V H1 H2 H3.
  assert (Er : close_bytes w2 nm w3 ++ r = [lt; slash] ++ w2 ++ nm ++ w3 ++ gt :: r).
  { unfold close_bytes. apps. reflexivity. }
  rewrite Er in V. pose proof (sits_app _ _ _ _ V) as V2. cbn [length] in V2.
  assert (G1 := get_tok b p false false [] _ _ _ _ _ V (T_open_slash false _) (Forall_nil _) ltac:(reflexivity) ltac:(discriminate)).
  pose proof (sits_app _ _ _ _ V2) as V3. pose proof (sits_app _ _ _ _ V3) as V4.
  assert (Nr : ~ begins name_byte (w3 ++ gt :: r)).
  { apply begins_spaces_name; [exact H3|]. cbn [begins app]. unfold name_byte, name_start, gt. lia. }
  assert (G2 := get_tok b (p + 2) true true w2 _ _ _ _ _ V2 (T_name true nm _ eq_refl H2 Nr) H1 ltac:(discriminate) ltac:(intros _; apply begins_name_space; exact H2)).
  assert (G3 := get_tok b (p + 2 + length w2 + length nm) true true w3 _ _ _ _ _ V4 (T_close true r) H3 ltac:(discriminate) ltac:(intros _; cbn [begins app]; unfold space, gt; lia)).
  unfold is_e_tag. rewrite (is_token_yes b KOpenSlash s p false false _ _ A G1 eq_refl). cbn [bind t_first t_last skip_after name_after length].
  replace (p + 0 + 2) with (p + 2) by lia.
  erewrite (require_yes b KName); [|apply at_eq; reflexivity|exact G2|reflexivity]. cbn [bind t_first t_last skip_after name_after].
  erewrite (require_yes b KClose); [|apply at_eq; reflexivity|exact G3|reflexivity]. cbn [bind t_first t_last skip_after name_after].
  assert (L : length (close_bytes w2 nm w3) = 2 + length w2 + length nm + length w3 + 1) by (unfold close_bytes; lens; lia).
  eexists _, _. split; [unfold with_lex; cbn [p_pre p_out p_calls p_lex]; rewrite L; do 2 f_equal; f_equal; lia|].
  cbn [t_first t_last]. rewrite L. lia.
Qed.

Lemma element_elem b s p sk w w0 nm ats w1 r : At b (p_lex s) p sk false ->
  sits b p (w ++ tag_bytes w0 nm ats w1 ++ gt :: r) -> spaces w -> (sk = false -> w = []) -> tag_ok w0 nm ats w1 ->
  exists acc, built (written ats) acc /\ forall f, element (S f) b s =
    let q := p + length w in let e := q + length (tag_bytes w0 nm ats w1 ++ [gt]) in
    let s1 := entered s nm e in
    let* (v, s2) := content f b (if p_pre s1 then s1 else emit (tag_bytes w0 nm ats w1 ++ [gt]) s1) in
    let* (et, s3) := is_e_tag b s2 in
    match et with
    | None => Exn
    | Some (n', c') =>
      if negb (range_equal nm (sub b (t_first n') (t_last n'))) then Exn else
      if p_pre s3 then content_callback f b q (t_last c') nm acc v (parent_of s nm) s3 else
      match vr_bytes b v with
      | None => UB
      | Some x => Ok (Some VNull) (emit (sub b (t_first n' - 2) (t_last n' + 1)) (emit x s3))
      end
    end.
Proof.
  intros A V W Wk (H1 & H2 & H3 & H4 & H5). set (q := p + length w).
  assert (Er : tag_bytes w0 nm ats w1 ++ gt :: r = lt :: w0 ++ nm ++ flat_map attr_bytes ats ++ w1 ++ gt :: r).
  { unfold tag_bytes. apps. reflexivity. }
  pose proof V as V0. rewrite Er in V. pose proof (sits_app _ _ _ _ V) as V1. fold q in V1.
  assert (G1 := get_tok b p sk false w _ _ _ _ _ V (open_token w0 nm _ H1 H2) W Wk ltac:(intros _; cbn [begins app]; unfold space, lt; lia)).
  pose proof (sits_cons _ _ _ _ V1) as V2.
  assert (Nr : ~ begins name_byte (flat_map attr_bytes ats ++ w1 ++ gt :: r)).
  { apply attr_bytes_no_name; [exact H3|]. destruct ats; [|exact H4]. apply begins_spaces_name; [exact H5|].
    cbn [begins app]. unfold name_byte, name_start, gt. lia. }
  assert (G2 := get_tok b (q + 1) true true w0 _ _ _ _ _ V2 (T_name true nm _ eq_refl H2 Nr) H1 ltac:(discriminate)
                ltac:(intros _; apply begins_name_space; exact H2)).
  pose proof (sits_app _ _ _ _ V2) as V3. pose proof (sits_app _ _ _ _ V3) as V4. pose proof (sits_app _ _ _ _ V4) as V5.
  set (q3 := q + 1 + length w0 + length nm + length (flat_map attr_bytes ats)) in *.
  assert (G4 := get_tok b q3 true true w1 _ _ _ _ _ V5 (T_close true r) H5 ltac:(discriminate)
                ltac:(intros _; cbn [begins app]; unfold space, gt; lia)).
  edestruct (attributes_complete ats (S (length b)) b
     (with_pre (p_pre s || parent_of s nm) (with_lex (Lx (q + 1 + length w0 + length nm) true true None) (with_lex (Lx (q + 1) true true None) s)))
     (q + 1 + length w0 + length nm)) as (acc & Bd & Ea);
    [apply at_eq; reflexivity|exact V4|exact H3|exact built_nil| |exact G4|discriminate|].
  { pose proof (ats_length ats). apply sits_length in V4. rewrite app_length in V4. lia. }
  exists acc. split; [exact Bd|]. intros f. rewrite element_eq.
  rewrite (is_token_yes b KOpen s p sk false _ _ A G1 eq_refl). cbn [bind t_first t_last skip_after name_after].
  erewrite (require_yes b KName); [|apply at_eq; reflexivity|exact G2|reflexivity]. cbn [bind t_first t_last skip_after name_after].
  cbn [with_lex p_pre p_calls]. fold q.
  replace (sub b (q + 1 + length w0 + 0) (q + 1 + length w0 + length nm)) with nm
    by (rewrite Nat.add_0_r; symmetry; exact (sub_sits _ _ _ _ V3)).
  cbn zeta. fold (parent_of s nm). cbn [with_lex p_pre p_calls p_out p_lex with_pre] in Ea |- *. rewrite Ea. cbn [bind].
  erewrite (is_token_no b KSlashClose); [|apply (at_putback b _ _ q3 true true); exact G4|exact G4|discriminate].
  cbn [bind]. erewrite (require_yes b KClose); [|apply (at_putback b _ _ q3 true true); exact G4|exact G4|reflexivity].
  cbn [bind t_first t_last skip_after name_after].
  assert (L : q3 + length w1 + 1 = q + length (tag_bytes w0 nm ats w1 ++ [gt])).
  { unfold q3, tag_bytes. lens. lia. }
  rewrite L. replace (q + 0) with q by lia.
  rewrite (sub_sits b q (tag_bytes w0 nm ats w1 ++ [gt]) r) by (rewrite <- app_assoc; cbn [app]; rewrite Er; exact V1).
  reflexivity.
Qed.

(** *** What is next after a sequence of items *)
Definition peeked (b : bytes) (p : nat) : lx :=
  match get_token b (Lx p false false None) with GTok t l' => putback t l' | _ => Lx p false false None end.

Definition item_token (i : item) : kind :=
  match i with
  | Chars _ => KCharData | Ref _ | OpenRef _ => KReference | Comment _ => KComment | Empty _ _ _ _ | Elem _ _ _ _ _ _ _ => KOpen
  end.
Lemma item_first i r : item_ok i r -> exists n, Token false (raw i ++ r) (item_token i) 0 n n /\
  (tag_of i = None -> n = length (raw i)).
Proof.
  destruct i as [s|x|x|x|w0 nm ats w1|w0 nm ats w1 kids w2 w3]; intros H.
  - destruct H as (H1 & H2 & H3 & H4 & H5). eexists. split; [apply T_chars; auto; discriminate|reflexivity].
  - cbn [raw item_token]. eexists. split; [|intros _; cbn [length]; rewrite app_length; cbn [length]; reflexivity].
    replace ((amp :: x ++ [semi]) ++ r) with (amp :: x ++ semi :: r) by (apps; reflexivity).
    replace (S (length x + 1)) with (length x + 2) by lia. apply T_reference. exact H.
  - destruct H as (H & ->). eexists. split; [|intros _; reflexivity]. cbn [raw item_token length]. rewrite app_nil_r.
    replace (S (length x)) with (length x + 1) by lia. apply T_open_reference. exact H.
  - cbn [raw item_token]. eexists. split; [|intros _; lens; reflexivity].
    replace ((lt :: bang :: dash :: dash :: x ++ [dash; dash; gt]) ++ r) with (lt :: bang :: dash :: dash :: x ++ dash :: dash :: gt :: r) by (apps; reflexivity).
    replace (S (S (S (S (length x + 3))))) with (length x + 7) by lia. apply T_comment. exact H.
  - eexists. split; [|intros E; discriminate E]. destruct H as (H1 & H2 & _). cbn [raw item_token].
    replace ((tag_bytes w0 nm ats w1 ++ [slash; gt]) ++ r) with (lt :: w0 ++ nm ++ flat_map attr_bytes ats ++ w1 ++ [slash; gt] ++ r)
      by (unfold tag_bytes; apps; reflexivity).
    apply open_token; assumption.
  - eexists. split; [|intros E; discriminate E]. destruct H as ((H1 & H2 & _) & _). cbn [raw item_token]. fold (raws kids).
    replace ((tag_bytes w0 nm ats w1 ++ gt :: raws kids ++ close_bytes w2 nm w3) ++ r) with
      (lt :: w0 ++ nm ++ flat_map attr_bytes ats ++ w1 ++ gt :: raws kids ++ close_bytes w2 nm w3 ++ r)
      by (unfold tag_bytes; apps; reflexivity).
    apply open_token; assumption.
Qed.
Lemma stops_token b p rest : sits b p rest -> stops rest ->
  exists t l', get_token b (Lx p false false None) = GTok t l' /\
    t_kind t <> KCharData /\ t_kind t <> KReference /\ t_kind t <> KOpen /\ t_kind t <> KComment.
Proof.
  intros V [-> | [(r & ->) | [Hg | [(r & ->) | (x & r & ->)]]]].
  - eexists _, _. split; [eapply reads_get; apply (Rd_eof b p false false []); [constructor|reflexivity|exact V]|].
    cbn. repeat split; discriminate.
  - eexists _, _. split; [apply (get_tok b p false false [] _ _ _ _ _ V (T_open_slash false r)); [constructor|reflexivity|discriminate]|].
    cbn. repeat split; discriminate.
  - destruct rest as [|c r]; [contradiction|]. cbn in Hg. subst c.
    eexists _, _. split; [apply (get_tok b p false false [] _ _ _ _ _ V (T_close false r)); [constructor|reflexivity|discriminate]|].
    cbn. repeat split; discriminate.
  - eexists _, _. split; [apply (get_tok b p false false [] _ _ _ _ _ V (T_slash_close false r)); [constructor|reflexivity|discriminate]|].
    cbn. repeat split; discriminate.
  - assert (K : exists x' r', absent [quest; gt] x' /\ lt :: quest :: x ++ quest :: gt :: r = lt :: quest :: x' ++ quest :: gt :: r').
    { destruct (first_pair quest gt (x ++ quest :: gt :: r)) as [N | (y & r' & E & N)].
      - destruct (N x r). reflexivity.
      - exists y, r'. split; [exact (absent_app_l _ _ _ _ N)|rewrite E; reflexivity]. }
    destruct K as (x' & r' & N & E). rewrite E in V.
    eexists _, _. split; [apply (get_tok b p false false [] _ _ _ _ _ V (T_pi false x' r' N)); [constructor|reflexivity|discriminate]|].
    cbn. repeat split; discriminate.
Qed.
(** the token at a sequence of items *)
Lemma items_first b p is rest : sits b p (raws is ++ rest) -> items_ok is rest -> stops rest ->
  exists t l', get_token b (Lx p false false None) = GTok t l' /\
    match is with
    | [] => t_kind t <> KCharData /\ t_kind t <> KReference /\ t_kind t <> KOpen /\ t_kind t <> KComment
    | i :: _ => t_kind t = item_token i /\ t_first t = p /\
      (tag_of i = None -> t_last t = p + length (raw i) /\ l' = Lx (p + length (raw i)) false false None)
    end.
Proof.
  intros V O S. destruct is as [|i is]; [exact (stops_token b p rest V S)|]. destruct O as (O & _).
  unfold raws in V. cbn [flat_map] in V. rewrite <- app_assoc in V. fold (raws is) in V.
  destruct (item_first i _ O) as (n & T & Hn).
  eexists _, _. split; [apply (get_tok b p false false [] _ _ _ _ _ V T); [constructor|reflexivity|discriminate]|].
  cbn [t_kind t_first t_last length]. rewrite !Nat.add_0_r. split; [reflexivity|]. split; [reflexivity|].
  intros E. rewrite (Hn E). split; [reflexivity|]. destruct i; try discriminate E; reflexivity.
Qed.
Lemma at_peeked b p : At b (peeked b p) p false false.
Proof.
  unfold peeked. destruct (get_token b (Lx p false false None)) as [t l'| |] eqn:G; [right; exists t, l'; auto|left; reflexivity..].
Qed.
Lemma peeked_eq b p t l' : get_token b (Lx p false false None) = GTok t l' -> peeked b p = putback t l'.
Proof. intros G. unfold peeked. rewrite G. reflexivity. Qed.

(** *** The loop over the items *)
Definition starts_chars (is : list item) : bool := match is with Chars _ :: _ => true | _ => false end.
(** an optional run of text, then the loop *)
Definition tail (f : nat) (b : bytes) (v : vr) (s : ps) : res vr :=
  let* (c, s) := is_token b KCharData s in
  match c with
  | Some c =>
    if p_pre s then content_loop f b (extend_chars v (t_last c)) s
    else content_loop f b v (emit (sub b (t_first c) (t_last c)) s)
  | None => content_loop f b v s
  end.
Lemma loop_eq f b v s : content_loop (S f) b v s =
  let* (r, s) := is_token b KReference s in
  match r with
  | Some r =>
    if t_last r - t_first r =? 0 then tail f b v s
    else if p_pre s then tail f b (extend v (t_first r) (t_last r)) s
    else tail f b v (emit (transform_reference name_index (sub b (t_first r) (t_last r))) s)
  | None =>
    let* (e, s) := element f b s in
    match e with
    | Some (VRng f0 l) =>
      if l - f0 =? 0 then tail f b v s
      else if p_pre s then tail f b (extend v f0 l) s
      else tail f b v (emit (sub b f0 l) s)
    | Some VNull => tail f b v s
    | Some (VWild _) => UB
    | None =>
      let* (c, s) := is_token b KComment s in
      match c with Some _ => tail f b v s | None => Ok v s end
    end
  end.
Proof. reflexivity. Qed.

Lemma after_chars x is rest : items_ok (Chars x :: is) rest -> starts_chars is = false.
Proof.
  intros ((_ & _ & N & _) & O). destruct is as [|[] is]; try reflexivity. destruct O as ((H1 & H2 & _) & _).
  destruct N. unfold raws. cbn [flat_map raw]. destruct s as [|c s]; [contradiction|]. cbn. inversion H2; assumption.
Qed.
Lemma raws_cons i is : raws (i :: is) = raw i ++ raws is.
Proof. reflexivity. Qed.
Lemma sits_items b p i is rest : sits b p (raws (i :: is) ++ rest) ->
  sits b p (raw i ++ raws is ++ rest) /\ sits b (p + length (raw i)) (raws is ++ rest) /\
  p + length (raws (i :: is)) = p + length (raw i) + length (raws is).
Proof.
  rewrite raws_cons, <- app_assoc. intros V. split; [exact V|]. split; [exact (sits_app _ _ _ _ V)|]. rewrite app_length. lia.
Qed.
Lemma not_element f b s p t l' : At b (p_lex s) p false false -> get_token b (Lx p false false None) = GTok t l' ->
  t_kind t <> KOpen -> element (S f) b s = Ok None (with_lex (putback t l') s).
Proof. intros A G K. rewrite element_eq, (is_token_no b KOpen s p false false t l' A G K). reflexivity. Qed.

(** what the loop does on its first item, and at the end *)
Lemma loop_stop f b v s p rest : At b (p_lex s) p false false -> sits b p rest -> stops rest ->
  content_loop (S (S f)) b v s = Ok v (with_lex (peeked b p) s).
Proof.
  intros A V H. destruct (stops_token b p rest V H) as (t & l' & G & K1 & K2 & K3 & K4). rewrite loop_eq.
  rewrite (is_token_no b KReference s p false false t l' A G K2). cbn [bind].
  pose proof (fun s => at_putback b t l' p false false s G) as A2.
  rewrite (not_element f b _ p t l' (A2 s) G K3). cbn [bind].
  rewrite (is_token_no b KComment _ p false false t l' (A2 _) G K4). cbn [bind]. rewrite (peeked_eq b p t l' G). reflexivity.
Qed.
Definition plus (s : ps) (p : nat) (o : bytes) : ps :=
  Ps (Lx p false false None) (p_pre s) (p_out s ++ (if p_pre s then [] else o)) (p_calls s).
Definition text_of (i : item) : bytes :=
  match i with
  | Chars x => x
  | Ref x => reference_text name_index x
  | OpenRef x => open_reference_text name_index x
  | _ => []
  end.
Lemma plus_nil s p : plus s p [] = with_lex (Lx p false false None) s.
Proof. unfold plus, with_lex. destruct (p_pre s); rewrite app_nil_r; reflexivity. Qed.
Lemma plus_pre s p o : p_pre s = true -> plus s p o = with_lex (Lx p false false None) s.
Proof. intros E. unfold plus, with_lex. rewrite E, app_nil_r. reflexivity. Qed.
Lemma loop_text f b v s p i is rest : At b (p_lex s) p false false -> sits b p (raws (i :: is) ++ rest) ->
  items_ok (i :: is) rest -> stops rest -> tag_of i = None -> is_chars_item i = false ->
  content_loop (S (S f)) b v s = tail (S f) b (if p_pre s then step v p i else v) (plus s (p + length (raw i)) (text_of i)).
Proof.
  intros A V O St Tg Ch. destruct (items_first b p _ _ V O St) as (t & l' & G & K & E1 & E2). destruct (E2 Tg) as (E3 & ->). clear E2.
  destruct (sits_items _ _ _ _ _ V) as (V1 & V2 & _). rewrite loop_eq.
  assert (Hr : item_token i = KReference -> exists x, i = Ref x \/ i = OpenRef x) by (destruct i; try discriminate; eauto).
  destruct (kind_eqbP (item_token i) KReference) as [Ek|Ek].
  - rewrite (is_token_yes b KReference s p false false t _ A G) by congruence. cbn [bind]. rewrite E1, E3.
    assert (Ln : length (raw i) <> 0) by (destruct (Hr Ek) as (x & [-> | ->]); cbn [raw length]; lia).
    replace (p + length (raw i) - p =? 0) with false by (symmetry; apply Nat.eqb_neq; lia).
    rewrite (sub_sits _ _ _ _ V1). cbn [with_lex p_pre]. destruct (p_pre s) eqn:Ep.
    + rewrite (plus_pre s _ _ Ep). unfold with_lex. rewrite Ep. destruct (Hr Ek) as (x & [-> | ->]); reflexivity.
    + unfold plus, emit, with_lex. cbn [p_pre p_out p_calls p_lex]. rewrite Ep. f_equal. f_equal. f_equal.
      destruct (Hr Ek) as (x & [-> | ->]); cbn [raw text_of].
      * unfold transform_reference, reference_text. change (amp =? 38)%N with true. cbn match. rewrite removelast_last.
        destruct (x ++ [semi]) eqn:EE; [destruct x; discriminate|reflexivity].
      * unfold transform_reference, open_reference_text, reference_text. change (amp =? 38)%N with true. cbn match. destruct x; reflexivity.
  - assert (Ec : item_token i = KComment) by (destruct i; try discriminate; try reflexivity; destruct Ek; reflexivity).
    assert (exists x, i = Comment x) as (x & ->) by (destruct i; try discriminate; eauto).
    rewrite (is_token_no b KReference s p false false t _ A G) by congruence. cbn [bind].
    pose proof (fun s => at_putback b t _ p false false s G) as A2.
    rewrite (not_element f b _ p t _ (A2 s) G) by congruence. cbn [bind].
    rewrite (is_token_yes b KComment _ p false false t _ (A2 _) G) by congruence. cbn [bind].
    cbn [text_of]. rewrite plus_nil. destruct (p_pre s); reflexivity.
Qed.
Lemma loop_element f b v s p i is rest : At b (p_lex s) p false false -> sits b p (raws (i :: is) ++ rest) ->
  items_ok (i :: is) rest -> stops rest -> tag_of i <> None ->
  content_loop (S f) b v s =
    let* (e, s) := element f b (with_lex (peeked b p) s) in
    match e with
    | Some (VRng f0 l) =>
      if l - f0 =? 0 then tail f b v s
      else if p_pre s then tail f b (extend v f0 l) s
      else tail f b v (emit (sub b f0 l) s)
    | Some VNull => tail f b v s
    | Some (VWild _) => UB
    | None =>
      let* (c, s) := is_token b KComment s in
      match c with Some _ => tail f b v s | None => Ok v s end
    end.
Proof.
  intros A V O St Tg. destruct (items_first b p _ _ V O St) as (t & l' & G & K & _).
  rewrite loop_eq, (is_token_no b KReference s p false false t l' A G).
  2:{ rewrite K. destruct i; try discriminate; destruct Tg; reflexivity. }
  cbn [bind]. rewrite (peeked_eq b p t l' G). reflexivity.
Qed.
(** an optional run of text *)
Lemma tail_none f b v s p is rest : At b (p_lex s) p false false -> sits b p (raws is ++ rest) ->
  items_ok is rest -> stops rest -> starts_chars is = false ->
  tail f b v s = content_loop f b v (with_lex (peeked b p) s).
Proof.
  intros A V O St C. destruct (items_first b p _ _ V O St) as (t & l' & G & K). unfold tail.
  rewrite (is_token_no b KCharData s p false false t l' A G).
  - cbn [bind]. rewrite (peeked_eq b p t l' G). reflexivity.
  - destruct is as [|i is]; [apply K|]. destruct K as (K & _). rewrite K. destruct i; discriminate.
Qed.
Lemma tail_some f b v s p x is rest : At b (p_lex s) p false false -> sits b p (raws (Chars x :: is) ++ rest) ->
  items_ok (Chars x :: is) rest -> stops rest ->
  tail f b v s = content_loop f b (if p_pre s then extend_chars v (p + length x) else v) (plus s (p + length x) x).
Proof.
  intros A V O St. destruct (items_first b p _ _ V O St) as (t & l' & G & K & E1 & E2). destruct (E2 eq_refl) as (E3 & ->). clear E2.
  destruct (sits_items _ _ _ _ _ V) as (V1 & V2 & _). cbn [raw] in *. unfold tail.
  rewrite (is_token_yes b KCharData s p false false t _ A G K). cbn [bind with_lex p_pre]. rewrite E1, E3, (sub_sits _ _ _ _ V1).
  destruct (p_pre s) eqn:Ep.
  - rewrite (plus_pre s _ _ Ep). unfold with_lex. rewrite Ep. reflexivity.
  - unfold plus, emit, with_lex. cbn [p_pre p_out p_calls p_lex]. rewrite Ep. reflexivity.
Qed.

(** *** Inside an element handed to the callback *)
Definition PreEl (i : item) : Prop := forall b s p sk w rest,
  At b (p_lex s) p sk false -> sits b p (w ++ raw i ++ rest) -> spaces w -> (sk = false -> w = []) -> item_ok i rest ->
  tag_of i <> None -> p_pre s = true ->
  exists F, forall f, F <= f -> element f b s =
    Ok (Some (VRng (p + length w) (p + length w + length (raw i)))) (with_lex (Lx (p + length w + length (raw i)) false false None) s).
Definition PreLoop (is : list item) : Prop := forall b s p rest v,
  At b (p_lex s) p false false -> sits b p (raws is ++ rest) -> items_ok is rest -> stops rest -> p_pre s = true ->
  starts_chars is = false ->
  exists F, forall f, F <= f ->
    content_loop f b v s = Ok (collect v p is) (with_lex (peeked b (p + length (raws is))) s).
Definition PreTail (is : list item) : Prop := forall b s p rest v,
  At b (p_lex s) p false false -> sits b p (raws is ++ rest) -> items_ok is rest -> stops rest -> p_pre s = true ->
  exists F, forall f, F <= f ->
    tail f b v s = Ok (collect v p is) (with_lex (peeked b (p + length (raws is))) s).
Lemma with_lex_2 a c s : with_lex a (with_lex c s) = with_lex a s.
Proof. reflexivity. Qed.

Lemma pre_tail is : PreLoop is -> (forall x is', is = Chars x :: is' -> PreLoop is') -> PreTail is.
Proof.
  intros IH IH' b s p rest v A V O St Ep. destruct (starts_chars is) eqn:C.
  - destruct is as [|[x| | | | |] is]; try discriminate.
    destruct (sits_items _ _ _ _ _ V) as (V1 & V2 & L). cbn [raw] in *.
    destruct (IH' x is eq_refl b (plus s (p + length x) x) (p + length x) rest
                (extend_chars v (p + length x)) (at_here _ _ _ _) V2 (proj2 O) St Ep (after_chars _ _ _ O)) as (F & HF).
    exists F. intros f Hf. rewrite (tail_some f b v s p x is rest A V O St). rewrite Ep, (HF f Hf), L.
    rewrite plus_pre by exact Ep. reflexivity.
  - destruct (IH b (with_lex (peeked b p) s) p rest v (at_peeked b p) V O St Ep C) as (F & HF).
    exists F. intros f Hf. rewrite (tail_none f b v s p is rest A V O St C), (HF f Hf). reflexivity.
Qed.

Lemma close_stops w2 nm w3 r : stops (close_bytes w2 nm w3 ++ r).
Proof. right. left. eexists. reflexivity. Qed.
Lemma pre_content is : PreTail is -> forall b s p rest,
  At b (p_lex s) p false false -> sits b p (raws is ++ rest) -> items_ok is rest -> stops rest -> p_pre s = true ->
  PreLoop is -> (forall x is', is = Chars x :: is' -> PreLoop is') ->
  exists F, forall f, F <= f -> content f b s = Ok (collect0 p is) (with_lex (peeked b (p + length (raws is))) s).
Proof.
  intros _ b s p rest A V O St Ep IH IH'. destruct (items_first b p _ _ V O St) as (t & l' & G & K).
  destruct (starts_chars is) eqn:C.
  - destruct is as [|[x| | | | |] is]; try discriminate. destruct K as (K & E1 & E2). destruct (E2 eq_refl) as (E3 & ->). clear E2.
    destruct (sits_items _ _ _ _ _ V) as (V1 & V2 & L). cbn [raw] in *.
    destruct (IH' x is eq_refl b (with_lex (Lx (p + length x) false false None) s) (p + length x) rest
                (VRng p (p + length x)) (at_here _ _ _ _) V2 (proj2 O) St Ep (after_chars _ _ _ O)) as (F & HF).
    exists (S F). intros f Hf. destruct f as [|f]; [lia|]. rewrite content_eq.
    rewrite (is_token_yes b KCharData s p false false t _ A G K). cbn [bind with_lex p_pre]. rewrite E1, E3, Ep, L.
    rewrite (HF f) by lia. reflexivity.
  - destruct (IH b (with_lex (putback t l') s) p rest VNull (at_putback b t l' p false false s G) V O St Ep C) as (F & HF).
    exists (S F). intros f Hf. destruct f as [|f]; [lia|]. rewrite content_eq.
    rewrite (is_token_no b KCharData s p false false t l' A G).
    + cbn [bind]. rewrite (HF f) by lia. f_equal. destruct is as [|[] is]; try reflexivity; discriminate.
    + destruct is as [|i is]; [apply K|]. destruct K as (K & _). rewrite K. destruct i; discriminate.
Qed.

Lemma pre_loop_cons i is : PreEl i -> PreTail is -> PreLoop (i :: is).
Proof.
  intros IHe IHt b s p rest v A V O St Ep C. destruct (sits_items _ _ _ _ _ V) as (V1 & V2 & L).
  destruct (tag_of i) as [tg|] eqn:Tg.
  - assert (Tn : tag_of i <> None) by congruence.
    destruct (IHe b (with_lex (peeked b p) s) p false [] _ (at_peeked b p) V1 (Forall_nil _) (fun _ => eq_refl) (proj1 O) Tn Ep) as (F1 & H1).
    cbn [length] in H1. rewrite Nat.add_0_r in H1.
    destruct (IHt b (with_lex (Lx (p + length (raw i)) false false None) s) (p + length (raw i)) rest (extend v p (p + length (raw i)))
                (at_here _ _ _ _) V2 (proj2 O) St Ep) as (F2 & H2).
    exists (S (F1 + F2)). intros f Hf. destruct f as [|f]; [lia|].
    rewrite (loop_element f b v s p i is rest A V O St Tn), (H1 f) by lia. cbn [bind].
    assert (Hl : length (raw i) <> 0) by (destruct i; try discriminate Tg; cbn [raw]; unfold tag_bytes; cbn [app length]; lia).
    replace (p + length (raw i) - p =? 0) with false by (symmetry; apply Nat.eqb_neq; lia).
    rewrite !with_lex_2. cbn [with_lex p_pre]. rewrite Ep.
    rewrite (H2 f) by lia. cbn [collect]. rewrite L. replace (step v p i) with (extend v p (p + length (raw i))).
    + reflexivity.
    + destruct i; try reflexivity; discriminate Tg.
  - assert (Ci : is_chars_item i = false) by (destruct i; try reflexivity; discriminate C).
    destruct (IHt b (plus s (p + length (raw i)) (text_of i)) (p + length (raw i)) rest (step v p i)
                (at_here _ _ _ _) V2 (proj2 O) St Ep) as (F & HF).
    exists (S (S F)). intros f Hf. destruct f as [|[|f]]; [lia..|].
    rewrite (loop_text f b v s p i is rest A V O St Tg Ci), Ep, (HF (S f)) by lia.
    rewrite plus_pre by exact Ep. cbn [collect]. rewrite L. reflexivity.
Qed.
Lemma pre_loop_nil : PreLoop [].
Proof.
  intros b s p rest v A V O St Ep C. cbn [raws flat_map app length collect] in *. rewrite Nat.add_0_r. exists 2. intros f Hf.
  destruct f as [|[|f]]; [lia..|]. exact (loop_stop f b v s p rest A V St).
Qed.
Lemma raw_elem w0 nm ats w1 kids w2 w3 :
  raw (Elem w0 nm ats w1 kids w2 w3) = (tag_bytes w0 nm ats w1 ++ [gt]) ++ raws kids ++ close_bytes w2 nm w3.
Proof. cbn [raw]. fold (raws kids). apps. reflexivity. Qed.
Lemma range_equal_refl x : range_equal x x = true.
Proof. destruct (range_equalP x x); [reflexivity|contradiction]. Qed.
Lemma end_name b q w2 nm w3 r : sits b q (close_bytes w2 nm w3 ++ r) ->
  sub b (q + 2 + length w2) (q + 2 + length w2 + length nm) = nm.
Proof.
  intros V. eapply (sub_sits b (q + 2 + length w2) nm (w3 ++ gt :: r)). unfold close_bytes in V.
  replace ((lt :: slash :: w2 ++ nm ++ w3 ++ [gt]) ++ r) with ((lt :: slash :: w2) ++ nm ++ w3 ++ gt :: r) in V by (apps; reflexivity).
  apply sits_app in V. cbn [length] in V. replace (q + 2 + length w2) with (q + S (S (length w2))) by lia. exact V.
Qed.

(** The parts of an element, in the buffer *)
Lemma elem_sits b q w0 nm ats w1 kids w2 w3 rest : sits b q (raw (Elem w0 nm ats w1 kids w2 w3) ++ rest) ->
  let p1 := q + length (tag_bytes w0 nm ats w1 ++ [gt]) in let p2 := p1 + length (raws kids) in
  sits b q (tag_bytes w0 nm ats w1 ++ gt :: raws kids ++ close_bytes w2 nm w3 ++ rest) /\
  sits b p1 (raws kids ++ close_bytes w2 nm w3 ++ rest) /\ sits b p2 (close_bytes w2 nm w3 ++ rest) /\
  p2 + length (close_bytes w2 nm w3) = q + length (raw (Elem w0 nm ats w1 kids w2 w3)).
Proof.
  intros V p1 p2. rewrite raw_elem in V.
  assert (V1 : sits b q ((tag_bytes w0 nm ats w1 ++ [gt]) ++ raws kids ++ close_bytes w2 nm w3 ++ rest)).
  { rewrite <- !app_assoc in V. rewrite <- app_assoc. exact V. }
  split; [rewrite <- app_assoc in V1; exact V1|]. apply sits_app in V1. fold p1 in V1. split; [exact V1|].
  apply sits_app in V1. split; [exact V1|]. rewrite raw_elem, !app_length. unfold p2, p1. rewrite !app_length. lia.
Qed.

Lemma pre_empty w0 nm ats w1 : PreEl (Empty w0 nm ats w1).
Proof.
  intros b s p sk w rest A V W Wk O Tn Ep. destruct (element_empty b s p sk w w0 nm ats w1 rest A V W Wk O) as (acc & _ & H).
  exists 2. intros f Hf. destruct f as [|[|f]]; [lia..|]. rewrite H. cbn zeta. unfold entered, parent_of. cbn [p_pre]. rewrite Ep. cbn [orb].
  rewrite content_callback_eq. cbn match. unfold with_lex. rewrite Ep. reflexivity.
Qed.
Lemma pre_elem w0 nm ats w1 kids w2 w3 : PreLoop kids -> (forall x is', kids = Chars x :: is' -> PreLoop is') ->
  PreEl (Elem w0 nm ats w1 kids w2 w3).
Proof.
  intros IH IH' b s p sk w rest A V W Wk O Tn Ep. pose proof (proj1 (item_ok_elem _ _ _ _ _ _ _ _) O) as (O1 & O2 & O3 & O4).
  destruct (elem_sits b (p + length w) w0 nm ats w1 kids w2 w3 rest (sits_app _ _ _ _ V)) as (V1 & V2 & V3 & L).
  set (p1 := p + length w + length (tag_bytes w0 nm ats w1 ++ [gt])) in *. set (p2 := p1 + length (raws kids)) in *.
  assert (V' : sits b p (w ++ tag_bytes w0 nm ats w1 ++ gt :: raws kids ++ close_bytes w2 nm w3 ++ rest)).
  { rewrite raw_elem in V. rewrite <- !app_assoc in V. cbn [app] in V. exact V. }
  destruct (element_elem b s p sk w w0 nm ats w1 _ A V' W Wk O1) as (acc & _ & H).
  destruct (pre_content kids (pre_tail kids IH IH') b (entered s nm p1) p1 _ (at_here _ _ _ _) V2 O4 (close_stops _ _ _ _)) as (F & HF);
    [unfold entered, parent_of; cbn [p_pre]; rewrite Ep; reflexivity|exact IH|exact IH'|].
  exists (S (S F)). intros f Hf. destruct f as [|f]; [lia|]. rewrite H. cbn zeta. fold p1.
  replace (p_pre (entered s nm p1)) with true by (unfold entered; cbn [p_pre]; rewrite Ep; reflexivity).
  rewrite (HF f) by lia. cbn [bind]. fold p2.
  destruct (e_tag_complete b (with_lex (peeked b p2) (entered s nm p1)) p2 w2 nm w3 rest (at_peeked b p2) V3 O2 (proj1 (proj2 O1)) O3)
    as (n & c & He & N1 & N2 & N3).
  rewrite He. cbn [bind]. rewrite N1, N2, N3, (end_name _ _ _ _ _ _ V3), range_equal_refl. cbn [negb].
  unfold entered, parent_of. cbn [with_lex p_pre p_out p_calls]. rewrite Ep. cbn [orb].
  destruct f as [|f]; [lia|]. rewrite content_callback_eq. cbn match. rewrite L. unfold with_lex. cbn [p_pre p_out p_calls]. rewrite Ep. reflexivity.
Qed.

(** a recursion principle for trees *)
Fixpoint item_rect' (P : item -> Prop) (Q : list item -> Prop)
  (h1 : forall s, P (Chars s)) (h2 : forall b, P (Ref b)) (h3 : forall b, P (OpenRef b)) (h4 : forall b, P (Comment b))
  (h5 : forall w0 nm ats w1, P (Empty w0 nm ats w1))
  (h6 : forall w0 nm ats w1 kids w2 w3, Q kids -> P (Elem w0 nm ats w1 kids w2 w3))
  (q0 : Q []) (q1 : forall i is, P i -> Q is -> Q (i :: is)) (i : item) : P i :=
  match i with
  | Chars s => h1 s | Ref b => h2 b | OpenRef b => h3 b | Comment b => h4 b | Empty w0 nm ats w1 => h5 w0 nm ats w1
  | Elem w0 nm ats w1 kids w2 w3 => h6 w0 nm ats w1 kids w2 w3
      ((fix go (is : list item) : Q is :=
          match is with [] => q0 | i :: is' => q1 i is' (item_rect' P Q h1 h2 h3 h4 h5 h6 q0 q1 i) (go is') end) kids)
  end.
Definition PreAll (is : list item) : Prop := PreLoop is /\ forall x is', is = Chars x :: is' -> PreLoop is'.
Lemma pre_all_cons i is : PreEl i -> PreAll is -> PreAll (i :: is).
Proof.
  intros H (H1 & H2). split; [|intros x is' [= _ <-]; exact H1]. apply pre_loop_cons; [exact H|]. apply pre_tail; assumption.
Qed.
Lemma pre_all_nil : PreAll [].
Proof. split; [exact pre_loop_nil|discriminate]. Qed.
Lemma pre_el i : PreEl i.
Proof.
  apply (item_rect' PreEl PreAll).
  - intros x b s p sk w rest _ _ _ _ _ Tn. destruct Tn. reflexivity.
  - intros x b s p sk w rest _ _ _ _ _ Tn. destruct Tn. reflexivity.
  - intros x b s p sk w rest _ _ _ _ _ Tn. destruct Tn. reflexivity.
  - intros x b s p sk w rest _ _ _ _ _ Tn. destruct Tn. reflexivity.
  - exact pre_empty.
  - intros w0 nm ats w1 kids w2 w3 (H1 & H2). apply pre_elem; assumption.
  - exact pre_all_nil.
  - exact pre_all_cons.
Qed.
Lemma pre_all is : PreAll is.
Proof. induction is as [|i is IH]; [exact pre_all_nil|apply pre_all_cons; [apply pre_el|exact IH]]. Qed.

(** *** Elements handed to the callback, and the rest *)
Definition has_token (b : bytes) (p : nat) : Prop := exists t l', get_token b (Lx p false false None) = GTok t l'.
Lemma handed_over b s p sk w i rest nm ats kids : tag_of i = Some (nm, ats, kids) ->
  At b (p_lex s) p sk false -> sits b p (w ++ raw i ++ rest) -> spaces w -> (sk = false -> w = []) -> item_ok i rest ->
  p_pre s = false -> pred (p_calls s) nm = true ->
  exists acc v F, built (written ats) acc /\ vr_bytes b v = value_of kids /\
    let q := p + length w in let e := q + length (raw i) in
    forall f, F <= f -> element (S f) b s = content_callback f b q e nm acc v true (Ps (Lx e false false None) true (p_out s) (p_calls s)).
Proof.
  intros T A V W Wk O Ep Epr. destruct i as [| | | |w0 nm' ats' w1|w0 nm' ats' w1 kids' w2 w3]; try discriminate T;
    injection T as -> -> T; subst kids.
  - destruct (element_empty b s p sk w w0 nm ats w1 rest A V W Wk O) as (acc & Bd & H).
    exists acc, VNull, 0. split; [exact Bd|]. split; [reflexivity|]. cbn zeta. intros f _. rewrite H. cbn zeta.
    unfold entered, parent_of. cbn [p_pre]. rewrite Ep, Epr. reflexivity.
  - rename kids' into kids. pose proof (proj1 (item_ok_elem _ _ _ _ _ _ _ _) O) as (O1 & O2 & O3 & O4).
    destruct (elem_sits b (p + length w) w0 nm ats w1 kids w2 w3 rest (sits_app _ _ _ _ V)) as (V1 & V2 & V3 & L).
    set (p1 := p + length w + length (tag_bytes w0 nm ats w1 ++ [gt])) in *. set (p2 := p1 + length (raws kids)) in *.
    assert (V' : sits b p (w ++ tag_bytes w0 nm ats w1 ++ gt :: raws kids ++ close_bytes w2 nm w3 ++ rest)).
    { rewrite raw_elem in V. rewrite <- !app_assoc in V. cbn [app] in V. exact V. }
    destruct (element_elem b s p sk w w0 nm ats w1 _ A V' W Wk O1) as (acc & Bd & H).
    destruct (pre_all kids) as (IH & IH').
    destruct (pre_content kids (pre_tail kids IH IH') b (entered s nm p1) p1 _ (at_here _ _ _ _) V2 O4 (close_stops _ _ _ _)) as (F & HF);
      [unfold entered, parent_of; cbn [p_pre]; rewrite Ep; exact Epr|exact IH|exact IH'|].
    exists acc, (collect0 p1 kids), F. split; [exact Bd|]. split; [exact (collect_value b p1 kids _ V2)|].
    cbn zeta. intros f Hf. rewrite H. cbn zeta. fold p1.
    replace (p_pre (entered s nm p1)) with true by (unfold entered, parent_of; cbn [p_pre]; rewrite Ep, Epr; reflexivity).
    rewrite (HF f) by lia. cbn [bind]. fold p2.
    destruct (e_tag_complete b (with_lex (peeked b p2) (entered s nm p1)) p2 w2 nm w3 rest (at_peeked b p2) V3 O2 (proj1 (proj2 O1)) O3)
      as (n & c & He & N1 & N2 & N3).
    rewrite He. cbn [bind]. rewrite N1, N2, N3, (end_name _ _ _ _ _ _ V3), range_equal_refl. cbn [negb].
    unfold entered, parent_of. cbn [with_lex p_pre p_out p_calls]. rewrite Ep, Epr. cbn [orb]. rewrite L. reflexivity.
Qed.

Definition RunItems (h : list call) (is : list item) (o : bytes) (h' : list call) : Prop := forall b s p rest,
  At b (p_lex s) p false false -> sits b p (raws is ++ rest) -> items_ok is rest -> stops rest ->
  p_pre s = false -> p_calls s = h ->
  (exists F, forall f, F <= f -> tail f b VNull s = Ok VNull (Ps (peeked b (p + length (raws is))) false (p_out s ++ o) h')) /\
  (starts_chars is = false ->
   exists F, forall f, F <= f -> content_loop f b VNull s = Ok VNull (Ps (peeked b (p + length (raws is))) false (p_out s ++ o) h')).
Definition RunElement (h : list call) (i : item) (o : bytes) (h' : list call) : Prop := forall b s p sk w rest,
  At b (p_lex s) p sk false -> sits b p (w ++ raw i ++ rest) -> spaces w -> (sk = false -> w = []) -> item_ok i rest ->
  p_pre s = false -> p_calls s = h -> has_token b (p + length w + length (raw i)) ->
  exists F L, At b L (p + length w + length (raw i)) false false /\
    forall f, F <= f -> element f b s = Ok (Some VNull) (Ps L false (p_out s ++ o) h').
Definition RunParsed (h : list call) (x : bytes) (o : bytes) (h' : list call) : Prop := forall s sk,
  p_lex s = Lx 0 sk false None -> p_pre s = false -> p_calls s = h ->
  exists F L, forall f, F <= f -> parse_content f x s = Ok tt (Ps L false (p_out s ++ o) h').

Lemma content_tail f b s : p_pre s = false -> content (S f) b s = tail f b VNull s.
Proof.
  intros Ep. rewrite content_eq. unfold tail, is_token, next_token. destruct (get_token b (p_lex s)) as [t l| |]; [|reflexivity..].
  cbn [bind]. destruct (kind_eqb (t_kind t) KCharData); cbn [bind with_lex p_pre]; [rewrite Ep|]; reflexivity.
Qed.
(** from the loop to the tail when the items do not start with text *)
Lemma run_tail h is o h' : starts_chars is = false ->
  (forall b s p rest, At b (p_lex s) p false false -> sits b p (raws is ++ rest) -> items_ok is rest -> stops rest ->
     p_pre s = false -> p_calls s = h ->
     exists F, forall f, F <= f -> content_loop f b VNull s = Ok VNull (Ps (peeked b (p + length (raws is))) false (p_out s ++ o) h')) ->
  RunItems h is o h'.
Proof.
  intros C H b s p rest A V O St Ep Eh. split; [|intros _; exact (H b s p rest A V O St Ep Eh)].
  destruct (H b (with_lex (peeked b p) s) p rest (at_peeked b p) V O St Ep Eh) as (F & HF).
  exists F. intros f Hf. rewrite (tail_none f b VNull s p is rest A V O St C), (HF f Hf). reflexivity.
Qed.
Lemma run_text h i is o h' : tag_of i = None -> is_chars_item i = false -> RunItems h is o h' ->
  RunItems h (i :: is) (text_of i ++ o) h'.
Proof.
  intros Tg Ch IH. apply run_tail; [destruct i; try discriminate; reflexivity|].
  intros b s p rest A V O St Ep Eh. destruct (sits_items _ _ _ _ _ V) as (V1 & V2 & L).
  destruct (IH b (plus s (p + length (raw i)) (text_of i)) (p + length (raw i)) rest (at_here _ _ _ _) V2 (proj2 O) St Ep Eh) as ((F & HF) & _).
  exists (S (S F)). intros f Hf. destruct f as [|[|f]]; [lia..|].
  rewrite (loop_text f b VNull s p i is rest A V O St Tg Ch), Ep, (HF (S f)) by lia. rewrite L.
  unfold plus. cbn [p_out]. rewrite Ep, <- app_assoc. reflexivity.
Qed.

Lemma run_all :
  (forall h is o h', Render h is o h' -> RunItems h is o h') /\
  (forall h i o h', RenderE h i o h' -> RunElement h i o h') /\
  (forall h x o h', Parsed h x o h' -> RunParsed h x o h').
Proof.
  apply Render_ind3.
  - (* nothing *)
    intros h. apply run_tail; [reflexivity|]. intros b s p rest A V O St Ep Eh. cbn [raws flat_map app length] in *. rewrite Nat.add_0_r.
    exists 2. intros f Hf. destruct f as [|[|f]]; [lia..|]. rewrite (loop_stop f b VNull s p rest A V St).
    unfold with_lex. rewrite Ep, Eh, app_nil_r. reflexivity.
  - (* text *)
    intros h x is o h' _ IH b s p rest A V O St Ep Eh. split; [|discriminate].
    destruct (sits_items _ _ _ _ _ V) as (V1 & V2 & L). cbn [raw] in *.
    destruct (IH b (plus s (p + length x) x) (p + length x) rest (at_here _ _ _ _) V2 (proj2 O) St Ep Eh) as (_ & IH').
    destruct (IH' (after_chars _ _ _ O)) as (F & HF). exists F. intros f Hf.
    rewrite (tail_some f b VNull s p x is rest A V O St), Ep, (HF f Hf), L. unfold plus. cbn [p_out]. rewrite Ep, <- app_assoc. reflexivity.
  - intros h x is o h' _ IH. exact (run_text h (Ref x) is o h' eq_refl eq_refl IH).
  - intros h x is o h' _ IH. exact (run_text h (OpenRef x) is o h' eq_refl eq_refl IH).
  - intros h x is o h' _ IH. exact (run_text h (Comment x) is o h' eq_refl eq_refl IH).
  - (* an element *)
    intros h i is o1 h1 o h' Re IHe _ IHi.
    assert (Tn : tag_of i <> None).
    { inversion Re; subst; try discriminate; match goal with E : tag_of i = Some _ |- _ => rewrite E; discriminate end. }
    apply run_tail; [destruct i; try reflexivity; destruct Tn; reflexivity|].
    intros b s p rest A V O St Ep Eh. destruct (sits_items _ _ _ _ _ V) as (V1 & V2 & L).
    destruct (IHe b (with_lex (peeked b p) s) p false [] _ (at_peeked b p) V1 (Forall_nil _) (fun _ => eq_refl) (proj1 O) Ep Eh) as (F1 & Lx1 & A1 & H1).
    { cbn [length]. rewrite Nat.add_0_r. destruct (items_first b _ is rest V2 (proj2 O) St) as (t & l' & G & _). exists t, l'. exact G. }
    cbn [length] in A1. rewrite Nat.add_0_r in A1.
    destruct (IHi b (Ps Lx1 false (p_out s ++ o1) h1) _ rest A1 V2 (proj2 O) St eq_refl eq_refl) as ((F2 & H2) & _).
    exists (S (F1 + F2)). intros f Hf. destruct f as [|f]; [lia|].
    rewrite (loop_element f b VNull s p i is rest A V O St Tn), (H1 f) by lia. cbn [bind with_lex p_out].
    rewrite (H2 f) by lia. rewrite L. cbn [p_out]. rewrite <- app_assoc. reflexivity.
  - (* an empty element *)
    intros h w0 nm ats w1 l k x Epr D -> An b s p sk w rest A V W Wk O Ep Eh _.
    destruct (element_empty b s p sk w w0 nm ats w1 rest A V W Wk O) as (acc & Bd & H).
    exists 1, (Lx (p + length w + length (raw (Empty w0 nm ats w1))) false false None). split; [left; reflexivity|].
    intros f Hf. destruct f as [|f]; [lia|]. rewrite H. cbn zeta.
    unfold entered, parent_of. cbn [p_pre]. rewrite Ep, Eh, Epr. cbn [orb].
    rewrite (denotes_unique _ _ _ (built_denotes _ _ Bd) D), An. reflexivity.
  - (* an element that is copied *)
    intros h w0 nm ats w1 kids w2 w3 o h' Epr _ IH b s p sk w rest A V W Wk O Ep Eh _.
    pose proof (proj1 (item_ok_elem _ _ _ _ _ _ _ _) O) as (O1 & O2 & O3 & O4).
    destruct (elem_sits b (p + length w) w0 nm ats w1 kids w2 w3 rest (sits_app _ _ _ _ V)) as (V1 & V2 & V3 & L).
    set (p1 := p + length w + length (tag_bytes w0 nm ats w1 ++ [gt])) in *. set (p2 := p1 + length (raws kids)) in *.
    assert (V' : sits b p (w ++ tag_bytes w0 nm ats w1 ++ gt :: raws kids ++ close_bytes w2 nm w3 ++ rest)).
    { rewrite raw_elem in V. rewrite <- !app_assoc in V. cbn [app] in V. exact V. }
    destruct (element_elem b s p sk w w0 nm ats w1 _ A V' W Wk O1) as (acc & Bd & H).
    assert (En : p_pre (entered s nm p1) = false) by (unfold entered, parent_of; cbn [p_pre]; rewrite Ep, Eh, Epr; reflexivity).
    destruct (IH b (emit (tag_bytes w0 nm ats w1 ++ [gt]) (entered s nm p1)) p1 _ (at_here _ _ _ _) V2 O4 (close_stops _ _ _ _) En Eh) as ((F & HF) & _).
    exists (S (S F)), (Lx (p + length w + length (raw (Elem w0 nm ats w1 kids w2 w3))) false false None). split; [left; reflexivity|].
    intros f Hf. destruct f as [|[|f]]; [lia..|]. rewrite H. cbn zeta. fold p1. rewrite En.
    rewrite content_tail by exact En. rewrite (HF f) by lia. cbn [bind]. fold p2.
    destruct (e_tag_complete b (Ps (peeked b p2) false (p_out (emit (tag_bytes w0 nm ats w1 ++ [gt]) (entered s nm p1)) ++ o) h') p2 w2 nm w3 rest
                (at_peeked b p2) V3 O2 (proj1 (proj2 O1)) O3) as (n & c & He & N1 & N2 & N3).
    rewrite He. cbn [bind]. rewrite N1, N2, (end_name _ _ _ _ _ _ V3), range_equal_refl. cbn [negb with_lex p_pre].
    cbn [vr_bytes]. rewrite (echo_bytes b p2 w2 nm w3 rest V3), L. unfold emit, entered, with_lex. cbn [p_lex p_pre p_out p_calls]. f_equal. f_equal.
    cbn [with_lex p_out]. rewrite !app_nil_r. apps. reflexivity.
  - (* handed to the callback, which returns it *)
    intros h i nm ats kids l k Tg Epr D -> C b s p sk w rest A V W Wk O Ep Eh _.
    rewrite <- Eh in Epr. destruct (handed_over b s p sk w i rest nm ats kids Tg A V W Wk O Ep Epr) as (acc & v & F & Bd & Ev & H). cbn zeta in H.
    exists (S (S F)), (Lx (p + length w + length (raw i)) false false None). split; [left; reflexivity|].
    intros f Hf. destruct f as [|[|f]]; [lia..|]. rewrite (H (S f)) by lia. rewrite content_callback_eq. cbn match. cbn zeta.
    rewrite (sub_sits _ _ _ _ (sits_app _ _ _ _ V)), Ev, (denotes_unique _ _ _ (built_denotes _ _ Bd) D). cbn [p_calls]. rewrite Eh, C. reflexivity.
  - (* handed to the callback, whose answer is parsed *)
    intros h i nm ats kids l k x o h' Tg Epr D -> C _ IH b s p sk w rest A V W Wk O Ep Eh (t & l' & G).
    rewrite <- Eh in Epr. destruct (handed_over b s p sk w i rest nm ats kids Tg A V W Wk O Ep Epr) as (acc & v & F & Bd & Ev & H). cbn zeta in H.
    set (q := p + length w + length (raw i)) in *. set (k := Call (raw i) nm l (value_of kids)) in *.
    destruct (IH (Ps (Lx 0 true false None) false (p_out s) (h ++ [k])) true eq_refl eq_refl eq_refl) as (F2 & L2 & H2).
    exists (S (S (F + F2))), (putback t l'). split; [right; exists t, l'; auto|].
    intros f Hf. destruct f as [|[|f]]; [lia..|]. rewrite (H (S f)) by lia. rewrite content_callback_eq. cbn match. cbn zeta. fold q.
    assert (Eq : sub b (p + length w) q = raw i) by (exact (sub_sits _ _ _ _ (sits_app _ _ _ _ V))).
    rewrite Eq, Ev, (denotes_unique _ _ _ (built_denotes _ _ Bd) D). cbn [p_calls]. rewrite Eh.
    fold k. rewrite C. unfold next_position, next_token. cbn [log p_lex p_out p_calls p_pre]. fold q. rewrite G. cbn [bind with_lex p_lex p_out p_calls p_pre].
    match goal with |- context [parse_content f x ?st] =>
      replace st with (Ps (Lx 0 true false None) false (p_out s) (h ++ [k])) by (unfold with_lex, log; cbn [p_out p_calls]; rewrite ?Eh; reflexivity) end.
    rewrite (H2 f) by lia. reflexivity.
  - (* a text *)
    intros h is rest o h' O St _ IH s sk El Ep Eh.
    destruct (IH (raws is ++ rest) (with_lex (set_skip false (p_lex s)) s) 0 rest) as ((F & HF) & _);
      [left; cbn [with_lex p_lex]; rewrite El; reflexivity|apply sits_0|exact O|exact St|exact Ep|exact Eh|].
    exists (S (S F)), (peeked (raws is ++ rest) (length (raws is))). intros f Hf. destruct f as [|[|f]]; [lia..|].
    rewrite parse_content_eq. cbn zeta. rewrite content_tail by exact Ep. rewrite (HF f) by lia. reflexivity.
Qed.
End Complete.
