(** C61, C62, C63: the lexer of the expression language. *)
From Coq Require Import String Ascii ZArith List Bool Lia Floats.SpecFloat.
From Verif Require Import Prelude Vm_Value Token_Props Expr_Model Lex_Model Lex_Spec Lex_Proofs Lex_Token Lex_Rounds.
Import ListNotations.
Local Open Scope Z_scope.
Ltac Zify.zify_post_hook ::= idtac.

(** *** C61: which texts are read, and as which tokens *)
(** what is put for a lexeme: its token, or nothing for a comment when comments are bypassed *)
Definition token_for (kw : string -> bool) (rd : list ascii -> spec_float) (bypass : bool) (x : lexeme) : option token :=
  if bypass && comment x then None else Some (means kw rd x).

Section Cases.
Variable kw : string -> bool.
Variable bypass : bool.
Variable rd : list ascii -> spec_float.
Lemma lex_reads p t l e : p = origin -> reads_from p t l e -> lex kw bypass rd t = TOk (map (fragment_of kw bypass rd) l) (lp e).
Proof.
  intros -> Hr. exact (rounds_complete kw bypass rd _ _ _ _ Hr (start t) (S (List.length t)) (S (S (List.length t))) (start_at t) ltac:(lia) ltac:(lia)).
Qed.
Lemma lex_cases t : (exists l e, reads_from origin t l e) \/ (exists l, lex kw bypass rd t = TThrow l) \/
  (lex kw bypass rd t = TUndef /\ exists c, In c t /\ high c = true).
Proof.
  exact (rounds_cases kw bypass rd (S (List.length t)) t (start t) origin (S (S (List.length t))) (start_at t) ltac:(lia) ltac:(lia)).
Qed.
Lemma lex_ok t l e : lex kw bypass rd t = TOk l e -> exists ls e', reads_from origin t ls e' /\ l = map (fragment_of kw bypass rd) ls /\ e = lp e'.
Proof.
  intros H. destruct (lex_cases t) as [(ls & e' & Hr)|[(l' & Ht)|[Ht _]]]; [|congruence..].
  exists ls, e'. rewrite (lex_reads _ _ _ _ eq_refl Hr) in H. injection H as <- <-. auto.
Qed.
Lemma fragments_tokens ls : map snd (map (fragment_of kw bypass rd) ls) = map (token_for kw rd bypass) (map snd ls).
Proof.
  rewrite !map_map. apply map_ext. intros [p x]. unfold fragment_of, putted, token_for. cbn [snd]. rewrite andb_comm. reflexivity.
Qed.
End Cases.

(** For every text, keyword set and way to read decimals: when the lexer goes through to the end, the text is
    white space and longest lexemes, and what was delivered are their tokens, in order *)
Theorem C61_lexer_is_sound :
  forall kw bypass rd t l e, lex kw bypass rd t = TOk l e ->
  exists xs, reads_as t xs /\ map snd l = map (token_for kw rd bypass) xs.
Proof.
  intros kw bypass rd t l e H. apply lex_ok in H as (ls & e' & Hr & -> & _). exists (map snd ls).
  split; [apply (reads_from_as _ _ _ _ Hr)|apply fragments_tokens].
Qed.
(** Every text of white space and longest lexemes is read as that *)
Theorem C61_lexer_is_complete :
  forall kw bypass rd t xs, reads_as t xs ->
  exists l e, lex kw bypass rd t = TOk l e /\ map snd l = map (token_for kw rd bypass) xs.
Proof.
  intros kw bypass rd t xs H. destruct (reads_as_from t xs H origin) as (ls & e & Hr & <-).
  exists (map (fragment_of kw bypass rd) ls), (lp e). split; [apply (lex_reads kw bypass rd _ _ _ _ eq_refl Hr)|apply fragments_tokens].
Qed.
(** It throws exactly on the other texts, those of ASCII characters at least *)
Theorem C61_lexer_refuses_the_others :
  forall kw bypass rd t,
    ((exists l, lex kw bypass rd t = TThrow l) -> ~ exists xs, reads_as t xs) /\
    ((forall c, In c t -> code c < 128) -> (~ exists xs, reads_as t xs) -> exists l, lex kw bypass rd t = TThrow l).
Proof.
  intros kw bypass rd t. split.
  - intros (l & H) (xs & Hx). destruct (C61_lexer_is_complete kw bypass rd t xs Hx) as (l' & e & E & _). congruence.
  - intros Ha Hn. destruct (lex_cases kw bypass rd t) as [(ls & e & Hr)|[H|(_ & c & Hin & Hc)]]; [|exact H|].
    + exfalso. apply Hn. exists (map snd ls). apply (reads_from_as _ _ _ _ Hr).
    + specialize (Ha c Hin). unfold high, in_range in Hc. lia.
Qed.
(** No text reads in two ways: the tokens are determined *)
Corollary C61_reading_is_unambiguous :
  forall kw rd bypass t xs ys, reads_as t xs -> reads_as t ys -> map (token_for kw rd bypass) xs = map (token_for kw rd bypass) ys.
Proof.
  intros kw rd bypass t xs ys Hx Hy.
  destruct (C61_lexer_is_complete kw bypass rd t xs Hx) as (l & e & E & <-).
  destruct (C61_lexer_is_complete kw bypass rd t ys Hy) as (l' & e' & E' & <-). congruence.
Qed.
Theorem C61_lexer_terminates : forall kw bypass rd t, lex kw bypass rd t <> TFuel.
Proof.
  intros kw bypass rd t. destruct (lex_cases kw bypass rd t) as [(ls & e & Hr)|[(l & ->)|(-> & _)]]; [|discriminate..].
  rewrite (lex_reads kw bypass rd _ _ _ _ eq_refl Hr). discriminate.
Qed.

(** a text, its reading and its tokens *)
Definition cs (s : string) : list ascii := list_ascii_of_string s.
Example C61_case :
  exists e, lex (fun s => String.eqb s "view") true (fun _ => f_of_Z 7) (cs "if_1<==0xFf/* c */ view 'a' ""b""!=7.5 // end")
    = TOk e (mk_line_position 43 1 0) /\
  map snd e = [Some (mk_token identifier_k (VName "if_1")); Some (mk_token is_k VEmpty); Some (mk_token number_k (VNum (f_of_Z 255)));
               None; Some (mk_token keyword_k (VName "view")); Some (mk_token string_k (VStr "ab"));
               Some (mk_token not_equal_k VEmpty); Some (mk_token number_k (VNum (f_of_Z 7))); None].
Proof. eexists. vm_compute. split; reflexivity. Qed.
(** quirks of the language the lexer reads: "1.2.3" is one number, a quote that ends the text is an empty
    string, and a NUL ends the value of a string *)
Example C61_quirks :
  reads_as (cs "1.2.3") [Dec (cs "1.2.3")] /\ reads_as (cs "x'") [Word (cs "x"); Str [] (cs "'")] /\
  (forall kw rd a b, means kw rd (Str [mk_piece "'" (cs a ++ "000"%char :: cs b) []] []) = means kw rd (Str [mk_piece "'" (cs a) []] [])).
Proof.
  split; [|split].
  - apply (reads_next [] (Dec (cs "1.2.3")) [] []); [constructor|..|constructor; constructor].
    + exists "1"%char, (cs ".2.3"). repeat split. repeat constructor.
    + split; [exact I|]. intros [H _]. discriminate.
  - apply (reads_next [] (Word (cs "x")) (cs "'") [Str [] (cs "'")]); [constructor|exists "x"%char, []; repeat split; constructor|reflexivity|].
    apply (reads_next [] (Str [] (cs "'")) [] []); [constructor| |reflexivity|constructor; constructor].
    split; [constructor|]. right. exists "'"%char. split; reflexivity.
  - intros kw rd a b. cbn [means map concat p_body]. rewrite !app_nil_r. do 3 f_equal. unfold cs.
    induction a as [|c a IH]; [reflexivity|]. cbn [list_ascii_of_string app until_nul]. destruct (Ascii.eqb c "000"); [reflexivity|]. f_equal. exact IH.
Qed.

(** *** C63: bytes that are not ASCII *)
(** A text that has none, or has them in its strings and comments only, never runs into undefined behaviour *)
Theorem C63_ascii_texts_are_defined_partial :
  forall kw bypass rd t,
    ((forall c, In c t -> code c < 128) -> lex kw bypass rd t <> TUndef) /\
    ((exists xs, reads_as t xs) -> lex kw bypass rd t <> TUndef).
Proof.
  intros kw bypass rd t. split.
  - intros Ha. destruct (lex_cases kw bypass rd t) as [(ls & e & Hr)|[(l & ->)|(-> & c & Hin & Hc)]]; [|discriminate|].
    + rewrite (lex_reads kw bypass rd _ _ _ _ eq_refl Hr). discriminate.
    + specialize (Ha c Hin). unfold high, in_range in Hc. lia.
  - intros (xs & Hx). destruct (C61_lexer_is_complete kw bypass rd t xs Hx) as (l & e & -> & _). discriminate.
Qed.
(** but one outside passes a negative number to a <cctype> function *)
Theorem C63_other_texts_refuted :
  forall kw bypass rd c r, 128 <= code c < 255 -> lex kw bypass rd (c :: r) = TUndef.
Proof.
  intros kw bypass rd c r Hc. assert (Hh : high c = true) by (unfold high, in_range; lia).
  assert (Hs : space c = false).
  { unfold space, in_range. apply orb_false_iff. split; [|lia]. apply Ascii.eqb_neq. intros ->. discriminate Hh. }
  unfold lex. cbn [Lex_Model.rounds]. unfold Lex_Model.round.
  destruct (skip_exact [] (c :: r) (start (c :: r)) 1 origin (S (S (List.length (c :: r)))) (Forall_nil _) Hs (le_n 1) (start_at _) ltac:(cbn; lia)) as [_ Hbad].
  rewrite Hbad; [reflexivity|]. cbn [not_first]. congruence.
Qed.
Example C63_case : exists l e, lex (fun _ => false) false (fun _ => f_of_Z 0) (cs "'" ++ ["195"; "169"]%char ++ cs "' // " ++ ["200"]%char) = TOk l e.
Proof. eexists. eexists. vm_compute. reflexivity. Qed.

(** *** C62: positions *)
(** the number of lines ended in a text: LF, CR LF and CR alone end one *)
Fixpoint lines_ended (l : list ascii) : Z :=
  match l with
  | [] => 0
  | c :: l' => (if Ascii.eqb c LF then 1
                else if Ascii.eqb c CR then match l' with d :: _ => if Ascii.eqb d LF then 0 else 1 | [] => 1 end
                else 0) + lines_ended l'
  end.
(** the last line of a text *)
Definition last_line (l line : list ascii) : Prop :=
  exists before, l = before ++ line /\ all (fun c => negb (line_end c)) line /\
                 (before = [] \/ exists b c, before = b ++ [c] /\ line_end c = true).
(** no string of the text has a line end between its quotes *)
Definition one_line (x : lexeme) : Prop :=
  match x with Str ps _ => Forall (fun p => all (fun c => negb (line_end c)) (p_body p)) ps | _ => True end.

Lemma move_characters n p : characters (move n p) = characters p + Z.of_nat n.
Proof. reflexivity. Qed.
Lemma walk_characters l : forall p, characters (walk l p) = characters p + Z.of_nat (List.length l).
Proof.
  induction l as [l IH] using (induction_ltof1 _ (@List.length ascii)). unfold ltof in IH. intros p.
  destruct l as [|c l]; [cbn; lia|]. cbn [walk]. destruct (Ascii.eqb c LF).
  { rewrite IH by (cbn; lia). cbn [characters new_line move List.length]. lia. }
  destruct (Ascii.eqb c CR); [destruct l as [|d l]; [|destruct (Ascii.eqb d LF)]|].
  - cbn [characters new_line move List.length]. lia.
  - rewrite IH by (cbn; lia). cbn [characters new_line move List.length]. lia.
  - rewrite IH by (cbn; lia). cbn [characters new_line move List.length]. lia.
  - rewrite IH by (cbn; lia). cbn [characters move List.length]. lia.
Qed.
Lemma after_characters x p : characters (after x p) = characters p + Z.of_nat (List.length (spelled x)).
Proof.
  destruct x as [w0|x ds|w0|k|ps lone|body le|body]; try reflexivity.
  - cbn [after spelled]. rewrite move_characters, app_length.
    assert (H : forall p, characters (fold_left after_piece ps p) = characters p + Z.of_nat (List.length (concat (map written_piece ps)))).
    { clear. induction ps as [|y ps IH]; intros p; [cbn; lia|]. cbn [fold_left map concat]. rewrite IH, app_length.
      unfold after_piece at 1. rewrite walk_characters, move_characters. unfold written_piece at 2.
      cbn [app List.length]. rewrite !app_length. cbn [List.length]. lia. }
    rewrite H. lia.
  - cbn [after spelled]. rewrite walk_characters, move_characters. cbn [List.length]. rewrite app_length. lia.
  - cbn [after spelled]. rewrite move_characters, walk_characters, move_characters. cbn [List.length]. rewrite app_length. cbn [List.length]. lia.
Qed.
(** reading: the character count is right everywhere *)
Lemma reads_positions p t l e : reads_from p t l e ->
  (forall i q x, nth_error l i = Some (q, x) -> exists a b, t = a ++ spelled x ++ b /\ characters q = characters p + Z.of_nat (List.length a)) /\
  characters e = characters p + Z.of_nat (List.length t).
Proof.
  intros H. induction H as [p ws Hws|p ws x r l e Hws Hx He Hr [IH1 IH2]].
  - split; [intros [|i] q x H; discriminate|]. apply walk_characters.
  - split.
    + intros [|i] q y E.
      * cbn in E. injection E as <- <-. exists ws, r. split; [reflexivity|]. apply walk_characters.
      * cbn in E. destruct (IH1 i q y E) as (a & b & -> & Hq). exists (ws ++ spelled x ++ a), b. split; [rewrite <- !app_assoc; reflexivity|].
        rewrite Hq, after_characters, walk_characters, !app_length. lia.
    + rewrite IH2, after_characters, walk_characters, !app_length. lia.
Qed.
(** The position delivered with a token is the number of characters before it; with the end, all *)
Theorem C62_position_is_the_offset :
  forall kw bypass rd t l e, lex kw bypass rd t = TOk l e ->
    (forall i q o, nth_error l i = Some (q, o) ->
       exists x a b, o = token_for kw rd bypass x /\ t = a ++ spelled x ++ b /\ position_m q = Z.of_nat (List.length a)) /\
    position_m e = Z.of_nat (List.length t).
Proof.
  intros kw bypass rd t l e H. apply lex_ok in H as (ls & e' & Hr & -> & ->). apply reads_positions in Hr as [H1 H2]. split.
  - intros i q o E. rewrite nth_error_map in E. destruct (nth_error ls i) as [[p x]|] eqn:Ei; [|discriminate]. injection E as <- <-.
    destruct (H1 i p x Ei) as (a & b & Et & Hp). exists x, a, b. split; [unfold token_for, putted; rewrite andb_comm; reflexivity|]. split; [exact Et|].
    cbn [position_m lp fst]. rewrite Hp. reflexivity.
  - cbn [position_m lp]. rewrite H2. reflexivity.
Qed.

(** lines *)
Definition clean (l : list ascii) : Prop := all (fun c => negb (line_end c)) l.
Lemma not_lf c : line_end c = false -> Ascii.eqb c LF = false /\ Ascii.eqb c CR = false.
Proof. intros H. apply orb_false_iff in H. exact H. Qed.
Lemma walk_clean l : clean l -> forall p, walk l p = move (List.length l) p.
Proof.
  intros H. induction H as [|c l Hc _ IH]; intros p; [symmetry; apply move_0|]. cbn [walk]. apply negb_true_iff, not_lf in Hc as [-> ->].
  rewrite IH, move_move. f_equal. cbn; lia.
Qed.
Lemma walk_app a : forall b p, ((exists a', a = a' ++ [CR]) -> not_first (Ascii.eqb LF) b) -> walk (a ++ b) p = walk b (walk a p).
Proof.
  induction a as [a IH] using (induction_ltof1 _ (@List.length ascii)). unfold ltof in IH. intros b p H.
  destruct a as [|c a]; [reflexivity|]. cbn [app walk].
  assert (Hd : forall x a1, c :: a = x ++ a1 -> (exists a', a1 = a' ++ [CR]) -> not_first (Ascii.eqb LF) b).
  { intros x a1 E (a' & ->). apply H. exists (x ++ a'). rewrite E, app_assoc. reflexivity. }
  destruct (Ascii.eqb c LF); [apply IH; [cbn; lia|]; apply (Hd [c]); reflexivity|].
  destruct (Ascii.eqb_spec c CR) as [-> | N].
  - destruct a as [|d a].
    + cbn [app]. specialize (H (ex_intro _ [] eq_refl)). destruct b as [|d b]; [reflexivity|]. cbn [not_first] in H.
      rewrite Ascii.eqb_sym in H. rewrite H. reflexivity.
    + cbn [app]. destruct (Ascii.eqb d LF).
      * apply IH; [cbn; lia|]. apply (Hd [CR; d]); reflexivity.
      * apply (IH (d :: a)); [cbn; lia|]. apply (Hd [CR]); reflexivity.
  - apply IH; [cbn; lia|]. apply (Hd [c]); reflexivity.
Qed.
Lemma clean_last a : clean a -> ~ exists a', a = a' ++ [CR].
Proof. intros H (a' & ->). apply Forall_app in H as [_ H]. inversion H; subst. discriminate. Qed.
Lemma walk_clean_app a b p : clean a -> walk (a ++ b) p = walk b (move (List.length a) p).
Proof. intros H. rewrite walk_app; [rewrite (walk_clean a H); reflexivity|]. intros Hl. destruct (clean_last a H Hl). Qed.
Lemma all_imp (f g : ascii -> bool) l : (forall c, f c = true -> g c = true) -> all f l -> all g l.
Proof. intros H Ha. apply (Forall_impl _ H Ha). Qed.
Lemma quote_clean q : quote q = true -> negb (line_end q) = true.
Proof. revert q. apply bytes_imp. vm_compute. reflexivity. Qed.
Lemma quote_not_lf q l : quote q = true -> not_first (Ascii.eqb LF) (q :: l).
Proof. intros H. cbn [not_first]. apply negb_true_iff. revert q H. apply bytes_imp. vm_compute. reflexivity. Qed.
Lemma clean_word w : all word_char w -> clean w.
Proof. apply all_imp. apply bytes_imp. vm_compute. reflexivity. Qed.
Lemma clean_hex w : all hexit w -> clean w.
Proof. apply all_imp. apply bytes_imp. vm_compute. reflexivity. Qed.
Lemma clean_dec w : all dec_char w -> clean w.
Proof. apply all_imp. apply bytes_imp. vm_compute. reflexivity. Qed.
Definition simple_lexeme (x : lexeme) : bool := match x with Word _ | Hex _ _ | Dec _ | Op _ => true | _ => false end.
Lemma simple_clean x : simple_lexeme x = true -> well_formed x -> clean (spelled x).
Proof.
  destruct x as [w0|x ds|w0|k|ps lone|body le|body]; try discriminate; intros _ Hx.
  - destruct Hx as (c & w' & -> & H1 & H2). apply clean_word. constructor; [apply start_word, H1|exact H2].
  - destruct Hx as (Hx & _ & Hd). constructor; [reflexivity|]. constructor; [destruct Hx as [-> | ->]; reflexivity|apply clean_hex, Hd].
  - destruct Hx as (c & w' & -> & H1 & H2). apply clean_dec. constructor; [apply digit_dec, H1|exact H2].
  - cbn in Hx. destruct k; try discriminate Hx; repeat constructor.
Qed.
Definition quoted (y : piece) : list ascii := p_quote y :: p_body y ++ [p_quote y].
Lemma quoted_clean y : piece_ok y -> clean (p_body y) -> clean (quoted y).
Proof.
  intros (Hq & _) Hb. constructor; [apply quote_clean, Hq|]. apply Forall_app. split; [exact Hb|]. constructor; [apply quote_clean, Hq|constructor].
Qed.
Lemma pieces_walk ps : Forall piece_ok ps -> Forall (fun p => clean (p_body p)) ps -> forall r p,
  not_first (Ascii.eqb LF) r ->
  walk (concat (map written_piece ps) ++ r) p = walk r (fold_left after_piece ps p).
Proof.
  intros H1 H2. induction H1 as [|y ps Hy Hps IH]; intros r p Hr; [reflexivity|]. inversion H2 as [|? ? Hc H2']; subst.
  cbn [map concat fold_left]. change (written_piece y) with (quoted y ++ p_space y). rewrite <- !app_assoc.
  rewrite (walk_clean_app (quoted y)) by (apply quoted_clean; assumption). rewrite walk_app.
  - rewrite (IH H2' r _ Hr). f_equal. f_equal. unfold after_piece. f_equal. f_equal. unfold quoted. cbn [List.length]. rewrite app_length. cbn; lia.
  - intros _. destruct ps as [|z ps]; [exact Hr|]. inversion Hps as [|? ? [Hq _] _]; subst. apply (quote_not_lf (p_quote z)). exact Hq.
Qed.
Lemma after_walk x p : well_formed x -> one_line x -> after x p = walk (spelled x) p.
Proof.
  intros Hx H1. destruct (simple_lexeme x) eqn:Es.
  { rewrite walk_clean by (apply simple_clean; assumption). destruct x; try discriminate Es; reflexivity. }
  destruct x as [w0|x ds|w0|k|ps lone|body le|body]; try discriminate Es; cbn [after spelled].
  - destruct Hx as (Hps & Hl). destruct Hl as [[-> _]|(q & -> & Hq)].
    + rewrite (pieces_walk ps Hps H1 [] p I). cbn [walk List.length]. apply move_0.
    + rewrite (pieces_walk ps Hps H1 [q] p (quote_not_lf q [] Hq)). rewrite walk_clean; [reflexivity|].
      constructor; [apply quote_clean, Hq|constructor].
  - destruct Hx as [Hb _]. change ("/"%char :: "/"%char :: body ++ le) with (("/"%char :: "/"%char :: body) ++ le).
    rewrite walk_clean_app; [reflexivity|]. constructor; [reflexivity|]. constructor; [reflexivity|exact Hb].
  - change ("/"%char :: "*"%char :: body ++ ["*"; "/"]%char) with (["/"; "*"]%char ++ body ++ ["*"; "/"]%char).
    rewrite walk_clean_app by (repeat constructor). rewrite walk_app by (intros _; reflexivity).
    rewrite (walk_clean ["*"; "/"]%char) by (repeat constructor). reflexivity.
Qed.
Lemma spelled_cr x r : well_formed x -> ends_before x r -> (exists a, spelled x = a ++ [CR]) -> not_first (Ascii.eqb LF) r.
Proof.
  intros Hx He Hl. destruct (simple_lexeme x) eqn:Es; [destruct (clean_last _ (simple_clean x Es Hx) Hl)|].
  assert (Hsp : not_first space r -> not_first (Ascii.eqb LF) r).
  { destruct r as [|c r]; [auto|]. cbn [not_first]. destruct (Ascii.eqb_spec LF c) as [<- | ]; [discriminate|reflexivity]. }
  destruct x as [w0|x ds|w0|k|ps lone|body le|body]; try discriminate Es.
  - destruct lone as [|q lone]; [apply Hsp, He|]. cbn in He. subst r. exact I.
  - destruct Hx as [Hb [-> |[-> |[-> | ->]]]].
    + cbn in He. subst r. exact I.
    + destruct Hl as (a & E). cbn [spelled] in E. change ("/"%char :: "/"%char :: body ++ [LF]) with (("/"%char :: "/"%char :: body) ++ [LF]) in E.
      apply app_inj_tail in E as [_ E]. discriminate.
    + apply He. reflexivity.
    + destruct Hl as (a & E). cbn [spelled] in E. change ("/"%char :: "/"%char :: body ++ [CR; LF]) with (("/"%char :: "/"%char :: body) ++ [CR] ++ [LF]) in E.
      rewrite app_assoc in E. apply app_inj_tail in E as [_ E]. discriminate.
  - destruct Hl as (a & E). cbn [spelled] in E. change ("/"%char :: "*"%char :: body ++ ["*"; "/"]%char) with (("/"%char :: "*"%char :: body) ++ ["*"%char] ++ ["/"%char]) in E.
    rewrite app_assoc in E. apply app_inj_tail in E as [_ E]. discriminate.
Qed.
Lemma last_of_app {A} (a b : list A) c : b <> [] -> (exists a', a ++ b = a' ++ [c]) -> exists b', b = b' ++ [c].
Proof.
  intros Hb (a' & E). destruct (exists_last Hb) as (b' & d & ->). rewrite app_assoc in E. apply app_inj_tail in E as [_ ->]. eauto.
Qed.
Lemma reads_walk p t l e : reads_from p t l e -> Forall (fun e => one_line (snd e)) l -> forall a0,
  p = walk a0 origin -> ((exists a', a0 = a' ++ [CR]) -> not_first (Ascii.eqb LF) t) ->
  (forall i q x, nth_error l i = Some (q, x) -> exists a b, t = a ++ spelled x ++ b /\ q = walk (a0 ++ a) origin) /\ e = walk (a0 ++ t) origin.
Proof.
  intros H. induction H as [p ws Hws|p ws x r l e Hws Hx He Hr IH]; intros Hone a0 Hp Hj.
  - split; [intros [|i] q x H; discriminate|]. rewrite walk_app by exact Hj. subst p. reflexivity.
  - inversion Hone as [|? ? Hx1 Hone']; subst. cbn [snd] in Hx1.
    assert (Ew : walk ws (walk a0 origin) = walk (a0 ++ ws) origin).
    { symmetry. apply walk_app. intros H. specialize (Hj H). destruct ws; [exact I|exact Hj]. }
    assert (Ex : after x (walk ws (walk a0 origin)) = walk (a0 ++ ws ++ spelled x) origin).
    { rewrite after_walk by assumption. rewrite Ew, app_assoc. symmetry. apply walk_app. intros _.
      destruct (spelled_first x [] Hx) as (c & w & E & _ & Hsp). rewrite app_nil_r in E. rewrite E. cbn [not_first].
      destruct (Ascii.eqb_spec LF c) as [<- | ]; [discriminate Hsp|reflexivity]. }
    assert (Hne : spelled x <> []) by (intros E; destruct (spelled_first x [] Hx) as (c & w & E2 & _); rewrite E in E2; discriminate E2).
    destruct (IH Hone' (a0 ++ ws ++ spelled x) Ex) as [IH1 IH2].
    { intros Hl. rewrite app_assoc in Hl. apply last_of_app in Hl; [|exact Hne]. apply (spelled_cr x r Hx He Hl). }
    split.
    + intros [|i] q y E.
      * cbn in E. injection E as <- <-. exists ws, r. split; [reflexivity|exact Ew].
      * cbn in E. destruct (IH1 i q y E) as (a & b & -> & Hq). exists (ws ++ spelled x ++ a), b.
        split; rewrite <- ?app_assoc in *; [reflexivity|exact Hq].
    + rewrite <- !app_assoc in IH2. exact IH2.
Qed.
(** what walking from the origin counts *)
Lemma walk_lines l : forall p, line_number (walk l p) = line_number p + lines_ended l.
Proof.
  induction l as [l IH] using (induction_ltof1 _ (@List.length ascii)). unfold ltof in IH. intros p.
  destruct l as [|c l]; [cbn; lia|]. cbn [walk lines_ended]. destruct (Ascii.eqb c LF).
  { rewrite IH by (cbn; lia). cbn [line_number new_line move]. lia. }
  destruct (Ascii.eqb c CR); [destruct l as [|d l]; [|destruct (Ascii.eqb d LF) eqn:Ed]|].
  - reflexivity.
  - rewrite IH by (cbn; lia). cbn [line_number new_line move lines_ended]. rewrite Ed. lia.
  - rewrite IH by (cbn; lia). cbn [line_number new_line move]. lia.
  - rewrite IH by (cbn; lia). cbn [line_number move]. lia.
Qed.
Lemma walk_begins l : forall p, exists before line, l = before ++ line /\ clean line /\
  ((before = [] /\ line_begins (walk l p) = line_begins p) \/
   ((exists b c, before = b ++ [c] /\ line_end c = true) /\ line_begins (walk l p) = characters p + Z.of_nat (List.length before))).
Proof.
  induction l as [l IH] using (induction_ltof1 _ (@List.length ascii)). unfold ltof in IH. intros p.
  destruct l as [|c l]; [exists [], []; repeat split; [constructor|left; auto]|]. cbn [walk].
  assert (Hnl : forall x c' l', c :: l = (x ++ [c']) ++ l' -> line_end c' = true -> (List.length l' < List.length (c :: l))%nat ->
     exists before line, c :: l = before ++ line /\ clean line /\
       ((before = [] /\ line_begins (walk l' (new_line (move (List.length (x ++ [c'])) p))) = line_begins p) \/
        ((exists b c0, before = b ++ [c0] /\ line_end c0 = true) /\
         line_begins (walk l' (new_line (move (List.length (x ++ [c'])) p))) = characters p + Z.of_nat (List.length before)))).
  { intros x c' l' E Hc' Hlen. destruct (IH l' Hlen (new_line (move (List.length (x ++ [c'])) p))) as (before & line & -> & Hcl & Hcase).
    exists ((x ++ [c']) ++ before), line. split; [rewrite E, app_assoc; reflexivity|]. split; [exact Hcl|]. right.
    destruct Hcase as [[-> ->]|[(b & c0 & -> & Hc0) ->]].
    - split; [exists x, c'; rewrite app_nil_r; auto|]. rewrite app_nil_r. cbn [line_begins new_line characters move]. lia.
    - split; [exists ((x ++ [c']) ++ b), c0; rewrite app_assoc; auto|]. cbn [characters new_line move]. rewrite (app_length (x ++ [c'])). lia. }
  destruct (Ascii.eqb_spec c LF) as [-> | N1].
  { apply (Hnl [] LF l); [reflexivity|reflexivity|cbn; lia]. }
  destruct (Ascii.eqb_spec c CR) as [-> | N2]; [destruct l as [|d l]; [|destruct (Ascii.eqb_spec d LF) as [-> | N3]]|].
  - apply (Hnl [] CR []); [reflexivity|reflexivity|cbn; lia].
  - apply (Hnl [CR] LF l); [reflexivity|reflexivity|cbn; lia].
  - apply (Hnl [] CR (d :: l)); [reflexivity|reflexivity|cbn; lia].
  - destruct (IH l ltac:(cbn; lia) (move 1 p)) as (before & line & -> & Hcl & Hcase).
    destruct Hcase as [[-> E]|[(b & c0 & -> & Hc0) E]].
    + exists [], (c :: line). split; [reflexivity|]. split; [constructor; [|exact Hcl]|left; split; [reflexivity|exact E]].
      apply negb_true_iff, orb_false_iff. split; apply Ascii.eqb_neq; assumption.
    + exists (c :: b ++ [c0]), line. split; [reflexivity|]. split; [exact Hcl|]. right. split; [exists (c :: b), c0; auto|].
      rewrite E. cbn [characters move List.length]. lia.
Qed.

(** When no string has a line end inside it, the line number delivered with a token is the number of the
    line it is on, counted from 1, and the line start is where that line starts *)
Theorem C62_line_number_is_right_partial :
  forall kw bypass rd t xs l e, reads_as t xs -> Forall one_line xs -> lex kw bypass rd t = TOk l e ->
    forall i q o, nth_error l i = Some (q, o) ->
    exists x a b line, o = token_for kw rd bypass x /\ t = a ++ spelled x ++ b /\ position_m q = Z.of_nat (List.length a) /\
      line_number_m q = 1 + lines_ended a /\
      last_line a line /\ line_start_m q = Z.of_nat (List.length a) - Z.of_nat (List.length line).
Proof.
  intros kw bypass rd t xs l e Hxs Hone H. destruct (reads_as_from t xs Hxs origin) as (ls & e' & Hr & <-).
  rewrite (lex_reads kw bypass rd _ _ _ _ eq_refl Hr) in H. injection H as <- <-.
  assert (Ho : Forall (fun e => one_line (snd e)) ls).
  { rename Hone into Ho. clear - Ho. induction ls; [constructor|]. inversion Ho; subst. constructor; auto. }
  destruct (reads_walk _ _ _ _ Hr Ho [] eq_refl) as [H1 _]; [intros (a' & E); destruct a'; discriminate|].
  intros i q o E. rewrite nth_error_map in E. destruct (nth_error ls i) as [[p x]|] eqn:Ei; [|discriminate]. injection E as <- <-.
  destruct (H1 i p x Ei) as (a & b & Et & Hp). cbn [app] in Hp.
  destruct (walk_begins a origin) as (before & line & Ea & Hcl & Hcase).
  exists x, a, b, line. split; [unfold token_for, putted; rewrite andb_comm; reflexivity|]. split; [exact Et|].
  cbn [position_m line_number_m line_start_m lp fst]. subst p. rewrite walk_characters, walk_lines.
  split; [reflexivity|]. split; [reflexivity|]. split.
  - exists before. split; [exact Ea|]. split; [exact Hcl|]. destruct Hcase as [[-> _]|[Hb _]]; auto.
  - rewrite Ea at 2. rewrite app_length. destruct Hcase as [[-> ->]|[_ ->]]; cbn [line_begins characters origin List.length]; lia.
Qed.
Example C62_case :
  lex (fun _ => false) true (fun _ => f_of_Z 0) (cs "a" ++ [CR; LF; LF]%char ++ cs "/*" ++ [CR]%char ++ cs "*/ bc")
  = TOk [(mk_line_position 0 1 0, Some (mk_token identifier_k (VName "a")));
         (mk_line_position 4 3 4, None);
         (mk_line_position 10 4 7, Some (mk_token identifier_k (VName "bc")))] (mk_line_position 12 4 7).
Proof. vm_compute. reflexivity. Qed.
(** A line end inside a string is not counted: the token after it is given the wrong line *)
Theorem C62_line_number_after_multi_line_string_refuted :
  exists t l e q o, lex (fun _ => false) false (fun _ => f_of_Z 0) t = TOk l e /\ nth_error l 1 = Some (q, o) /\
    o = Some (mk_token identifier_k (VName "x")) /\ t = cs "'" ++ [LF] ++ cs "'x" /\ lines_ended (cs "'" ++ [LF] ++ cs "'") = 1 /\ line_number_m q = 1.
Proof.
  exists (cs "'" ++ [LF] ++ cs "'x"). do 4 eexists. split; [vm_compute; reflexivity|]. repeat split.
Qed.
