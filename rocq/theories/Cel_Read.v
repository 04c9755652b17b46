(** The text of a value reads as an expression whose meaning is that value. *)
From Coq Require Import String Ascii ZArith Lia Permutation Floats.SpecFloat.
From Verif Require Import Prelude Unicode_Model Vm_Value Vm_Model Vm_Spec Entity_Model Expr_Model Expr_Spec Token_Props Lex_Spec Cel_Model Cel_Spec Cel_Proofs.
From Verif Require Entity_Props.
From Coq Require Import List.
Import ListNotations.
Local Open Scope nat_scope.
Ltac Zify.zify_post_hook ::= idtac.

(** what may come after a value: the end, a comma or a closing bracket, perhaps after white space *)
Definition closer (k : tk) : Prop := k = comma_k \/ k = close_bracket_k \/ k = close_brace_k \/ k = close_parenthesis_k.
Definition follow (r : list ascii) (xs : list lexeme) : Prop :=
  reads_as r xs /\ (xs = [] \/ exists k xs', xs = Op k :: xs' /\ closer k).
Definition closing (c : ascii) : Prop := c = ","%char \/ c = "]"%char \/ c = "}"%char \/ c = ")"%char.
Lemma follow_split r xs : follow r xs -> exists ws t, r = ws ++ t /\ all space ws /\ reads_as t xs /\ (t = [] \/ exists c t', t = c :: t' /\ closing c).
Proof.
  intros [H F]. inversion H as [ws Hw E1 E2|ws x r' xs' Hw Wx Ex Hr E1 E2]; subst.
  - exists r, []. rewrite app_nil_r. split; [reflexivity|]. split; [exact Hw|]. split; [|now left]. apply (reads_end []). constructor.
  - exists ws, (spelled x ++ r'). split; [reflexivity|]. split; [exact Hw|]. split.
    + apply (reads_next [] x r' xs'); auto. constructor.
    + right. destruct F as [F|(k & xs'' & F & K)]; [discriminate|]. injection F as -> ->.
      destruct K as [-> | [-> | [-> | ->]]]; cbn; eexists; eexists; (split; [reflexivity|]); unfold closing; auto.
Qed.
Definition follow_char (c : ascii) : Prop := space c = true \/ closing c.
Lemma follow_first r xs : follow r xs -> match r with [] => True | c :: _ => follow_char c end.
Proof.
  intros H. destruct (follow_split r xs H) as (ws & t & -> & Hw & _ & Ht). destruct ws as [|c ws]; cbn [app].
  - destruct Ht as [-> | (c & t' & -> & Hc)]; [exact I|]. now right.
  - inversion Hw; subst. now left.
Qed.
Lemma space_range c : space c = true -> c = " "%char \/ (9 <= code c <= 13)%Z.
Proof.
  unfold space, in_range. rewrite Bool.orb_true_iff, Bool.andb_true_iff. intros [H|[H1 H2]]; [left; now apply Ascii.eqb_eq|right]. split; now apply Z.leb_le.
Qed.
Lemma follow_code c : follow_char c -> (9 <= code c <= 13 \/ code c = 32 \/ code c = 44 \/ code c = 93 \/ code c = 125 \/ code c = 41)%Z.
Proof.
  intros [H|[-> | [-> | [-> | ->]]]]; [|vm_compute; intuition congruence ..]. destruct (space_range c H) as [-> | H']; [right; left; reflexivity|left; exact H'].
Qed.
Ltac ranges := unfold word_char, letter, digit, dec_char, hexit, in_range in *; 
  repeat match goal with
  | |- context [Z.leb ?a ?b] => destruct (Z.leb_spec a b); try lia
  end.
Lemma eqb_code (c : ascii) d : code c <> code d -> Ascii.eqb c d = false.
Proof. intros H. apply Ascii.eqb_neq. congruence. Qed.
Lemma follow_not c : follow_char c -> word_char c = false /\ dec_char c = false /\ hexit c = false /\ c <> "x"%char /\ c <> "X"%char /\ c <> ">"%char.
Proof.
  intros H. apply follow_code in H.
  assert (U : Ascii.eqb c "_" = false) by (apply eqb_code; change (code "_") with 95%Z; lia).
  assert (V : Ascii.eqb c "." = false) by (apply eqb_code; change (code ".") with 46%Z; lia).
  unfold word_char, dec_char, hexit. rewrite U, V. unfold letter, digit, in_range.
  split; [ranges; reflexivity|]. split; [ranges; reflexivity|]. split; [ranges; reflexivity|].
  assert (code c <> code "x" /\ code c <> code "X" /\ code c <> code ">") as (A & B & C).
  { change (code "x") with 120%Z. change (code "X") with 88%Z. change (code ">") with 62%Z. lia. }
  repeat split; intros ->; congruence.
Qed.

Lemma op_follow k : closer k \/ k = open_bracket_k \/ k = open_brace_k \/ k = open_parenthesis_k \/ k = colon_k \/ k = at_k -> forall r, ends_before (Op k) r.
Proof.
  intros H r. split.
  - intros k' u O E N _. unfold closer in H.
    destruct H as [[-> | [-> | [-> | ->]]] | [-> | [-> | [-> | [-> | ->]]]]]; destruct k'; try discriminate O; cbn in E; injection E as E; try discriminate E; try (destruct u; [congruence|discriminate E]).
  - intros [E _]. subst k. unfold closer in H. intuition discriminate.
Qed.
Lemma reads_op k r xs : closer k \/ k = open_bracket_k \/ k = open_brace_k \/ k = open_parenthesis_k \/ k = colon_k \/ k = at_k ->
  reads_as r xs -> reads_as (written k ++ r) (Op k :: xs).
Proof.
  intros K H. apply (reads_next [] (Op k) r xs); auto; [constructor| |now apply op_follow].
  unfold closer in K. destruct K as [[-> | [-> | [-> | ->]]] | [-> | [-> | [-> | [-> | ->]]]]]; reflexivity.
Qed.
Lemma reads_space ws r xs : all space ws -> reads_as r xs -> reads_as (ws ++ r) xs.
Proof.
  intros Hw H. inversion H as [ws' Hw' E1 E2|ws' x r' xs' Hw' Wx Ex Hr E1 E2]; subst.
  - apply reads_end. now apply Forall_app.
  - rewrite app_assoc. apply reads_next; auto. now apply Forall_app.
Qed.
Lemma reads_word s r xs : word s -> not_first word_char r -> reads_as r xs -> reads_as (cs s ++ r) (Word (cs s) :: xs).
Proof. intros (c & w & E & H1 & H2) N H. apply (reads_next [] (Word (cs s)) r xs); auto; [constructor|]. exists c, w. auto. Qed.
Lemma follow_not_word r xs : follow r xs -> not_first word_char r.
Proof. intros H. apply follow_first in H. destruct r; cbn; auto. now apply follow_not. Qed.
Lemma indents_space n : all space (indents n).
Proof. apply Forall_forall. intros c H. apply repeat_spec in H. subst. reflexivity. Qed.
Lemma str_cs s : str (cs s) = s.
Proof. apply string_of_list_ascii_of_string. Qed.

(** a quoted string, up to what follows *)
Lemma reads_quoted b r xs : all (fun c => negb (Ascii.eqb c DQ)) b -> follow r xs ->
  exists ws, reads_as ((DQ :: b ++ [DQ]) ++ r) (Str [mk_piece DQ b ws] [] :: xs).
Proof.
  intros Hb F. destruct (follow_split r xs F) as (ws & t & -> & Hw & Ht & Hc). exists ws.
  replace ((DQ :: b ++ [DQ]) ++ ws ++ t) with ([] ++ spelled (Str [mk_piece DQ b ws] []) ++ t).
  2:{ cbn [spelled map concat written_piece p_quote p_body p_space app]. rewrite !app_nil_r. cbn [app]. rewrite <- !app_assoc. reflexivity. }
  apply reads_next; auto.
  - constructor.
  - split; [constructor; [|constructor]|left; split; [reflexivity|discriminate]]. split; [reflexivity|]. split; [exact Hb|exact Hw].
  - destruct Hc as [-> | (c & t' & -> & [-> | [-> | [-> | ->]]])]; split; cbn; auto.
Qed.
Lemma until_nul_id l : ~ In "000"%char l -> until_nul l = l.
Proof.
  induction l as [|c l IH]; intros H; cbn [until_nul]; [reflexivity|]. destruct (Ascii.eqb_spec c "000") as [->|]; [exfalso; apply H; now left|].
  f_equal. apply IH. intros H'. apply H. now right.
Qed.

(** *** expressions *)
Lemma unary_gexpr ts e : glevel LUnary ts e -> gexpr ts e.
Proof. intros H. apply g_or. repeat (eapply g_tighter; [reflexivity|]). exact H. Qed.
Lemma primary_unary ts e : gprimary ts e -> glevel LUnary ts e.
Proof. intros H. apply g_postfix, g_primary, H. Qed.

(** after the first argument *)
Inductive gtail : list token -> list expr -> Prop :=
| gt_nil : gtail [] []
| gt_cons ts e c ts' es : t_name c = comma_k -> gexpr ts e -> gtail ts' es -> gtail (c :: ts ++ ts') (e :: es).
Lemma gargs_tail ts' es : gtail ts' es -> forall ts e, gexpr ts e -> gargs (ts ++ ts') (e :: es).
Proof.
  induction 1 as [|ts e c ts' es Hc He Ht IH]; intros ts0 e0 H0.
  - rewrite app_nil_r. now apply g_arg.
  - apply g_args; auto.
Qed.
Inductive gntail : list token -> list (string * expr) -> Prop :=
| gn_nil : gntail [] []
| gn_cons n q ts e c ts' kes : t_name c = comma_k -> t_name q = colon_k -> gexpr ts e -> gntail ts' kes ->
    gntail (c :: mk_token identifier_k (VName n) :: q :: ts ++ ts') ((n, e) :: kes).
Lemma gnamed_tail ts' kes : gntail ts' kes -> forall n q ts e, t_name q = colon_k -> gexpr ts e -> gnamed (mk_token identifier_k (VName n) :: q :: ts ++ ts') ((n, e) :: kes).
Proof.
  induction 1 as [|n q ts e c ts' kes Hc Hq He Ht IH]; intros n0 q0 ts0 e0 Hq0 H0.
  - rewrite app_nil_r. now apply g_named1.
  - apply g_named; auto.
Qed.

Lemma dinsert_new k v : forall l, ~ In k (map fst l) -> dinsert k v l = l ++ [(k, v)].
Proof.
  induction l as [|[k' v'] l IH]; cbn [dinsert map fst In app]; [reflexivity|]. intros H.
  destruct (String.eqb_spec k' k) as [->|]; [exfalso; apply H; now left|]. rewrite IH; auto.
Qed.
Lemma fold_dinsert : forall l acc, NoDup (map fst (acc ++ l)) -> fold_left (fun d kv => dinsert (fst kv) (snd kv) d) l acc = acc ++ l.
Proof.
  induction l as [|[k v] l IH]; intros acc H; cbn [fold_left fst snd]; [now rewrite app_nil_r|].
  rewrite map_app in H. cbn [map fst] in H. pose proof (NoDup_remove_2 _ _ _ H) as Hk. rewrite dinsert_new by (intros I'; apply Hk; apply in_or_app; now left).
  rewrite IH; rewrite <- app_assoc; [reflexivity|]. rewrite map_app. exact H.
Qed.

(** the value with its dictionaries in the order in which they are written *)
Fixpoint norm (v : value) : value :=
  match v with
  | VArr l => VArr (map norm l)
  | VDict d => VDict (sort_rows (map (fun kw : string * value => let (k, w) := kw in (k, norm w)) d))
  | v => v
  end.
Lemma norm_dict d : norm (VDict d) = VDict (map (fun kw => (fst kw, norm (snd kw))) (sort_rows d)).
Proof. cbn [norm]. now rewrite pairs_map, (sort_rows_map norm). Qed.
Lemma same_norm v : same v (norm v).
Proof.
  induction v as [f|b|s|n| |l IH|d IH|n|k] using value_ind'; try (apply same_leaf; exact I).
  - apply same_arr. induction IH; cbn [map]; constructor; auto.
  - rewrite norm_dict. apply (same_dict d (sort_rows d)); [apply sort_rows_perm|].
    assert (IH' := Permutation_Forall (sort_rows_perm d) IH). induction IH'; cbn [map]; constructor; auto.
Qed.

Section Eval.
Variable E : env.
Definition evals (e : expr) (v : value) : Prop := forall h, eval E e h = (Val v, h).
Lemma evals_array es vs : Forall2 evals es vs -> evals (EArray es) (VArr vs).
Proof.
  intros H h. cbn [eval].
  match goal with |- match ?F es h with _ => _ end = _ => assert (G : F es h = (Vals vs, h)) end.
  { revert h. induction H as [|e v es vs He H IH]; intros h; [reflexivity|]. rewrite (He h), (IH h). reflexivity. }
  now rewrite G.
Qed.
Lemma evals_call f es vs v : Forall2 evals es vs -> (forall h, call_sem E f vs h = (Val v, h)) -> evals (ECall f es) v.
Proof.
  intros H C h. cbn [eval].
  match goal with |- match ?F es h with _ => _ end = _ => assert (G : F es h = (Vals vs, h)) end.
  { clear C. revert h. induction H as [|e w es vs He H IH]; intros h; [reflexivity|]. rewrite (He h), (IH h). reflexivity. }
  now rewrite G.
Qed.
Lemma evals_dict (kes : list (string * expr)) vs : Forall2 evals (map snd kes) vs -> NoDup (map fst kes) -> evals (EDict kes) (VDict (combine (map fst kes) vs)).
Proof.
  intros H N h. cbn [eval].
  match goal with |- match ?F kes h with _ => _ end = _ => assert (G : F kes h = (Vals vs, h)) end.
  { clear N. revert vs H h. induction kes as [|[k e] kes IH]; cbn [map fst snd]; intros vs H h; inversion H as [|? v ? vs' He H']; subst; [reflexivity|]. rewrite (He h), (IH vs' H' h). reflexivity. }
  rewrite G. f_equal. f_equal. f_equal. rewrite (fold_dinsert _ []); [reflexivity|]. cbn [app].
  assert (L : length (map fst kes) = length vs) by (clear - H; rewrite map_length, <- (map_length snd kes); induction H; cbn; congruence).
  assert (Q : forall (a : list string) (b : list value), length a = length b -> map fst (combine a b) = a).
  { clear. induction a as [|x a IH]; intros [|y b] H; cbn in *; try discriminate; [reflexivity|]. f_equal. apply IH. lia. }
  rewrite Q; auto.
Qed.
End Eval.

Section Reads.
Variable show : spec_float -> list ascii.
Variable type_text : value -> list ascii.
Variable ci : list entry.
Variable esc : bool.
Variable kw : string -> bool.
Variable rd : list ascii -> spec_float.
Variable E : env.
Hypothesis Hci : Entity_Props.sorted_by_code ci.
Hypothesis Hni : Entity_Props.sorted_by_name (e_name_index E).
Hypothesis Hfun : kw "xml_unescape"%string = false.
Notation text := (text show type_text ci esc).
Notation means := (means kw rd).
Notation writable := (writable show rd (keyword kw) (text_ok esc)).

Definition reads_value (t : list ascii) (v : value) : Prop :=
  forall r xs, follow r xs -> exists X e, reads_as (t ++ r) (X ++ xs) /\ Forall (fun x => comment x = false) X /\
    glevel LUnary (map means X) e /\ evals E e v.

Lemma reads_lit (t : list ascii) (x : lexeme) (v : value) :
  comment x = false -> gprimary [means x] (ELit v) -> (forall r xs, follow r xs -> reads_as (t ++ r) (x :: xs)) -> reads_value t v.
Proof using.
  intros C G H r xs F. exists [x], (ELit v). split; [exact (H r xs F)|]. split; [constructor; [exact C|constructor]|]. split; [now apply primary_unary|].
  intros h. reflexivity.
Qed.
Lemma reads_keyword n v : (n = "true" \/ n = "false" \/ n = "empty")%string -> gprimary [mk_token keyword_k (VName n)] (ELit v) -> reads_value (cs n) v.
Proof using.
  intros Hn G. apply (reads_lit _ (Word (cs n))); [reflexivity| |].
  - unfold Lex_Spec.means. rewrite str_cs. replace (keyword kw n) with true; [exact G|]. destruct Hn as [-> | [-> | ->]]; reflexivity.
  - intros r xs F. apply reads_word; [|exact (follow_not_word r xs F)|apply F].
    destruct Hn as [-> | [-> | ->]]; cbn; eexists; eexists; (split; [reflexivity|]); (split; [reflexivity|repeat (constructor; [reflexivity|]); constructor]).
Qed.
Lemma reads_decimal w r xs : decimal w -> follow r xs -> reads_as (w ++ r) (Dec w :: xs).
Proof using.
  intros D F. apply (reads_next [] (Dec w) r xs); [constructor|exact D| |apply F]. pose proof (follow_first r xs F) as H. split.
  - destruct r as [|c r]; cbn; auto. now apply follow_not.
  - intros [_ (x & d & r' & -> & Hx & _)]. cbn in H. apply follow_not in H. destruct H as (_ & _ & _ & H1 & H2 & _). destruct Hx; auto.
Qed.
Lemma reads_number f : plain_number show rd f -> reads_value (show f) (VNum f).
Proof using.
  intros (w & D & [[Hs Hr] | [Hs Hr]]); rewrite Hs.
  - apply (reads_lit _ (Dec w)); [reflexivity| |intros r xs F; now apply reads_decimal]. cbn [Lex_Spec.means]. rewrite Hr. apply g_number.
  - intros r xs F. exists [Op subtract_k; Dec w], (EUn UNegate (ELit (VNum (rd w)))). split; [|split; [repeat constructor|split]].
    + cbn [app]. apply (reads_next [] (Op subtract_k) (w ++ r) (Dec w :: xs)); [constructor|reflexivity| |now apply reads_decimal]. split.
      * intros k' u O Eu N (r' & Er). destruct k'; try discriminate O; cbn in Eu; try discriminate Eu; injection Eu as Eu; try (destruct u; [congruence|discriminate Eu]).
        subst u. destruct D as (c & w' & -> & Dc & _). cbn [app] in Er. injection Er as -> _. discriminate Dc.
      * intros [K _]. discriminate K.
    + cbn [map]. apply (g_unary _ UNegate); [reflexivity|]. apply primary_unary, g_number.
    + intros h. cbn [eval bind un_sem]. rewrite Hr. f_equal. f_equal. f_equal. destruct f; cbn; rewrite ?Bool.negb_involutive; reflexivity.
Qed.
Lemma bs_cs s : map N_of_ascii (cs s) = bs s.
Proof using. unfold cs. induction s as [|c s IH]; cbn; [reflexivity|]. now rewrite IH. Qed.
Lemma string_of_bs s : string_of (bs s) = s.
Proof using. induction s as [|c s IH]; cbn; [reflexivity|]. unfold string_of in IH. now rewrite IH, ascii_N_embedding. Qed.
Lemma bs_string_of l : Forall (fun c => c < 256)%N l -> bs (string_of l) = l.
Proof using. induction 1 as [|c l Hc H IH]; cbn; [reflexivity|]. unfold string_of in IH. rewrite IH. f_equal. apply N_ascii_embedding. exact Hc. Qed.
Lemma no_char c s : (forall n, In n (bs s) -> n <> N_of_ascii c) -> ~ In c (cs s).
Proof using. intros H I'. apply (H (N_of_ascii c)); [|reflexivity]. rewrite <- bs_cs. now apply in_map. Qed.
Lemma reads_plain_string s : ~ In DQ (cs s) -> ~ In "000"%char (cs s) -> forall r xs, follow r xs ->
  exists ws, reads_as ((DQ :: cs s ++ [DQ]) ++ r) (Str [mk_piece DQ (cs s) ws] [] :: xs) /\ means (Str [mk_piece DQ (cs s) ws] []) = mk_token string_k (VStr s).
Proof using.
  intros HD H0 r xs F. destruct (reads_quoted (cs s) r xs) with (2 := F) as (ws & Hr).
  - apply Forall_forall. intros c Hc. destruct (Ascii.eqb_spec c DQ) as [->|]; [contradiction|reflexivity].
  - exists ws. split; [exact Hr|]. cbn [Lex_Spec.means map concat p_body]. rewrite app_nil_r, until_nul_id by exact H0. now rewrite str_cs.
Qed.
Lemma printable_no l : Forall Entity_Props.printable l -> ~ In 34%N l -> ~ In DQ (cs (string_of l)) /\ ~ In "000"%char (cs (string_of l)).
Proof using.
  clear. intros H N. assert (B : bs (string_of l) = l) by (apply bs_string_of; eapply Forall_impl; [|exact H]; unfold Entity_Props.printable; intros; lia).
  split; apply no_char; rewrite B; intros n Hn.
  - change (N_of_ascii DQ) with 34%N. intros ->. contradiction.
  - change (N_of_ascii "000") with 0%N. rewrite Forall_forall in H. specialize (H n Hn). unfold Entity_Props.printable in H. lia.
Qed.
Lemma entity_no_quote l : Entity_Props.entity_text l -> ~ In 34%N l.
Proof using.
  clear. induction 1 as [|c l P M H IH|name l Hne Hn H IH]; [intros []| |].
  - intros [->|H']; [apply M; unfold Entity_Props.markup; auto|contradiction].
  - intros [H'|H']; [discriminate|]. apply in_app_iff in H' as [H'|[H'|H']]; [|discriminate|contradiction].
    rewrite Forall_forall in Hn. specialize (Hn _ H'). unfold Entity_Props.name_byte in Hn. lia.
Qed.
Lemma bs_byte s : Forall Entity_Props.byte (bs s).
Proof using. rewrite <- bs_cs. apply Forall_map, Forall_forall. intros c _. unfold Entity_Props.byte. pose proof (N_ascii_bounded c). clear - H. lia. Qed.
Lemma reads_escaped s u : esc = true -> needs_entity_escape ci (bs s) = true ->
  entity_unescape (e_name_index E) (entity_escape ci (bs s)) = Unescaped u ->
  reads_value (atom_text show type_text ci esc false (VStr s)) (VStr (string_of u)).
Proof using Hci Hfun.
  intros Ee En Hu. cbn [atom_text]. rewrite Ee, En. cbn [andb]. intros r xs F.
  set (q := string_of (entity_escape ci (bs s))).
  destruct (Entity_Props.C52_escape_is_plain_text ci (bs s) Hci (bs_byte s)) as [P1 P2].
    destruct (printable_no _ P2 (entity_no_quote _ P1)) as [N1 N2]. fold q in N1, N2.
    assert (F2 : follow (cs ")" ++ r) (Op close_parenthesis_k :: xs)).
    { split; [apply (reads_op close_parenthesis_k r xs); [unfold closer; auto|apply F]|]. right. exists close_parenthesis_k, xs. unfold closer. auto. }
    destruct (reads_plain_string q N1 N2 _ _ F2) as (ws & Hr & Hm). set (sx := Str [mk_piece DQ (cs q) ws] []) in *.
    exists ([Word (cs "xml_unescape"); Op open_parenthesis_k] ++ [sx] ++ [Op close_parenthesis_k]), (ECall "xml_unescape" [ELit (VStr q)]).
    split; [|split; [repeat constructor|split]].
    + replace ((cs "xml_unescape(" ++ DQ :: cs q ++ DQ :: cs ")") ++ r) with (cs "xml_unescape" ++ written open_parenthesis_k ++ (DQ :: cs q ++ [DQ]) ++ cs ")" ++ r).
      2:{ change (cs "xml_unescape(") with (cs "xml_unescape" ++ written open_parenthesis_k). rewrite <- !app_assoc. cbn [app]. rewrite <- !app_assoc. reflexivity. }
      cbn [app]. apply reads_word; [|reflexivity|].
      * eexists. eexists. split; [reflexivity|]. split; [reflexivity|]. repeat (constructor; [reflexivity|]). constructor.
      * apply (reads_op open_parenthesis_k); [auto 10|]. exact Hr.
    + cbn [map app]. rewrite Hm. unfold Lex_Spec.means. rewrite str_cs. replace (keyword kw "xml_unescape") with false by (unfold keyword; now rewrite Hfun).
      apply primary_unary. apply (g_call "xml_unescape" _ [mk_token string_k (VStr q)] [ELit (VStr q)]); [reflexivity| |reflexivity]. apply g_arg, unary_gexpr, primary_unary, g_string.
    + apply (evals_call E "xml_unescape" [ELit (VStr q)] [VStr q]); [repeat constructor|]. intros h. unfold call_sem, array_function. cbn [String.eqb Ascii.eqb Bool.eqb]. unfold bytes_of.
      unfold q. rewrite bs_string_of by (eapply Forall_impl; [|exact P2]; unfold Entity_Props.printable; intros; lia).
      rewrite Hu. reflexivity.
Qed.
Lemma reads_string s : text_ok esc s -> reads_value (atom_text show type_text ci esc false (VStr s)) (VStr s).
Proof using Hci Hni Hfun.
  unfold text_ok. intros T0.
  assert (T : if esc then Forall (fun c => 0 < c < 128)%N (bs s) else ~ In DQ (cs s) /\ ~ In "000"%char (cs s)).
  { destruct esc; [|exact T0]. rewrite <- bs_cs. apply Forall_map. eapply Forall_impl; [|exact T0]. unfold code. clear. intros; lia. }
  clear T0. destruct (esc && needs_entity_escape ci (bs s)) eqn:Eq.
  - apply Bool.andb_true_iff in Eq as [Ee En]. rewrite Ee in T. rewrite <- (string_of_bs s) at 2. apply (reads_escaped s (bs s)); auto.
    exact (Entity_Props.C53_round_trip_partial ci (e_name_index E) (bs s) Hci Hni T).
  - cbn [atom_text]. rewrite Eq. assert (T' : ~ In DQ (cs s) /\ ~ In "000"%char (cs s)).
    { destruct esc; [|exact T]. cbn [andb] in Eq.
      assert (By : Forall Entity_Props.byte (bs s)) by (eapply Forall_impl; [|exact T]; unfold Entity_Props.byte; intros; lia).
      assert (Es : entity_escape ci (bs s) = bs s).
      { destruct (list_eq_dec N.eq_dec (entity_escape ci (bs s)) (bs s)) as [e|n]; [exact e|]. apply (Entity_Props.C52_needs_escape_is_exact ci (bs s) Hci By) in n. congruence. }
      destruct (Entity_Props.C52_escape_is_plain_text ci (bs s) Hci By) as [P1 P2]. rewrite Es in P1, P2.
      destruct (printable_no _ P2 (entity_no_quote _ P1)) as [N1 N2]. rewrite string_of_bs in N1, N2. auto. }
    destruct T' as [N1 N2]. intros r xs F. destruct (reads_plain_string s N1 N2 r xs F) as (ws & Hr & Hm).
    exists [Str [mk_piece DQ (cs s) ws] []], (ELit (VStr s)). split; [exact Hr|]. split; [repeat constructor|]. split; [|intros h; reflexivity].
    cbn [map]. rewrite Hm. apply primary_unary, g_string.
Qed.
Lemma reads_name n : word n -> reads_value (cs "@" ++ cs n) (VName n).
Proof using.
  intros W r xs F. exists [Op at_k; Word (cs n)], (ELit (VName n)). split; [|split; [repeat constructor|split; [|intros h; reflexivity]]].
  - rewrite <- app_assoc. apply (reads_op at_k); [auto 10|]. apply reads_word; [exact W|exact (follow_not_word r xs F)|apply F].
  - cbn [map]. unfold Lex_Spec.means at 2. rewrite str_cs. apply primary_unary. apply g_name; [reflexivity|]. destruct (keyword kw n); auto.
Qed.

(** *** containers *)
Lemma follow_op k r xs : closer k -> reads_as r xs -> follow (written k ++ r) (Op k :: xs).
Proof using. intros K H. split; [now apply reads_op; [left|]|]. right. eauto. Qed.
Lemma follow_space ws r xs : all space ws -> follow r xs -> follow (ws ++ r) xs.
Proof using. intros W [H F]. split; [now apply reads_space|exact F]. Qed.
Lemma reads_items (tv : list (list ascii * value)) : Forall (fun p => reads_value (fst p) (snd p)) tv -> forall r xs, reads_as r xs ->
  exists X es, follow (items_text false (map fst tv) ++ cs "]" ++ r) (X ++ Op close_bracket_k :: xs) /\ Forall (fun x => comment x = false) X /\
    gtail (map means X) es /\ Forall2 (evals E) es (map snd tv).
Proof using.
  induction 1 as [|[t v] tv Hv H IH]; intros r xs Hr; cbn [map fst snd items_text].
  - exists [], []. split; [|repeat constructor]. cbn [app]. apply (follow_space (cs " ")); [repeat constructor|]. apply (follow_op close_bracket_k); [unfold closer; auto|exact Hr].
  - destruct (IH r xs Hr) as (X & es & F & C & G & Ev). cbn [fst snd] in Hv. destruct (Hv _ _ F) as (X1 & e & R1 & C1 & G1 & Ev1).
    exists (Op comma_k :: X1 ++ X), (e :: es). split; [|split; [|split]].
    + rewrite <- !app_assoc. change (cs ", ") with (written comma_k ++ cs " "). rewrite <- !app_assoc. cbn [app]. rewrite <- app_assoc. apply (follow_op comma_k); [unfold closer; auto|].
      apply (reads_space (cs " ")); [repeat constructor|]. exact R1.
    + constructor; [reflexivity|]. now apply Forall_app.
    + cbn [map]. rewrite map_app. apply gt_cons; [reflexivity|now apply unary_gexpr|exact G].
    + now constructor.
Qed.
Lemma reads_array (tv : list (list ascii * value)) : Forall (fun p => reads_value (fst p) (snd p)) tv ->
  reads_value (cs "[ " ++ items_text true (map fst tv) ++ cs "]") (VArr (map snd tv)).
Proof using.
  intros H r xs [Hr _]. destruct H as [|[t v] tv Hv H]; cbn [map fst snd items_text].
  - exists [Op open_bracket_k; Op close_bracket_k], (EArray []). split; [|split; [repeat constructor|split]].
    + cbn [app]. change (cs "[ " ++ cs "]") with (written open_bracket_k ++ cs " " ++ written close_bracket_k). rewrite <- !app_assoc.
      apply (reads_op open_bracket_k); [auto 10|]. apply (reads_space (cs " ")); [repeat constructor|]. apply reads_op; [unfold closer; auto|exact Hr].
    + cbn [map]. apply primary_unary, g_array0; reflexivity.
    + apply (evals_array E [] []). constructor.
  - destruct (reads_items tv H r xs Hr) as (X & es & F & C & G & Ev). cbn [fst snd] in Hv. destruct (Hv _ _ F) as (X1 & e & R1 & C1 & G1 & Ev1).
    exists (Op open_bracket_k :: (X1 ++ X) ++ [Op close_bracket_k]), (EArray (e :: es)). split; [|split; [|split]].
    + change (cs "[ ") with (written open_bracket_k ++ cs " "). cbn [app]. rewrite <- !app_assoc. cbn [app].
      replace (open_bracket_k) with open_bracket_k by reflexivity. change ("[" :: " " :: t ++ items_text false (map fst tv) ++ cs "]" ++ r)%char with (written open_bracket_k ++ cs " " ++ t ++ items_text false (map fst tv) ++ cs "]" ++ r).
      apply (reads_op open_bracket_k); [auto 10|]. apply (reads_space (cs " ")); [repeat constructor|]. exact R1.
    + constructor; [reflexivity|]. apply Forall_app. split; [now apply Forall_app|repeat constructor].
    + cbn [map]. rewrite !map_app. cbn [map]. apply primary_unary, g_array; [reflexivity| |reflexivity]. apply gargs_tail; [exact G|now apply unary_gexpr].
    + apply evals_array. now constructor.
Qed.
Lemma reads_eq a b a' b' : reads_as a b -> a = a' -> b = b' -> reads_as a' b'.
Proof using. now intros H <- <-. Qed.
Ltac assoc := repeat (rewrite <- app_assoc || rewrite <- app_comm_cons); reflexivity.
(** one row: key, colon, value *)
Lemma reads_row d k t v r xs : word k -> keyword kw k = false -> reads_value t v -> follow r xs ->
  exists X e, reads_as ((Cel_Model.LF :: indents d) ++ (cs k ++ cs ": ") ++ t ++ r) (Word (cs k) :: Op colon_k :: X ++ xs) /\ Forall (fun x => comment x = false) X /\
    means (Word (cs k)) = mk_token identifier_k (VName k) /\ gexpr (map means X) e /\ evals E e v.
Proof using.
  intros W K Hv F. destruct (Hv r xs F) as (X & e & R1 & C1 & G1 & Ev1). exists X, e. split; [|split; [exact C1|split; [|split; [now apply unary_gexpr|exact Ev1]]]].
  - apply (reads_space (Cel_Model.LF :: indents d)); [constructor; [reflexivity|apply indents_space]|]. rewrite <- app_assoc. apply reads_word; [exact W|reflexivity|].
    change (cs ": ") with (written colon_k ++ cs " "). rewrite <- app_assoc. apply (reads_op colon_k); [auto 10|]. apply (reads_space (cs " ")); [repeat constructor|exact R1].
  - unfold Lex_Spec.means. now rewrite str_cs, K.
Qed.
Definition row_ok (p : string * (list ascii * value)) : Prop :=
  word (fst p) /\ keyword kw (fst p) = false /\ reads_value (fst (snd p)) (snd (snd p)).
Definition row_text (p : string * (list ascii * value)) : string * list ascii := (fst p, fst (snd p)).
Definition row_value (p : string * (list ascii * value)) : string * value := (fst p, snd (snd p)).
Lemma reads_rows d (tv : list (string * (list ascii * value))) : Forall row_ok tv -> forall r xs, reads_as r xs ->
  exists X kes, follow (rows_text d false (map row_text tv) ++ cs "}" ++ r) (X ++ Op close_brace_k :: xs) /\ Forall (fun x => comment x = false) X /\
    gntail (map means X) kes /\ map fst kes = map fst tv /\ Forall2 (evals E) (map snd kes) (map (fun p => snd (row_value p)) tv).
Proof using.
  induction 1 as [|[k [t v]] tv (W & K & Hv) H IH]; intros r xs Hr; cbn [map fst snd rows_text row_text row_value].
  - exists [], []. split; [|repeat constructor]. apply (follow_space (Cel_Model.LF :: indents (pred d))); [constructor; [reflexivity|apply indents_space]|].
    apply (follow_op close_brace_k); [unfold closer; auto|exact Hr].
  - destruct (IH r xs Hr) as (X & kes & F & C & G & Ek & Ev). cbn [fst snd] in W, K, Hv.
    destruct (reads_row d k t v _ _ W K Hv F) as (X1 & e & R1 & C1 & M1 & G1 & Ev1).
    exists (Op comma_k :: Word (cs k) :: Op colon_k :: X1 ++ X), ((k, e) :: kes). split; [|split; [|split; [|split]]].
    + rewrite <- !app_assoc. cbn [app]. apply (follow_op comma_k); [unfold closer; auto|]. apply (reads_eq _ _ _ _ R1); assoc.
    + repeat (constructor; [reflexivity|]). now apply Forall_app.
    + cbn [map]. rewrite M1, map_app. apply gn_cons; auto.
    + cbn [map fst]. now rewrite Ek.
    + cbn [map snd]. now constructor.
Qed.
Lemma reads_dict d (tv : list (string * (list ascii * value))) : Forall row_ok tv -> NoDup (map fst tv) ->
  reads_value (cs "{" ++ rows_text d true (map row_text tv) ++ cs "}") (VDict (map row_value tv)).
Proof using.
  intros H N r xs [Hr _]. destruct H as [|[k [t v]] tv (W & K & Hv) H]; cbn [map fst snd rows_text row_text row_value].
  - exists [Op open_brace_k; Op close_brace_k], (EDict []). split; [|split; [repeat constructor|split]].
    + change (cs "{" ++ cs " " ++ cs "}") with (written open_brace_k ++ cs " " ++ written close_brace_k). rewrite <- !app_assoc.
      apply (reads_op open_brace_k); [auto 10|]. apply (reads_space (cs " ")); [repeat constructor|]. apply reads_op; [unfold closer; auto|exact Hr].
    + cbn [map]. apply primary_unary, g_dict0; reflexivity.
    + apply (evals_dict E [] []); constructor.
  - destruct (reads_rows d tv H r xs Hr) as (X & kes & F & C & G & Ek & Ev). cbn [fst snd] in W, K, Hv.
    destruct (reads_row d k t v _ _ W K Hv F) as (X1 & e & R1 & C1 & M1 & G1 & Ev1).
    exists (Op open_brace_k :: (Word (cs k) :: Op colon_k :: X1 ++ X) ++ [Op close_brace_k]), (EDict ((k, e) :: kes)). split; [|split; [|split]].
    + assert (R2 := reads_op open_brace_k _ _ (or_intror (or_intror (or_introl eq_refl))) R1).
      apply (reads_eq _ _ _ _ R2); assoc.
    + constructor; [reflexivity|]. apply Forall_app. split; [|repeat constructor]. repeat (constructor; [reflexivity|]). now apply Forall_app.
    + cbn [map]. rewrite map_app. cbn [map]. rewrite M1, map_app. apply primary_unary. cbn [app].
      apply (g_dict (means (Op open_brace_k)) (mk_token identifier_k (VName k) :: means (Op colon_k) :: map means X1 ++ map means X) ((k, e) :: kes)); [reflexivity| |reflexivity].
      apply gnamed_tail; auto.
    + assert (Ec : (k, v) :: map row_value tv = combine (map fst ((k, e) :: kes)) (v :: map (fun p => snd (row_value p)) tv)).
      { cbn [map fst combine]. f_equal. rewrite Ek. clear. induction tv as [|[k [t v]] tv IH]; cbn; [reflexivity|]. now rewrite IH. }
      unfold row_value at 1. cbn [fst snd]. rewrite Ec. apply evals_dict; [cbn [map snd]; now constructor|]. cbn [map fst] in *. now rewrite Ek.
Qed.

Theorem value_reads v : writable v -> forall d, reads_value (text d v) (norm v).
Proof using Hci Hni Hfun.
  induction v as [f|b|s|n| |l IH|dd IH|n|k] using value_ind'; intros W d.
  - inversion W; subst. now apply reads_number.
  - cbn. destruct b; apply reads_keyword; auto; [apply g_true|apply g_false].
  - inversion W; subst. now apply reads_string.
  - inversion W as [| | |? Hn| | |]; subst. change (text d (VName n)) with (cs "@" ++ cs n ++ []). rewrite app_nil_r. now apply reads_name.
  - apply reads_keyword; auto. apply g_empty.
  - inversion W as [| | | | |? Wl|]; subst. cbn [Cel_Proofs.text norm].
    pose (tv := map (fun v => (text d v, norm v)) l).
    replace (map (text d) l) with (map fst tv) by (unfold tv; rewrite map_map; reflexivity).
    replace (map norm l) with (map snd tv) by (unfold tv; rewrite map_map; reflexivity).
    apply reads_array. unfold tv. apply Forall_map. rewrite Forall_forall in *. intros v Hv. cbn [fst snd]. apply IH; auto.
  - inversion W as [| | | | | |? N Wd]; subst. rewrite norm_dict. cbn [Cel_Proofs.text]. rewrite pairs_map, (sort_rows_map (text (S d))).
    pose (tv := map (fun kw => (fst kw, (text (S d) (snd kw), norm (snd kw)))) (sort_rows dd)).
    replace (map (fun kw => (fst kw, text (S d) (snd kw))) (sort_rows dd)) with (map row_text tv) by (unfold tv; rewrite map_map; reflexivity).
    replace (map (fun kw => (fst kw, norm (snd kw))) (sort_rows dd)) with (map row_value tv) by (unfold tv; rewrite map_map; reflexivity).
    apply reads_dict.
    + unfold tv. apply Forall_map. assert (IH' := Permutation_Forall (sort_rows_perm dd) IH). assert (W' := Permutation_Forall (sort_rows_perm dd) Wd).
      rewrite Forall_forall in *. intros [k v] Hv. destruct (W' _ Hv) as (W1 & W2 & W3). split; [exact W1|]. split; [exact W2|]. cbn [fst snd] in *. exact (IH' _ Hv W3 (S d)).
    + unfold tv. rewrite map_map. cbn [fst]. apply (Permutation_NoDup (l := map fst dd)); [|exact N]. apply Permutation_map, sort_rows_perm.
  - inversion W.
  - inversion W.
Qed.
End Reads.
