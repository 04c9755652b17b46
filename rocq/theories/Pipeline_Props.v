(** C64: from the text of an expression to its value: the lexer (C61), the parser (C57) and the machine
    (C39) together. *)
From Coq Require Import String Ascii ZArith List Bool Lia Floats.SpecFloat.
From Verif Require Import Prelude Vm_Value Vm_Model Vm_Spec Vm_Proofs Expr_Model Expr_Spec Expr_Props Token_Props
  Lex_Model Lex_Spec Lex_Proofs Lex_Props.
Import ListNotations.
Local Open Scope Z_scope.
Ltac Zify.zify_post_hook ::= idtac.

(** the tokens among what the lexer's rounds put *)
Definition tokens_put (l : list fragment) : list token :=
  flat_map (fun f => match snd f with Some t => [t] | None => [] end) l.
Lemma tokens_delivered kw rd bypass l xs : map snd l = map (token_for kw rd bypass) xs -> tokens_put l = delivered kw rd bypass xs.
Proof.
  revert xs. induction l as [|[q o] l IH]; intros [|x xs] H; cbn [map] in H; try discriminate.
  - unfold delivered. destruct bypass; reflexivity.
  - injection H as Ho H. cbn [tokens_put flat_map snd] in *. fold (tokens_put l). rewrite (IH xs H). cbn [snd] in Ho. subst o.
    unfold delivered, token_for. destruct bypass; [|reflexivity]. cbn [filter andb]. destruct (comment x); reflexivity.
Qed.
Lemma lexeme_plain kw rd x : well_formed x -> lexed_plain (means kw rd x).
Proof.
  destruct x as [w|x ds|w|k|ps lone|body le|body]; intros Hx; unfold lexed_plain; cbn [means t_name t_value]; eauto.
  - assert (G : exists n, VName (str w) = VName n /\ plain_name n).
    { exists (str w). split; [reflexivity|]. destruct Hx as (c & w' & -> & H & _). cbn. intros ->. discriminate H. }
    destruct (keyword kw (str w)); exact G.
  - cbn in Hx. destruct k; try discriminate Hx; exact I.
Qed.
Lemma reads_plain kw rd bypass t xs : reads_as t xs -> Forall lexed_plain (delivered kw rd bypass xs).
Proof.
  intros H. assert (Hw : Forall well_formed xs) by (induction H; constructor; assumption).
  unfold delivered. apply Forall_map. destruct bypass.
  - apply Forall_forall. intros x Hx. apply filter_In in Hx as [Hx _]. apply lexeme_plain. rewrite Forall_forall in Hw. apply Hw, Hx.
  - apply Forall_forall. intros x Hx. apply lexeme_plain. rewrite Forall_forall in Hw. apply Hw, Hx.
Qed.

(** If a text reads as lexemes whose tokens are a way to write the expression [e], then the lexer delivers
    those tokens, the parser makes code of them, and the machine that runs the code computes the meaning of [e] *)
Theorem C64_text_to_value :
  forall kw bypass rd (t : list ascii) xs (e : expr) (E : env) (stk : list value) (h : list event),
    reads_as t xs -> gexpr (delivered kw rd bypass xs) e -> Z.of_nat (List.length xs) < 2 ^ 31 -> overrides_binary E ->
    exists l last code,
      lex kw bypass rd t = TOk l last /\ is_expression [] (tokens_put l) = PRet true code [] /\
      match eval E e h with
      | (Val v, h') => runs E code (mk_state stk h) (ROk (mk_state (v :: stk) h'))
      | (Exn x, h') => exists junk, runs E code (mk_state stk h) (RThrow x (mk_state (junk ++ stk) h'))
      | (Undef, _) => runs E code (mk_state stk h) RUB
      end.
Proof.
  intros kw bypass rd t xs e E stk h Hr Hg Hlen HE.
  destruct (C61_lexer_is_complete kw bypass rd t xs Hr) as (l & last & Hl & Ht). exists l, last.
  rewrite (tokens_delivered kw rd bypass l xs Ht).
  destruct (C57_parse_then_evaluate E (delivered kw rd bypass xs) [] e stk h HE Hg (reads_plain kw rd bypass t xs Hr)) as (code & Hp & Hrun).
  - assert (List.length (delivered kw rd bypass xs) <= List.length xs)%nat; [|lia]. unfold delivered. rewrite map_length.
    destruct bypass; [|lia]. clear. induction xs as [|x xs IH]; [cbn; lia|]. cbn [filter]. destruct (negb (comment x)); cbn [List.length]; lia.
  - exact I.
  - rewrite app_nil_r in Hp. exists code. auto.
Qed.
(** and only such a text is taken for an expression *)
Theorem C64_only_expressions_parse :
  forall kw bypass rd (t : list ascii) l last code,
    lex kw bypass rd t = TOk l last -> is_expression [] (tokens_put l) = PRet true code [] ->
    exists xs e, reads_as t xs /\ gexpr (delivered kw rd bypass xs) e /\ code = compile e.
Proof.
  intros kw bypass rd t l last code Hl Hp. destruct (C61_lexer_is_sound kw bypass rd t l last Hl) as (xs & Hr & Ht).
  rewrite (tokens_delivered kw rd bypass l xs Ht) in Hp.
  assert (Hx : Forall lexed (delivered kw rd bypass xs)).
  { apply (Forall_impl _ (P := lexed_plain)); [|apply (reads_plain kw rd bypass t xs Hr)]. intros tk H. unfold lexed_plain, lexed in *.
    destruct (t_name tk); auto; destruct H as (n & H & _); eauto. }
  apply (C57_parser_decides_the_grammar _ _ Hx) in Hp as (e & Hg & ->). exists xs, e. auto.
Qed.
(** "2 + 3 * x" *)
Example C64_case :
  let t := cs "2 + 3 * x" in
  let d := fun l => match l with ["2"%char] => f_of_Z 2 | _ => f_of_Z 3 end in
  exists l last, lex (fun _ => false) true d t = TOk l last /\
    is_expression [] (tokens_put l) = PRet true (compile (EBin BAdd (ELit (VNum (f_of_Z 2))) (EBin BMul (ELit (VNum (f_of_Z 3))) (EVar "x")))) [].
Proof. eexists. eexists. split; [vm_compute; reflexivity|]. vm_compute. reflexivity. Qed.
