(** C88, C89, C90: the parsers of property model sheets and of layouts. *)
From Coq Require Import String Ascii ZArith List Lia.
From Verif Require Import Prelude Vm_Value Vm_Model Vm_Spec Vm_Proofs Expr_Model Expr_Spec Expr_Sound Expr_Complete Expr_Total Expr_Props.
From Verif Require Lex_Model Lex_Spec Lex_Props Pipeline_Props.
From Verif Require Import Decl_Model Decl_Spec Decl_Sound Decl_Eve_Sound Decl_Complete.
Import ListNotations.
Local Open Scope nat_scope.
Ltac Zify.zify_post_hook ::= idtac.

(** adam_parser.cpp:40-55, eve_parser.cpp:36-46: the keywords *)
Definition adam_keyword (s : string) : bool :=
  existsb (String.eqb s) ["constant"; "external"; "input"; "interface"; "invariant"; "logic"; "output"; "relate"; "sheet"; "unlink"; "when"]%string.
Definition eve_keyword (s : string) : bool :=
  existsb (String.eqb s) ["constant"; "interface"; "layout"; "logic"; "relate"; "unlink"; "view"; "when"]%string.
(** The tokens of a text are as the parsers need them *)
Lemma lexeme_decl kw rd x : Lex_Spec.well_formed x -> lexed_decl (Lex_Spec.means kw rd x).
Proof.
  intros H. split.
  - pose proof (Pipeline_Props.lexeme_plain kw rd x H) as L. unfold lexed_plain, lexed in *.
    destruct (t_name (Lex_Spec.means kw rd x)); auto; destruct L as (n & L & _); eauto.
  - destruct x as [w|x ds|w|k|ps lone|body le|body]; cbn [Lex_Spec.means t_name t_value]; eauto.
    + destruct (Lex_Spec.keyword kw (Lex_Spec.str w)); exact I.
    + cbn in H. destruct k; try discriminate H; exact I.
Qed.
Lemma delivered_decl kw rd bypass t xs : Lex_Spec.reads_as t xs -> Forall lexed_decl (Lex_Spec.delivered kw rd bypass xs).
Proof.
  intros H. assert (Hw : Forall Lex_Spec.well_formed xs) by (induction H; constructor; assumption).
  unfold Lex_Spec.delivered. apply Forall_map, Forall_forall. intros x Hx. apply lexeme_decl. rewrite Forall_forall in Hw. apply Hw.
  destruct bypass; [apply filter_In in Hx as [Hx _]|]; exact Hx.
Qed.

(** *** C88: sheets *)
Theorem C88_parser_terminates : forall ts, Forall lexed_decl ts -> adam_parse ts <> Fuel.
Proof. intros ts L E. pose proof (adam_sound ts L) as S. rewrite E in S. exact S. Qed.
(** A text in the documented grammar is accepted, and each declaration is announced, in order, by one
    call with its cell, its code, its positions and its comments *)
Theorem C88_documented_sheets_are_accepted :
  forall ts evs, translation_unit true faithful ts evs -> adam_parse ts = Ok evs tt [].
Proof. intros ts evs H. apply adam_complete. exact (unit_mono true faithful faithful ltac:(auto) ts evs H). Qed.
(** Accepted is exactly what is in the grammar once the stray tokens of [leftover] and [section_leftover]
    are allowed in, and the calls are exactly those of the declarations *)
Theorem C88_parser_is_exact :
  forall ts evs rest, Forall lexed_decl ts ->
    (adam_parse ts = Ok evs tt rest <-> rest = [] /\ translation_unit false faithful ts evs).
Proof.
  intros ts evs rest L. split.
  - intros E. pose proof (adam_sound ts L) as S. rewrite E in S. exact S.
  - intros [-> H]. apply adam_complete. exact H.
Qed.
(** No text can be read in two ways *)
Corollary C88_grammar_is_unambiguous :
  forall ts evs evs', translation_unit false faithful ts evs -> translation_unit false faithful ts evs' -> evs = evs'.
Proof. intros ts evs evs' H H'. apply adam_complete in H. apply adam_complete in H'. rewrite H in H'. injection H' as ->. reflexivity. Qed.
(** With the lexer: the text of a sheet *)
Corollary C88_text_of_sheets :
  forall bypass rd t l last evs, Lex_Model.lex adam_keyword bypass rd t = Lex_Model.TOk l last ->
    (adam_parse (Pipeline_Props.tokens_put l) = Ok evs tt [] <->
     exists xs, Lex_Spec.reads_as t xs /\ translation_unit false faithful (Lex_Spec.delivered adam_keyword rd bypass xs) evs).
Proof.
  intros bypass rd t l last evs Hl. destruct (Lex_Props.C61_lexer_is_sound adam_keyword bypass rd t l last Hl) as (xs & Hr & Ht).
  split.
  - intros E. rewrite (Pipeline_Props.tokens_delivered adam_keyword rd bypass l xs Ht) in E. exists xs. split; [exact Hr|]. apply (C88_parser_is_exact _ _ _ (delivered_decl adam_keyword rd bypass t xs Hr)) in E. tauto.
  - intros (xs' & Hr' & G). destruct (Lex_Props.C61_lexer_is_complete adam_keyword bypass rd t xs' Hr') as (l' & last' & Hl' & Ht').
    rewrite Hl in Hl'. injection Hl' as <- _. rewrite (Pipeline_Props.tokens_delivered adam_keyword rd bypass l xs' Ht'). apply adam_complete. exact G.
Qed.

(** the tokens of a text, with 7 for every number *)
Definition tokens_of (kw : string -> bool) (s : string) : list token :=
  match Lex_Model.lex kw false (fun _ => f_of_Z 7) (Lex_Props.cs s) with Lex_Model.TOk l _ => Pipeline_Props.tokens_put l | _ => [] end.
Definition tkn : tk -> token := fun k => mk_token k VEmpty.
Definition seven : list value := compile (ELit (VNum (f_of_Z 7))).
Definition var (n : string) : list value := compile (EVar n).

(** a sheet with all kinds of declarations *)
Definition a_sheet_text : string :=
  "sheet s { input: a: 7; b; interface: unlink c: a <== b; output: r <== c; constant: k: 7; external: x; logic: w <== a; when (a) relate { a <== b; b, c <== a; } invariant: i <== a; } sheet t { }".
Example C88_sheet :
  adam_parse (tokens_of adam_keyword a_sheet_text) =
  Ok [ AddCell input_c "a" (Some 7) seven "" ""; AddCell input_c "b" None [] "" "";
       AddInterface "c" false (Some 16) (var "a") (Some 18) (var "b") "" "";
       AddCell output_c "r" (Some 24) (var "c") "" ""; AddCell constant_c "k" (Some 30) seven "" "";
       AddExternal "x" (Some 34) "" ""; AddCell logic_c "w" (Some 40) (var "a") "" "";
       AddRelation (Some 44) (var "a")
         [mk_relation ["a"] (Some 50) (var "b") "" ""; mk_relation ["b"; "c"] (Some 56) (var "a") "" ""] "" "";
       AddCell invariant_c "i" (Some 63) (var "a") "" "" ]%string tt [].
Proof. vm_compute. reflexivity. Qed.

(** What is accepted beyond the documented grammar *)
Lemma silent_sets D ss n us evs : set_decls true D ss n us evs -> evs = [] -> forall t, In t us -> t_name t = colon_k \/ exists s, t = kw (section_name s).
Proof.
  induction 1 as [n|n u evs us evss H Hs IH]; intros E t I; [destruct I|]. apply app_eq_nil in E. destruct E as [E1 E2]. apply in_app_or in I. destruct I as [I|I]; [|exact (IH E2 t I)].
  destruct H as [s c us1 evs1 ul Is Hc Ds L]. inversion Ds; subst; [|discriminate].
  destruct L as [s u [|x X]|u X]; try discriminate X. cbn [app] in I. destruct I as [<-|[<-|[]]]; [right; exists s; reflexivity|left; exact Hc].
Qed.
Lemma silent_sheets D n us evs : sheet_specifiers true D n us evs -> evs = [] -> forall t, In t us -> t <> kw "unlink".
Proof.
  induction 1 as [n|n u evs us evss H Hs IH]; intros E t I; [destruct I|]. apply app_eq_nil in E. destruct E as [E1 E2]. apply in_app_or in I. destruct I as [I|I]; [|exact (IH E2 t I)].
  destruct H as [ul d name o us1 evs' c ut b Cd Ho Ds Hc Ct]. apply in_app_or in I. destruct I as [I|[<-|[<-|[<-|I]]]].
  - destruct Cd; [destruct I|]. destruct I as [<-|[]]. discriminate.
  - discriminate.
  - discriminate.
  - intros ->. discriminate.
  - apply in_app_or in I. destruct I as [I|[<-|I]].
    + destruct (silent_sets _ _ _ _ _ Ds E1 t I) as [X|[s ->]]; [intros ->; discriminate|]. unfold kw. intros X. injection X as X. destruct s; discriminate.
    + intros ->. discriminate.
    + destruct Ct; [destruct I|]. destruct I as [<-|[]]. discriminate.
Qed.
Lemma tokens_of_lexed keyword s : Forall lexed_decl (tokens_of keyword s).
Proof.
  unfold tokens_of. destruct (Lex_Model.lex keyword false _ (Lex_Props.cs s)) as [l last| | |] eqn:Hl; try constructor.
  destruct (Lex_Props.C61_lexer_is_sound keyword false _ _ l last Hl) as (xs & Hr & Ht).
  rewrite (Pipeline_Props.tokens_delivered keyword _ false l xs Ht). exact (delivered_decl keyword _ false _ xs Hr).
Qed.
(** An unlink that is followed by nothing, and a comment before nothing, are accepted though they are not
    in the documented grammar *)
Theorem C88_only_documented_sheets_refuted :
  ~ (forall ts evs, Forall lexed_decl ts -> adam_parse ts = Ok evs tt [] -> translation_unit true faithful ts evs).
Proof.
  intros H. specialize (H (tokens_of adam_keyword "sheet s { interface: unlink }") [] (tokens_of_lexed _ _) ltac:(vm_compute; reflexivity)).
  assert (I : In (kw "unlink") (tokens_of adam_keyword "sheet s { interface: unlink }")) by (vm_compute; tauto).
  remember (tokens_of adam_keyword "sheet s { interface: unlink }") as ts eqn:Ets. clear Ets.
  inversion H as [us evs ul S L E1 E2]. subst evs. destruct L as [|x X]; [|discriminate X]. rewrite app_nil_r in E1.
  rewrite <- E1 in I. exact (silent_sheets _ _ _ _ S eq_refl _ I eq_refl).
Qed.
Theorem C88_stray_comment_refuted :
  ~ (forall ts evs, Forall lexed_decl ts -> adam_parse ts = Ok evs tt [] -> translation_unit true faithful ts evs).
Proof.
  intros H. specialize (H [mk_token lead_comment_k (VStr "x")] [] ltac:(repeat constructor; exists "x"%string; reflexivity) ltac:(vm_compute; reflexivity)).
  inversion H as [us evs ul S L E1 E2]. subst evs. destruct L as [|x X]; [|discriminate X]. rewrite app_nil_r in E1.
  destruct S as [|n u evs us evss Sh Ss]; [discriminate|]. assert (I : In (kw "sheet") (u ++ us)).
  { apply in_or_app. left. destruct Sh as [ul d name o us1 evs' c ut b]. apply in_or_app. right. left. reflexivity. }
  rewrite E1 in I. destruct I as [I|[]]. discriminate.
Qed.

(** *** C89: layouts *)
Theorem C89_parser_terminates : forall ts, Forall lexed_decl ts -> eve_parse ts <> Fuel.
Proof. intros ts L E. pose proof (eve_sound ts L) as S. rewrite E in S. exact S. Qed.
(** A text is accepted exactly when it begins with a layout; the calls are those of its cells in order,
    then finalize_sheet, then those of the views, each after its parent's and with the place that returned *)
Theorem C89_parser_is_exact :
  forall ts evs, Forall lexed_decl ts ->
    ((exists rest, eve_parse ts = Ok evs tt rest) <->
     exists u cells v rest, ts = u ++ rest /\ layout_specifier false accumulating u cells v /\
       evs = cells ++ FinalizeSheet :: view_calls None 0 v).
Proof.
  intros ts evs L. split.
  - intros [rest E]. pose proof (eve_sound ts L) as S. rewrite E in S. destruct S as (u & cells & v & -> & G & ->). exists u, cells, v, rest. auto.
  - intros (u & cells & v & rest & -> & G & ->). destruct (eve_complete u cells v rest G) as (rest' & E & _). exists rest'. exact E.
Qed.
(** Layouts in which every relate has just two relations are announced as they are written *)
Theorem C89_documented_layouts_are_accepted_partial :
  forall u cells v, layout_specifier true (fun ws rs => length ws = 2 /\ faithful ws rs) u cells v ->
    eve_parse u = Ok (cells ++ FinalizeSheet :: view_calls None 0 v) tt [].
Proof.
  intros u cells v H.
  assert (G : layout_specifier false accumulating u cells v).
  { apply (layout_mono true (fun ws rs => length ws = 2 /\ faithful ws rs) accumulating); [|exact H]. intros ws rs _ [L ->].
    destruct ws as [|w1 [|w2 [|w3 ws]]]; try discriminate L. reflexivity. }
  destruct (eve_complete u cells v [] G) as (rest' & E & [->|(t & _ & X)]); [|discriminate X]. rewrite app_nil_r in E. exact E.
Qed.
(** A whole text has at most one reading *)
Corollary C89_calls_are_unambiguous :
  forall u u' cells cells' v v' rest rest', u ++ rest = u' ++ rest' ->
    layout_specifier false accumulating u cells v -> layout_specifier false accumulating u' cells' v' ->
    cells ++ FinalizeSheet :: view_calls None 0 v = cells' ++ FinalizeSheet :: view_calls None 0 v'.
Proof.
  intros u u' cells cells' v v' rest rest' E G G'. destruct (eve_complete _ _ _ rest G) as (r & H & _).
  destruct (eve_complete _ _ _ rest' G') as (r' & H' & _). rewrite <- E, H in H'. injection H' as H' _. exact H'.
Qed.
Corollary C89_text_of_layouts :
  forall bypass rd t l last evs, Lex_Model.lex eve_keyword bypass rd t = Lex_Model.TOk l last ->
    ((exists rest, eve_parse (Pipeline_Props.tokens_put l) = Ok evs tt rest) <->
     exists xs u cells v rest, Lex_Spec.reads_as t xs /\ Lex_Spec.delivered eve_keyword rd bypass xs = u ++ rest /\
       layout_specifier false accumulating u cells v /\ evs = cells ++ FinalizeSheet :: view_calls None 0 v).
Proof.
  intros bypass rd t l last evs Hl. destruct (Lex_Props.C61_lexer_is_sound eve_keyword bypass rd t l last Hl) as (xs & Hr & Ht). split.
  - intros E. rewrite (Pipeline_Props.tokens_delivered eve_keyword rd bypass l xs Ht) in E.
    apply (C89_parser_is_exact _ _ (delivered_decl eve_keyword rd bypass t xs Hr)) in E. destruct E as (u & cells & v & rest & E & G & ->).
    exists xs, u, cells, v, rest. auto.
  - intros (xs' & u & cells & v & rest & Hr' & E & G & ->). destruct (Lex_Props.C61_lexer_is_complete eve_keyword bypass rd t xs' Hr') as (l' & last' & Hl' & Ht').
    rewrite Hl in Hl'. injection Hl' as <- _. rewrite (Pipeline_Props.tokens_delivered eve_keyword rd bypass l xs' Ht'), E.
    destruct (eve_complete u cells v rest G) as (rest' & E' & _). exists rest'. exact E'.
Qed.
Definition a_layout_text : string :=
  "layout l { interface: a: 7; logic: relate { a <== b; b <== a; c <== a; } view dialog(name: ""x"") { edit(); row() { button(); reveal(); } } } more".
(** the views come in preorder; the third relation comes with the name of the first *)
Example C89_layout :
  eve_parse (tokens_of eve_keyword a_layout_text) =
  Ok [ AddInterface "a" true (Some 7) seven None [] "" "";
       AddRelation (Some 12) []
         [mk_relation ["a"] (Some 15) (var "b") "" ""; mk_relation ["b"] (Some 19) (var "a") "" "";
          mk_relation ["a"; "c"] (Some 23) (var "a") "" ""] "" "";
       FinalizeSheet;
       AddView None (Some 27) "dialog" (compile (EDict [("name", ELit (VStr "x"))])) "" "";
       AddView (Some 0) (Some 34) "edit" [VDict []] "" ""; AddView (Some 0) (Some 38) "row" [VDict []] "" "";
       AddView (Some 2) (Some 42) "button" [VDict []] "" ""; AddView (Some 2) (Some 46) "reveal" [VDict []] "" "" ]%string tt
     [ident "more"].
Proof. vm_compute. reflexivity. Qed.

(** a relate of three *)
Definition three_relations : list token :=
  [kw "layout"; ident "l"; tkn open_brace_k; kw "logic"; tkn colon_k; kw "relate"; tkn open_brace_k;
   ident "a"; tkn is_k; ident "b"; tkn semicolon_k; ident "b"; tkn is_k; ident "a"; tkn semicolon_k;
   ident "c"; tkn is_k; ident "a"; tkn semicolon_k; tkn close_brace_k;
   kw "view"; ident "v"; tkn open_parenthesis_k; tkn close_parenthesis_k; tkn semicolon_k; tkn close_brace_k].
Lemma var_expr n : gexpr [ident n] (EVar n).
Proof. apply g_or. repeat (eapply g_tighter; [reflexivity|]). apply g_postfix, g_primary, g_variable. Qed.
Lemma simple_relation n a b : relate_expression n [ident a; tkn is_k; ident b; tkn semicolon_k] (mk_written [a] (Some (n + 0 + 1 + 1)) (var b) None None).
Proof.
  apply (a_relation n [] None [ident a] [a] [tkn is_k; ident b] (Some (n + 0 + 1 + 1)) (var b) [tkn semicolon_k] None).
  - constructor.
  - constructor.
  - apply a_part; [reflexivity|apply var_expr].
  - apply an_end; [reflexivity|constructor].
Qed.
Lemma three_relations_documented : layout_specifier true faithful three_relations
  [AddRelation (Some 6) [] [mk_relation ["a"] (Some 9) (var "b") "" ""; mk_relation ["b"] (Some 13) (var "a") "" "";
     mk_relation ["c"] (Some 17) (var "a") "" ""] "" ""]%string
  (View (Some 21) "v" [VDict []] "" "" []).
Proof.
  set (us := [ident "a"; tkn is_k; ident "b"; tkn semicolon_k; ident "b"; tkn is_k; ident "a"; tkn semicolon_k; ident "c"; tkn is_k; ident "a"; tkn semicolon_k]).
  set (body := kw "relate" :: tkn open_brace_k :: us ++ [] ++ [tkn close_brace_k]).
  set (ev := AddRelation _ _ _ _ _).
  refine (a_layout true faithful [] None (ident "l") (tkn open_brace_k) ((kw "logic" :: tkn colon_k :: (([] ++ body ++ []) ++ [])) ++ []) ([ev] ++ [])
    ([] ++ [ident "v"; tkn open_parenthesis_k; tkn close_parenthesis_k] ++ [tkn semicolon_k]) _ (tkn close_brace_k) [] None _ eq_refl eq_refl _ _ eq_refl _).
  - constructor.
  - apply (more_sets true faithful eve_sections); [|apply no_sets].
    apply (Decl_Spec.a_set true faithful eve_sections _ logic_s (tkn colon_k) ([] ++ body ++ []) _ []); [right; right; left; reflexivity|reflexivity| |constructor; constructor].
    apply (more_declarations true faithful _ logic_s [] None body _ [] []); [constructor| |constructor].
    apply (d_relate true faithful _ None body (Some 6) [] _ None).
    refine (a_relate true faithful 5 (tkn open_brace_k) us
      [mk_written ["a"%string] (Some 9) (var "b") None None; mk_written ["b"%string] (Some 13) (var "a") None None; mk_written ["c"%string] (Some 17) (var "a") None None]
      _ [] (tkn close_brace_k) [] None eq_refl _ _ eq_refl _ eq_refl _); [|cbn; lia|constructor|constructor].
    apply (more_relation _ [ident "a"; tkn is_k; ident "b"; tkn semicolon_k]); [apply simple_relation|].
    apply (more_relation _ [ident "b"; tkn is_k; ident "a"; tkn semicolon_k]); [apply simple_relation|].
    apply (more_relation _ [ident "c"; tkn is_k; ident "a"; tkn semicolon_k] _ []); [apply simple_relation|constructor].
  - refine (leaf_view true 21 [] None _ "v"%string [VDict []] [tkn semicolon_k] None _ _ _); [constructor|constructor; reflexivity|].
    apply an_end; [reflexivity|constructor].
  - constructor.
Qed.
(** ... is announced with the first relation's name in the third relation *)
Theorem C89_documented_layouts_are_accepted_refuted :
  ~ (forall u cells v, layout_specifier true faithful u cells v ->
      exists rest, eve_parse u = Ok (cells ++ FinalizeSheet :: view_calls None 0 v) tt rest).
Proof.
  intros H. destruct (H _ _ _ three_relations_documented) as [rest E].
  assert (E' : eve_parse three_relations = Ok
    ([AddRelation (Some 6) [] [mk_relation ["a"] (Some 9) (var "b") "" ""; mk_relation ["b"] (Some 13) (var "a") "" "";
       mk_relation ["a"; "c"] (Some 17) (var "a") "" ""] "" ""]%string ++ FinalizeSheet :: view_calls None 0 (View (Some 21) "v" [VDict []] "" "" [])) tt [])
    by (vm_compute; reflexivity).
  rewrite E' in E. discriminate E.
Qed.

(** *** C90: errors *)
(** When a sheet is refused, the calls made by then are those of a text that is accepted: a beginning of
    this one, closed by a brace if need be *)
Theorem C90_calls_before_an_error_of_a_sheet :
  forall ts evs, Forall lexed_decl ts -> adam_parse ts = Err evs ->
    exists u v, ts = u ++ v /\
      (adam_parse u = Ok evs tt [] \/ adam_parse (u ++ [mk_token close_brace_k VEmpty]) = Ok evs tt []).
Proof.
  intros ts evs L E. pose proof (adam_sound ts L) as S. rewrite E in S. destruct S as (u & v & -> & [G|G]); exists u, v; (split; [reflexivity|]).
  - left. apply adam_complete. exact G.
  - right. apply adam_complete. exact G.
Qed.
(** When a layout is refused, either no calls were made, or they are those of a text that is accepted and
    begins like this one — all of them, or all but the last view's call, or all but that and finalize_sheet *)
Theorem C90_calls_before_an_error_of_a_layout :
  forall ts evs, Forall lexed_decl ts -> eve_parse ts = Err evs ->
    evs = [] \/ exists u v z missing, ts = u ++ v /\ eve_parse (u ++ z) = Ok (evs ++ missing) tt [] /\
      (missing = [] \/ exists p, missing = [AddView None p "v" [VDict []] "" ""] \/
         missing = [FinalizeSheet; AddView None p "v" [VDict []] "" ""]).
Proof.
  intros ts evs L E. pose proof (eve_sound ts L) as S. rewrite E in S.
  destruct S as [->|(ul & d & name & o & u & v & cells & Cd & Hi & Ho & -> & D & S)]; [left; reflexivity|]. right.
  assert (ACC : forall uv w, view_def false (length ul + 3 + length u + 1) uv w ->
    eve_parse (ul ++ kw "layout" :: name :: o :: u ++ kw "view" :: uv ++ [closing]) = Ok (cells ++ FinalizeSheet :: view_calls None 0 w) tt []).
  { intros uv w V. destruct (eve_complete _ cells w [] (a_layout false accumulating ul d name o u cells uv w closing [] None Cd Hi Ho D V eq_refl (no_comment _))) as (rest' & E' & [->|(t & _ & X)]); [|discriminate X].
    rewrite app_nil_r in E'. exact E'. }
  set (tail := [ident "v"; tkn open_parenthesis_k; tkn close_parenthesis_k; tkn semicolon_k]).
  pose (m := length ul + 3 + length u + 1).
  assert (V : view_def false m tail (View (Some (m + 0)) "v" [VDict []] "" "" [])).
  { apply (leaf_view false m [] None [ident "v"; tkn open_parenthesis_k; tkn close_parenthesis_k] "v"%string [VDict []] [tkn semicolon_k] None); [constructor|constructor; reflexivity|].
    apply an_end; [reflexivity|constructor]. }
  assert (NOV : exists p, eve_parse ((ul ++ kw "layout" :: name :: o :: u) ++ kw "view" :: tail ++ [closing]) =
    Ok ((cells ++ [FinalizeSheet]) ++ [AddView None p "v" [VDict []] "" ""]) tt []).
  { exists (Some (m + 0)). rewrite <- !app_assoc. cbn [app]. rewrite (ACC _ _ V). reflexivity. }
  destruct NOV as [p NOV].
  assert (SPLIT : ul ++ kw "layout" :: name :: o :: u ++ v = (ul ++ kw "layout" :: name :: o :: u) ++ v) by (rewrite <- app_assoc; reflexivity).
  destruct S as [->|[->|(v' & calls & -> & -> & C)]].
  - exists (ul ++ kw "layout" :: name :: o :: u), v, (kw "view" :: tail ++ [closing]), [FinalizeSheet; AddView None p "v" [VDict []] "" ""].
    split; [exact SPLIT|]. split; [rewrite NOV, <- app_assoc; reflexivity|]. right. exists p. right. reflexivity.
  - exists (ul ++ kw "layout" :: name :: o :: u), v, (kw "view" :: tail ++ [closing]), [AddView None p "v" [VDict []] "" ""].
    split; [exact SPLIT|]. split; [exact NOV|]. right. exists p. left. reflexivity.
  - destruct C as [->|(uv & r & z & w & -> & G & ->)].
    + exists (ul ++ kw "layout" :: name :: o :: u), (kw "view" :: v'), (kw "view" :: tail ++ [closing]), [AddView None p "v" [VDict []] "" ""].
      split; [exact SPLIT|]. split; [exact NOV|]. right. exists p. left. reflexivity.
    + exists (ul ++ kw "layout" :: name :: o :: u ++ kw "view" :: uv), r, (z ++ [closing]), [].
      split; [repeat (rewrite <- app_assoc; cbn [app]); reflexivity|]. split; [|left; reflexivity]. rewrite app_nil_r. rewrite <- (ACC _ _ G).
      repeat (rewrite <- app_assoc; cbn [app]). reflexivity.
Qed.
(** So a refused text leaves what was announced before the error in the client: parsing is not all or nothing *)
Theorem C90_a_refused_text_makes_no_calls_refuted :
  ~ (forall ts evs, Forall lexed_decl ts -> adam_parse ts = Err evs -> evs = []).
Proof.
  intros H. specialize (H (tokens_of adam_keyword "sheet s { input: a; b") [AddCell input_c "a" None [] "" ""]%string (tokens_of_lexed _ _) ltac:(vm_compute; reflexivity)).
  discriminate H.
Qed.
Example C90_layout_case :
  eve_parse (tokens_of eve_keyword "layout l { constant: k: 7; view dialog() { edit(); oops } }") =
  Err [AddCell constant_c "k" (Some 7) seven "" ""; FinalizeSheet; AddView None (Some 10) "dialog" [VDict []] "" "";
       AddView (Some 0) (Some 14) "edit" [VDict []] "" ""]%string.
Proof. vm_compute. reflexivity. Qed.
