(** C73, C74: the CEL serializer: what is written reads back as the value; the text is canonical. *)
From Coq Require Import String Ascii ZArith Lia Permutation Floats.SpecFloat.
From Verif Require Import Prelude Vm_Value Vm_Model Vm_Spec Entity_Model Expr_Model Expr_Spec Lex_Model Lex_Spec Lex_Props Pipeline_Props Cel_Model Cel_Spec Cel_Proofs Cel_Read.
From Verif Require Entity_Props Unicode_Spec.
From Coq Require Import List.
Import ListNotations.
Local Open Scope nat_scope.
Ltac Zify.zify_post_hook ::= idtac.

(** lexeme text is not empty *)
Lemma spelled_some x : well_formed x -> 0 < length (spelled x).
Proof.
  destruct x as [w|x ds|w|k|ps lone|body le|body]; cbn [well_formed spelled]; try (cbn; lia).
  - intros (c & w' & -> & _). cbn. lia.
  - intros (c & w' & -> & _). cbn. lia.
  - destruct k; intros H; try discriminate H; cbn; lia.
  - intros [_ [[-> N] | (q & -> & _)]].
    + destruct ps as [|p ps]; [congruence|]. cbn. lia.
    + rewrite app_length. cbn. lia.
Qed.
Lemma reads_length t xs : reads_as t xs -> length xs <= length t.
Proof.
  induction 1 as [|ws x r xs Hw Wx Ex Hr IH]; cbn [length]; [lia|]. pose proof (spelled_some x Wx). rewrite !app_length. lia.
Qed.
Lemma delivered_all kw rd bypass X : Forall (fun x => comment x = false) X -> delivered kw rd bypass X = map (means kw rd) X.
Proof.
  intros H. unfold delivered. destruct bypass; [|reflexivity]. f_equal. induction H as [|x X Hx H IH]; [reflexivity|]. cbn [filter]. rewrite Hx. cbn [negb]. now rewrite IH.
Qed.

(** ** C73 *)
(** Written text is read by the lexer, is one expression to the parser, and the machine running that code pushes
    the value that was written (dictionaries have no order): for every value that CEL can write, whatever is
    already on the stack and whatever happened before *)
Theorem C73_round_trip_partial :
  forall show type_text code_index escape kw bypass read (E : env) (v : value) stk h,
    Entity_Props.sorted_by_code code_index -> Entity_Props.sorted_by_name (e_name_index E) -> overrides_binary E ->
    kw "xml_unescape"%string = false ->
    writable show read (keyword kw) (text_ok escape) v ->
    exists t, serialize show type_text code_index escape v = Some t /\
      ((Z.of_nat (length t) < 2 ^ 31)%Z ->
       exists l last code v',
         lex kw bypass read t = TOk l last /\ is_expression [] (tokens_put l) = PRet true code [] /\
         runs E code (mk_state stk h) (ROk (mk_state (v' :: stk) h)) /\ same v v').
Proof.
  intros show type_text ci esc kw bypass rd E v stk h Hci Hni HE Hf W.
  exists (text show type_text ci esc 0 v). split; [apply serialize_text|]. intros L.
  assert (F : follow [] []) by (split; [apply (reads_end []); constructor|now left]).
  destruct (value_reads show type_text ci esc kw rd E Hci Hni Hf v W 0 [] [] F) as (X & e & R & C & G & Ev).
  rewrite !app_nil_r in R. pose proof (reads_length _ _ R).
  destruct (C64_text_to_value kw bypass rd _ X e E stk h R) as (l & last & code & Hl & Hp & Hr); auto; [|lia|].
  - rewrite delivered_all by exact C. now apply unary_gexpr.
  - rewrite (Ev h) in Hr. exists l, last, code, (norm v). repeat (split; [assumption|]). apply same_norm.
Qed.

(** *** what does not come back *)
(** A number printed in scientific notation is not an expression *)
Theorem C73_scientific_numbers_refuted :
  forall show type_text code_index escape kw bypass read f,
    show f = cs "1e+20" ->
    exists t, serialize show type_text code_index escape (VNum f) = Some t /\
      ~ exists l last code, lex kw bypass read t = TOk l last /\ is_expression [] (tokens_put l) = PRet true code [].
Proof.
  intros show type_text ci esc kw bypass rd f Hs. exists (show f). split; [apply serialize_text|]. rewrite Hs. intros (l & last & code & Hl & Hp).
  remember (lex kw bypass rd (cs "1e+20")) as R eqn:ER. vm_compute in ER. subst R.
  destruct (kw "e"%string) eqn:K; destruct bypass;
    try rewrite K in Hl; injection Hl as <- <-; vm_compute in Hp; discriminate Hp.
Qed.
(** A dictionary with a key that is a keyword or is not an identifier is not an expression *)
Theorem C73_keys_refuted :
  forall show type_text code_index escape kw bypass read k,
    k = "true"%string \/ k = "a b"%string \/ k = "3"%string \/ k = ""%string ->
    exists t, serialize show type_text code_index escape (VDict [(k, VBool false)]) = Some t /\
      ~ exists l last code, lex kw bypass read t = TOk l last /\ is_expression [] (tokens_put l) = PRet true code [].
Proof.
  intros show type_text ci esc kw bypass rd k Hk. eexists. split; [apply serialize_text|]. intros (l & last & code & Hl & Hp).
  destruct Hk as [-> | [-> | [-> | ->]]]; cbn [text sort_rows fold_right insert_row rows_text atom_text app fst snd indents repeat pred] in Hl.
  - vm_compute in Hl. destruct bypass; injection Hl as <- <-; vm_compute in Hp; discriminate Hp.
  - vm_compute in Hl. destruct (kw "a"%string), (kw "b"%string), bypass; injection Hl as <- <-; vm_compute in Hp; discriminate Hp.
  - vm_compute in Hl. destruct bypass; injection Hl as <- <-; vm_compute in Hp; discriminate Hp.
  - vm_compute in Hl. destruct bypass; injection Hl as <- <-; vm_compute in Hp; discriminate Hp.
Qed.
(** Infinity and NaN are written as words: they come back as the value of a variable of that name *)
Theorem C73_infinity_refuted :
  forall show type_text code_index escape kw bypass read f s,
    show f = cs s -> s = "Infinity"%string \/ s = "NaN"%string -> kw s = false ->
    exists t l last, serialize show type_text code_index escape (VNum f) = Some t /\
      lex kw bypass read t = TOk l last /\ is_expression [] (tokens_put l) = PRet true (compile (EVar s)) [].
Proof.
  intros show type_text ci esc kw bypass rd f s Hs D K. exists (show f). rewrite Hs.
  assert (W : word s).
  { destruct D as [-> | ->]; eexists; eexists; (split; [reflexivity|]); (split; [reflexivity|]); repeat (constructor; [reflexivity|]); constructor. }
  assert (Kw : keyword kw s = false) by (destruct D as [-> | ->]; unfold keyword; rewrite K; reflexivity).
  assert (R : reads_as (cs s) [Word (cs s)]).
  { rewrite <- (app_nil_r (cs s)) at 1. apply (reads_word s [] []); [exact W|exact Logic.I|]. apply (reads_end []). constructor. }
  destruct (C61_lexer_is_complete kw bypass rd _ _ R) as (l & last & Hl & Ht). exists l, last.
  split; [rewrite <- Hs; apply serialize_text|]. split; [exact Hl|]. rewrite (tokens_delivered kw rd bypass l _ Ht), delivered_all by (repeat constructor).
  cbn [map]. unfold means. rewrite str_cs, Kw. reflexivity.
Qed.
(** A string with a byte that is not ASCII comes back as another string, when entities are escaped *)
Theorem C73_other_strings_refuted :
  forall show type_text code_index kw bypass read (E : env) (s : string) stk h,
    Entity_Props.sorted_by_code code_index -> Entity_Props.sorted_by_name (e_name_index E) -> overrides_binary E ->
    kw "xml_unescape"%string = false ->
    ~ In "000"%char (list_ascii_of_string s) -> (exists c, In c (list_ascii_of_string s) /\ (128 <= code c)%Z) ->
    exists t, serialize show type_text code_index true (VStr s) = Some t /\
      ((Z.of_nat (length t) < 2 ^ 31)%Z ->
       exists l last code s',
         lex kw bypass read t = TOk l last /\ is_expression [] (tokens_put l) = PRet true code [] /\
         runs E code (mk_state stk h) (ROk (mk_state (VStr s' :: stk) h)) /\ s' <> s).
Proof.
  intros show type_text ci kw bypass rd E s stk h Hci Hni HE Hf H0 (c & Hc & Hh).
  exists (text show type_text ci true 0 (VStr s)). split; [apply serialize_text|]. intros L.
  set (u := flat_map Unicode_Spec.utf8 (filter (fun c => negb (c =? 0)%N) (bs s))).
  assert (Hu : entity_unescape (e_name_index E) (entity_escape ci (bs s)) = Unescaped u)
    by exact (Entity_Props.C53_unescape_of_escape ci (e_name_index E) (bs s) Hci Hni (bs_byte s)).
  assert (N0 : forall x, In x (bs s) -> x <> 0%N).
  { intros x Hx ->. rewrite <- bs_cs in Hx. apply in_map_iff in Hx as (y & Hy & Hx). apply H0. replace "000"%char with y; [exact Hx|].
    rewrite <- (ascii_N_embedding y), Hy. reflexivity. }
  assert (NA : ~ Forall Entity_Props.ascii (bs s)).
  { intros A. rewrite <- bs_cs, Forall_forall in A. specialize (A (N_of_ascii c) (in_map _ _ _ Hc)). unfold Entity_Props.ascii, code in *. lia. }
  assert (Un : u <> bs s).
  { intros Eu. rewrite Eu in Hu. exact (Entity_Props.C53_round_trip_refuted ci (e_name_index E) (bs s) Hci Hni (bs_byte s) NA (or_introl N0) Hu). }
  assert (En : needs_entity_escape ci (bs s) = true).
  { destruct (needs_entity_escape ci (bs s)) eqn:Q; [reflexivity|]. exfalso.
    assert (Es : entity_escape ci (bs s) = bs s).
    { destruct (list_eq_dec N.eq_dec (entity_escape ci (bs s)) (bs s)) as [e|n]; [exact e|]. apply (Entity_Props.C52_needs_escape_is_exact ci (bs s) Hci (bs_byte s)) in n. congruence. }
    destruct (Entity_Props.C52_escape_is_plain_text ci (bs s) Hci (bs_byte s)) as [_ P]. rewrite Es in P. rewrite <- bs_cs in P. rewrite Forall_forall in P.
    specialize (P (N_of_ascii c) (in_map _ _ _ Hc)). unfold Entity_Props.printable, code in *. lia. }
  assert (F : follow [] []) by (split; [apply (reads_end []); constructor|now left]).
  destruct (reads_escaped show type_text ci true kw rd E Hci Hf s u eq_refl En Hu [] [] F) as (X & e & R & C & G & Ev).
  rewrite !app_nil_r in R. pose proof (reads_length _ _ R). change (text show type_text ci true 0 (VStr s)) with (atom_text show type_text ci true false (VStr s)) in *.
  destruct (C64_text_to_value kw bypass rd _ X e E stk h R) as (l & last & code & Hl & Hp & Hr); auto; [|lia|].
  - rewrite delivered_all by exact C. now apply unary_gexpr.
  - rewrite (Ev h) in Hr. exists l, last, code, (string_of u). repeat (split; [assumption|]). intros Es. apply Un. rewrite <- Es. symmetry. apply bs_string_of.
    unfold u. apply Forall_flat_map. apply Forall_forall. intros x Hx. apply filter_In in Hx as [Hx _]. pose proof (bs_byte s) as B. rewrite Forall_forall in B. specialize (B x Hx).
    unfold Entity_Props.byte in B. clear - B.
    assert (A : forallb (fun n => forallb (fun b => b <? 256)%N (Unicode_Spec.utf8 (N.of_nat n))) (seq 0 256) = true) by (vm_compute; reflexivity).
    rewrite forallb_forall in A. specialize (A (N.to_nat x)). rewrite N2Nat.id in A. apply Forall_forall. intros b Hb.
    assert (Q := A ltac:(apply in_seq; lia)). rewrite forallb_forall in Q. specialize (Q b Hb). now apply N.ltb_lt.
Qed.
(** A value of another type (here one whose type is named m, as size_t is) comes back as a string *)
Theorem C73_other_types_refuted :
  forall show type_text code_index escape kw bypass read v,
    match v with VSize _ | VOther _ => True | _ => False end -> type_text v = cs "m" ->
    exists t l last, serialize show type_text code_index escape v = Some t /\
      lex kw bypass read t = TOk l last /\ is_expression [] (tokens_put l) = PRet true (compile (ELit (VStr "m"))) [].
Proof.
  intros show type_text ci esc kw bypass rd v Hv Ht. exists (cs "'m'").
  assert (R : reads_as (cs "'m'") [Str [mk_piece "'" (cs "m") []] []]).
  { apply (reads_next [] (Str [mk_piece "'" (cs "m") []] []) [] []); [constructor| | |apply (reads_end []); constructor].
    - split; [constructor; [|constructor]|left; split; [reflexivity|discriminate]]. split; [reflexivity|]. split; repeat constructor.
    - split; exact Logic.I. }
  destruct (C61_lexer_is_complete kw bypass rd _ _ R) as (l & last & Hl & Hk). exists l, last. split; [|split; [exact Hl|]].
  - rewrite serialize_text. destruct v; try contradiction; cbn [text atom_text]; rewrite Ht; reflexivity.
  - rewrite (tokens_delivered kw rd bypass l _ Hk), delivered_all by (repeat constructor). reflexivity.
Qed.

(** ** C74: the text is canonical *)
(** *** being the same is an equivalence *)
Definition row_same (x y : string * value) : Prop := fst x = fst y /\ same (snd x) (snd y).
Lemma Forall2_swap {A B} (P : A -> B -> Prop) l l' : Forall2 P l l' -> Forall2 (fun y x => P x y) l' l.
Proof. induction 1; constructor; auto. Qed.
Lemma same_sym v : forall w, same v w -> same w v.
Proof.
  induction v as [f|b|s|n| |l IH|d IH|n|k] using value_ind'; intros w H; inversion H as [l1 l2 HF|d0 d1 d' HP HF|]; subst; try (apply same_leaf; assumption); try contradiction.
  - apply same_arr. clear H. induction HF; inversion IH; subst; constructor; auto.
  - assert (IH' := Permutation_Forall HP IH). clear H IH.
    assert (HF' : Forall2 (fun y x => row_same x y) d1 d').
    { clear HP. induction HF as [|x y d1 d' [H1 H2] HF IH]; inversion IH'; subst; constructor; auto. split; auto. }
    apply Permutation_sym in HP. destruct (Permutation_Forall2 HP HF') as (d2 & P2 & F2).
    apply (same_dict d' d2); [exact P2|]. exact (Forall2_swap _ _ _ F2).
Qed.
Lemma same_trans u : forall v w, same u v -> same v w -> same u w.
Proof.
  induction u as [f|b|s|n| |l IH|d IH|n|k] using value_ind'; intros v w H1 H2; inversion H1 as [l1 l2 HF|d0 d1 d' HP HF|]; subst; try assumption; try contradiction.
  - inversion H2 as [l3 l4 HF2| |]; subst; [|contradiction]. apply same_arr. clear H1 H2. revert l4 HF2.
    induction HF as [|x y l l2 Hxy HF IHF]; intros l4 HF2; inversion HF2; subst; inversion IH; subst; constructor; eauto.
  - inversion H2 as [|d0 d2 d'' HP2 HF2|]; subst; [|contradiction]. assert (IH' := Permutation_Forall HP IH). clear H1 H2 IH.
    destruct (Permutation_Forall2 HP2 (Forall2_swap _ _ _ HF)) as (d3 & P3 & F3).
    apply (same_dict d d3); [now rewrite HP|]. assert (IH'' := Permutation_Forall P3 IH'). apply Forall2_swap in F3. clear - F3 HF2 IH''.
    revert d'' HF2. induction F3 as [|x y d3 d2 [E1 S1] F3 IH]; intros d'' HF2; inversion HF2 as [|? z ? ? [E2 S2]]; subst; inversion IH''; subst; constructor; eauto.
    split; [congruence|eauto].
Qed.
(** *** the order of the keys *)
Lemma ltb_irrefl a : str_ltb a a = false.
Proof. induction a as [|x a IH]; [reflexivity|]. cbn. now rewrite N.ltb_irrefl. Qed.
Lemma ltb_trans a : forall b c, str_ltb a b = true -> str_ltb b c = true -> str_ltb a c = true.
Proof.
  induction a as [|x a IH]; intros [|y b] [|z c]; cbn; try discriminate; auto.
  destruct (N.ltb_spec (N_of_ascii x) (N_of_ascii y)), (N.ltb_spec (N_of_ascii y) (N_of_ascii x)), (N.ltb_spec (N_of_ascii y) (N_of_ascii z)), (N.ltb_spec (N_of_ascii z) (N_of_ascii y)),
    (N.ltb_spec (N_of_ascii x) (N_of_ascii z)), (N.ltb_spec (N_of_ascii z) (N_of_ascii x)); try lia; try discriminate; auto. apply IH.
Qed.
Lemma ltb_total a : forall b, a <> b -> str_ltb a b = true \/ str_ltb b a = true.
Proof.
  induction a as [|x a IH]; intros [|y b] N; cbn; auto.
  destruct (N.ltb_spec (N_of_ascii x) (N_of_ascii y)), (N.ltb_spec (N_of_ascii y) (N_of_ascii x)); auto.
  apply IH. intros ->. apply N. f_equal. rewrite <- (ascii_N_embedding x), <- (ascii_N_embedding y). f_equal. lia.
Qed.
Lemma insert_comm {A} k (a : A) k' a' : str_ltb k k' = true -> forall l, insert_row k a (insert_row k' a' l) = insert_row k' a' (insert_row k a l).
Proof.
  intros H. assert (H' : str_ltb k' k = false).
  { destruct (str_ltb k' k) eqn:Q; [|reflexivity]. pose proof (ltb_trans _ _ _ H Q) as R. now rewrite ltb_irrefl in R. }
  induction l as [|[q b] l IH]; cbn [insert_row]; [now rewrite H, H'|].
  destruct (str_ltb q k) eqn:Q1.
  - rewrite (ltb_trans _ _ _ Q1 H). cbn [insert_row]. rewrite Q1, (ltb_trans _ _ _ Q1 H). now rewrite IH.
  - destruct (str_ltb q k') eqn:Q2; cbn [insert_row].
    + rewrite Q1, H. now rewrite Q2.
    + rewrite H', H. now rewrite Q2.
Qed.
Lemma sort_perm {A} (l l' : list (string * A)) : Permutation l l' -> NoDup (map fst l) -> sort_rows l = sort_rows l'.
Proof.
  induction 1 as [|[k a] l l' P IH|[k a] [k' a'] l|l l1 l2 P1 IH1 P2 IH2]; intros N.
  - reflexivity.
  - cbn [sort_rows fold_right fst snd]. fold (sort_rows l). fold (sort_rows l'). inversion N; subst. now rewrite IH.
  - cbn [sort_rows fold_right fst snd]. inversion N as [|? ? N1 _]; subst. cbn [map fst] in N1.
    destruct (ltb_total k' k) as [H|H]; [intros ->; apply N1; now left| |]; [|symmetry]; apply insert_comm; exact H.
  - rewrite IH1 by exact N. apply IH2. apply (Permutation_NoDup (Permutation_map fst P1)). exact N.
Qed.
(** the keys of every dictionary are distinct, as they are in C++ *)
Inductive proper : value -> Prop :=
| p_arr l : Forall proper l -> proper (VArr l)
| p_dict d : NoDup (map fst d) -> Forall (fun kv => proper (snd kv)) d -> proper (VDict d)
| p_leaf v : match v with VArr _ | VDict _ => False | _ => True end -> proper v.
Lemma same_text show tt ci esc v : forall w d, proper v -> same v w -> text show tt ci esc d v = text show tt ci esc d w.
Proof.
  induction v as [f|b|s|n| |l IH|dd IH|n|k] using value_ind'; intros w d Hp H; inversion H as [l1 l2 HF|d0 d1 d' HP HF|]; subst; try reflexivity; try contradiction.
  - inversion Hp as [? Hl| |]; subst; [|contradiction]. cbn [text]. f_equal. f_equal. f_equal. clear H Hp.
    induction HF; inversion IH; subst; inversion Hl; subst; cbn [map]; f_equal; auto.
  - inversion Hp as [|? N Hd|]; subst; [|contradiction]. cbn [text]. f_equal. f_equal. f_equal. rewrite !pairs_map.
    rewrite (sort_perm _ (map (fun kw => (fst kw, text show tt ci esc (S d) (snd kw))) d1)).
    + f_equal. assert (IH' := Permutation_Forall HP IH). assert (Hd' := Permutation_Forall HP Hd). clear - HF IH' Hd'.
      induction HF as [|x y d1 d' [E1 S1] HF IHF]; inversion IH'; subst; inversion Hd'; subst; cbn [map]; f_equal; auto. rewrite E1. f_equal. auto.
    + now apply Permutation_map.
    + rewrite map_map. exact N.
Qed.
(** Values that are the same are written the same, in whatever order their dictionaries were filled or iterate *)
Theorem C74_text_is_canonical :
  forall show type_text code_index escape v w,
    proper v -> same v w -> serialize show type_text code_index escape v = serialize show type_text code_index escape w.
Proof. intros show tt ci esc v w Hp H. rewrite !serialize_text. f_equal. now apply same_text. Qed.
(** and what CEL can write has a text of its own *)
Lemma runs_det E p s r r' : runs E p s r -> runs E p s r' -> r = r'.
Proof.
  intros [_ (n & H)] [_ (n' & H')]. rewrite <- (H (n + n')) by lia. apply H'. lia.
Qed.
Definition plain_env : env := {| e_variable := None; e_array_fn := None; e_dict_fn := None; e_named_index := None; e_numeric_index := None;
  e_override := fun _ => None; e_localize := fun s => s; e_other_type := fun _ => ""%string;
  e_code_index := Entity_Props.the_codes; e_name_index := Entity_Props.the_names; e_size64 := true |}.
Lemma writable_proper show rd kw ok v : writable show rd kw ok v -> proper v.
Proof.
  induction v as [f|b|s|n| |l IH|d IH|n|k] using value_ind'; intros W; try (apply p_leaf; exact Logic.I).
  - inversion W; subst. apply p_arr. rewrite Forall_forall in *. auto.
  - inversion W as [| | | | | |? N Wd]; subst. apply p_dict; [exact N|]. rewrite Forall_forall in *. intros x Hx. apply IH; auto. apply (Wd x Hx).
Qed.
Theorem C74_text_identifies_the_value :
  forall show type_text code_index escape kw read v w t,
    Entity_Props.sorted_by_code code_index -> kw "xml_unescape"%string = false ->
    writable show read (keyword kw) (text_ok escape) v -> writable show read (keyword kw) (text_ok escape) w ->
    serialize show type_text code_index escape v = Some t -> (Z.of_nat (length t) < 2 ^ 31)%Z ->
    (serialize show type_text code_index escape w = Some t <-> same v w).
Proof.
  intros show tt ci esc kw rd v w t Hci Hf Wv Ww Hv L. split; intros H.
  - assert (HE : overrides_binary plain_env) by (intros n Hn; cbn in Hn; congruence).
    assert (Hni : Entity_Props.sorted_by_name (e_name_index plain_env)) by exact (proj2 Entity_Props.entity_indexes_exist).
    destruct (C73_round_trip_partial show tt ci esc kw true rd plain_env v [] [] Hci Hni HE Hf Wv) as (t1 & E1 & R1).
    destruct (C73_round_trip_partial show tt ci esc kw true rd plain_env w [] [] Hci Hni HE Hf Ww) as (t2 & E2 & R2).
    rewrite Hv in E1. rewrite H in E2. injection E1 as <-. injection E2 as <-.
    destruct (R1 L) as (l1 & last1 & c1 & v1 & A1 & B1 & C1 & D1). destruct (R2 L) as (l2 & last2 & c2 & v2 & A2 & B2 & C2 & D2).
    rewrite A1 in A2. injection A2 as <- <-. rewrite B1 in B2. injection B2 as <-.
    pose proof (runs_det _ _ _ _ _ C1 C2) as Q. injection Q as <-. apply (same_trans v v1 w); [exact D1|]. now apply same_sym.
  - rewrite <- (C74_text_is_canonical show tt ci esc v w); auto. exact (writable_proper _ _ _ _ _ Wv).
Qed.
(** *** a case *)
Definition show_small (f : spec_float) : list ascii := if SFeqb f (f_of_Z 2) then cs "2" else if SFeqb f (f_of_Z (-3)) then cs "-3" else cs "1e+20".
Definition read_small (w : list ascii) : spec_float := if list_eq_dec ascii_dec w (cs "2") then f_of_Z 2 else f_of_Z 3.
Definition case_value : value :=
  VDict [("size"%string, VArr [VNum (f_of_Z 2); VNum (f_of_Z (-3)); VName "x"]); ("label"%string, VStr "a < b"); ("bind"%string, VDict [])].
Example C73_case :
  serialize show_small (fun _ => []) Entity_Props.the_codes true case_value =
    Some (cs "{" ++ [Cel_Model.LF; TAB] ++ cs "bind: { }," ++ [Cel_Model.LF; TAB] ++ cs "label: xml_unescape(" ++ DQ :: cs "a &lt; b" ++ DQ :: cs ")," ++
          [Cel_Model.LF; TAB] ++ cs "size: [ 2, -3, @x ]" ++ [Cel_Model.LF] ++ cs "}") /\
  writable show_small read_small (keyword (fun _ => false)) (text_ok true) case_value.
Proof.
  split; [vm_compute; reflexivity|].
  assert (Wd : forall s, match list_ascii_of_string s with [] => False | c :: w => word_start c = true /\ forallb word_char w = true end -> word s).
  { intros s H. unfold word. destruct (list_ascii_of_string s) as [|c w]; [contradiction|]. exists c, w. destruct H as [H1 H2]. split; [reflexivity|]. split; [exact H1|].
    apply Forall_forall. rewrite forallb_forall in H2. exact H2. }
  apply w_dict; [repeat constructor; cbn; intuition discriminate|].
  repeat (constructor; [split; [apply Wd; vm_compute; auto|split; [reflexivity|]]|]); [| | |constructor].
  - cbn [snd]. apply w_arr. constructor; [|constructor; [|constructor; [|constructor]]].
    + apply w_num. exists (cs "2"). split; [exists "2"%char, []; repeat constructor|]. left. split; reflexivity.
    + apply w_num. exists (cs "3"). split; [exists "3"%char, []; repeat constructor|]. right. split; reflexivity.
    + apply w_name. apply Wd. vm_compute. auto.
  - cbn [snd]. apply w_str. unfold text_ok. apply Forall_forall. intros c Hc. cbn in Hc. repeat (destruct Hc as [<- | Hc]; [vm_compute; auto|]). contradiction.
  - cbn [snd]. apply w_dict; constructor.
Qed.
