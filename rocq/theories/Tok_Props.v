(** Properties C113, C114: the JavaScript and PDF serializers. *)
From Coq Require Import String Ascii ZArith Lia Permutation Floats.SpecFloat DecimalString DecimalZ.
From Verif Require Import Prelude Vm_Value Vm_Model Vm_Spec Cel_Model XmlOut_Model Tok_Model XmlOut_Text Tok_Text Tok_Spec.
From Verif Require Cel_Spec Cel_Proofs Cel_Read Cel_Props XmlOut_Spec XmlOut_Props XmlOut2_Props Lex_Spec.
From Coq Require Import List.
Import ListNotations.
Local Open Scope nat_scope.
Ltac Zify.zify_post_hook ::= idtac.
Notation same := Cel_Spec.same.
Notation norm := Cel_Read.norm.

Definition among (s : string) (c : ascii) : bool := existsb (Ascii.eqb c) (list_ascii_of_string s).
(** how a value may begin, and how one that is not a container does *)
Definition opens (c : ascii) : bool := negb (white c || among "]},>" c).
Definition leaf_opens (c : ascii) : bool := (opens c && negb (among "[{<" c))%bool.
Definition delim (r : list ascii) : Prop := match r with c :: _ => among ", " c = true \/ c = LF | [] => True end.

Section Generic.
Variable show : spec_float -> list ascii.
Variable type_text : value -> list ascii.
Variable T : tokens.
Variable comma : bool.
Variable leaf : list ascii -> option (value * list ascii).
Variable key : list ascii -> option (string * list ascii).
Variable leaf_ok : value -> Prop.
Variable key_ok : string -> Prop.
Notation bag := (t_bag T).
Notation bag_end := (t_bag_end T).
Notation text := (text show type_text T).
Notation atom_text := (atom_text T show type_text).
Notation read := (read bag bag_end comma leaf key).
Notation items := (items comma).
Notation rows := (rows bag_end comma key).
Notation separator := (separator comma).

Hypothesis H_bag : exists c b, bag = c :: b /\ opens c = true /\ c <> "["%char.
Hypothesis H_bag_end : exists c b, bag_end = c :: b /\ opens c = false /\ white c = false.
Hypothesis H_bag_none : forall c t, leaf_opens c = true -> expect bag (c :: t) = None.
Hypothesis H_leaf : forall v, leaf_ok v -> match v with VArr _ | VDict _ => False | _ => True end /\
  exists c t, atom_text false v = Some (c :: t) /\ leaf_opens c = true /\ forall r, delim r -> leaf ((c :: t) ++ r) = Some (v, r).
Hypothesis H_key : forall k, key_ok k -> exists c t, around (t_key T) (cs k) = c :: t /\ opens c = true /\
  forall r, key ((c :: t) ++ r) = Some (k, " "%char :: r).
Hypothesis H_item : forall c u, opens c = true -> delim (t_item T ++ c :: u) /\ expect (cs "]") (skip (t_item T ++ c :: u)) = None /\
  exists u', separator false (skip (t_item T ++ c :: u)) = Some u' /\ skip u' = c :: u.
Hypothesis H_row : forall d c u, opens c = true -> delim (t_row T ++ LF :: indents d ++ c :: u) /\
  expect bag_end (skip (t_row T ++ LF :: indents d ++ c :: u)) = None /\
  exists u', separator false (skip (t_row T ++ LF :: indents d ++ c :: u)) = Some u' /\ skip u' = c :: u.

Inductive ok : value -> Prop :=
| ok_leaf v : leaf_ok v -> ok v
| ok_arr l : Forall ok l -> ok (VArr l)
| ok_dict d : Forall (fun kv => key_ok (fst kv) /\ ok (snd kv)) d -> ok (VDict d).

Lemma skip_opens c t : opens c = true -> skip (c :: t) = c :: t.
Proof. unfold opens. rewrite negb_orb, andb_true_iff, !negb_true_iff. intros [H _]. cbn [skip]. now rewrite H. Qed.
Lemma leaf_opens_opens c : leaf_opens c = true -> opens c = true.
Proof. unfold leaf_opens. now rewrite andb_true_iff. Qed.
Lemma expect_neq c e p t : c <> e -> expect (c :: p) (e :: t) = None.
Proof. intros H. cbn [expect]. destruct (Ascii.eqb_spec c e) as [Q|]; [contradiction|reflexivity]. Qed.
Lemma not_close c t : opens c = true -> expect (cs "]") (c :: t) = None.
Proof. intros H. apply expect_neq. intros <-. discriminate H. Qed.
Lemma not_open c t : leaf_opens c = true -> expect (list_ascii_of_string "[") (c :: t) = None.
Proof. intros H. apply expect_neq. intros <-. discriminate H. Qed.
Lemma not_bag_end c t : opens c = true -> expect bag_end (c :: t) = None.
Proof.
  intros H. destruct H_bag_end as (e & b & -> & He & _). apply expect_neq. congruence.
Qed.
Lemma expect_app p t : expect p (p ++ t) = Some t.
Proof. induction p as [|c p IH]; [reflexivity|]. cbn [expect app]. now rewrite Ascii.eqb_refl. Qed.
Lemma skip_indents d t : skip (indents d ++ t) = skip t.
Proof. induction d as [|d IH]; [reflexivity|exact IH]. Qed.
Lemma skip_twice t : skip (skip t) = skip t.
Proof. induction t as [|c t IH]; [reflexivity|]. cbn [skip]. destruct (white c) eqn:E; [exact IH|]. cbn [skip]. now rewrite E. Qed.

Lemma text_opens d v : ok v -> exists c t, text d v = c :: t /\ opens c = true.
Proof.
  intros H. inversion H as [v' Hv|l Hl|dd Hd]; subst.
  - destruct (H_leaf v Hv) as (N & c & t & E & O & _). exists c, t. split; [|now apply leaf_opens_opens].
    destruct v; try contradiction; cbn [Tok_Text.text]; now rewrite E.
  - exists "["%char. eexists. split; reflexivity.
  - destruct H_bag as (c & b & E & O & _). exists c. eexists. split; [cbn [Tok_Text.text]; rewrite E; reflexivity|exact O].
Qed.
Definition read_ok (n : nat) (d : nat) (v : value) : Prop :=
  forall t r, delim r -> skip t = text d v ++ r -> read n t = Some (norm v, r).
Lemma items_delim l r : Forall ok l -> forall d, delim (items_text T false (map (text d) l) ++ cs "]" ++ r).
Proof.
  intros [|v l' Hv Hl] d; [cbn; auto|]. cbn [map items_text]. destruct (text_opens d v Hv) as (c & t & E & O). rewrite E, <- !app_assoc.
  apply (H_item c _ O).
Qed.
Lemma items_read n d r : forall l, Forall ok l -> Forall (read_ok n d) l -> forall m first t, length l < m ->
  skip t = skip (items_text T first (map (text d) l) ++ cs "]" ++ r) -> items (read n) m first t = Some (map norm l, r).
Proof.
  induction l as [|v l IH]; intros Ho Hr [|m] first t L E; try (cbn in L; lia); cbn [Tok_Spec.items].
  - rewrite E. destruct first; reflexivity.
  - inversion Ho as [|? ? Ov Ol]; subst. inversion Hr as [|? ? Rv Rl]; subst. cbn [map items_text length] in *. rewrite E, <- !app_assoc.
    destruct (text_opens d v Ov) as (c & tv & Et & O).
    set (X := items_text T false (map (text d) l) ++ cs "]" ++ r).
    assert (D : delim X) by now apply items_delim.
    assert (Q : exists u', expect (list_ascii_of_string "]") (skip ((if first then [] else t_item T) ++ text d v ++ X)) = None /\
      separator first (skip ((if first then [] else t_item T) ++ text d v ++ X)) = Some u' /\ skip u' = text d v ++ X).
    { rewrite Et, <- app_comm_cons. destruct first; cbn [app].
      - rewrite (skip_opens c (tv ++ X) O). exists (c :: tv ++ X). split; [now apply not_close|]. split; [reflexivity|now apply skip_opens].
      - destruct (H_item c (tv ++ X) O) as (_ & N & u' & S & K). exists u'. auto. }
    destruct Q as (u' & -> & -> & K). rewrite (Rv u' X D K), (IH Ol Rl m false X); [reflexivity|lia|reflexivity].
Qed.
Lemma rows_delim l d r : Forall (fun kt : string * list ascii => key_ok (fst kt)) l -> delim (rows_text T (S d) false l ++ bag_end ++ r).
Proof.
  intros [|[k t] l' Hk _]; [cbn; auto|]. cbn [rows_text]. destruct (H_key k Hk) as (c & u & -> & O & _).
  repeat (rewrite <- app_assoc || rewrite <- app_comm_cons). apply (H_row (S d) c _ O).
Qed.
Lemma rows_read n d r : forall l, Forall (fun kv => key_ok (fst kv) /\ ok (snd kv)) l -> Forall (fun kv => read_ok n (S d) (snd kv)) l -> forall m first t, length l < m ->
  skip t = skip (rows_text T (S d) first (map (fun kv => (fst kv, text (S d) (snd kv))) l) ++ bag_end ++ r) ->
  rows (read n) m first t = Some (map (fun kv => (fst kv, norm (snd kv))) l, r).
Proof.
  induction l as [|[k v] l IH]; intros Ho Hr [|m] first t L E; try (cbn in L; lia); cbn [Tok_Spec.rows].
  - rewrite E. cbn [map rows_text]. assert (E' : skip ((if first then cs " " else LF :: indents (pred (S d))) ++ bag_end ++ r) = bag_end ++ r).
    { destruct H_bag_end as (c & b & -> & _ & W). assert (W' : skip (c :: b ++ r) = c :: b ++ r) by (cbn [skip]; now rewrite W).
      destruct first; [exact W'|]. rewrite <- app_comm_cons. change (skip (LF :: ?x)) with (skip x). now rewrite skip_indents. }
    rewrite E'. now rewrite expect_app.
  - inversion Ho as [|? ? [Ok Ov] Ol]; subst. inversion Hr as [|? ? Rv Rl]; subst. cbn [map rows_text length fst snd] in *. rewrite E, <- !app_assoc.
    destruct (text_opens (S d) v Ov) as (c & tv & Et & O). destruct (H_key k Ok) as (c' & tk & Ek & O' & K).
    set (X := rows_text T (S d) false (map (fun kv => (fst kv, text (S d) (snd kv))) l) ++ bag_end ++ r).
    assert (D : delim X). { apply rows_delim. clear - Ol. induction Ol as [|x l [H _] _ IH]; constructor; auto. }
    rewrite Ek. 
    assert (Q : exists u', expect bag_end (skip ((if first then [] else t_row T) ++ (LF :: indents (S d)) ++ (c' :: tk) ++ text (S d) v ++ X)) = None /\
      separator first (skip ((if first then [] else t_row T) ++ (LF :: indents (S d)) ++ (c' :: tk) ++ text (S d) v ++ X)) = Some u' /\ skip u' = (c' :: tk) ++ text (S d) v ++ X).
    { rewrite <- !app_comm_cons. destruct first; cbn [app].
      - change (skip (LF :: ?x)) with (skip x). rewrite skip_indents, (skip_opens c' _ O'). eexists. split; [now apply not_bag_end|]. split; [reflexivity|now apply skip_opens].
      - destruct (H_row (S d) c' (tk ++ text (S d) v ++ X) O') as (_ & N & u' & S & K'). exists u'. auto. }
    destruct Q as (u' & -> & -> & ->). rewrite K.
    assert (Sk : skip (" "%char :: text (S d) v ++ X) = text (S d) v ++ X).
    { change (skip (" "%char :: ?x)) with (skip x). rewrite Et, <- app_comm_cons. now apply skip_opens. }
    rewrite (Rv _ X D Sk), (IH Ol Rl m false X); [reflexivity|lia|reflexivity].
Qed.
Lemma items_length d : forall l first, Forall ok l -> length l <= length (items_text T first (map (text d) l)) /\
  Forall (fun v => length (text d v) <= length (items_text T first (map (text d) l))) l.
Proof.
  induction l as [|v l IH]; intros first H; cbn [map items_text length]; [split; [lia|constructor]|]. inversion H as [|? ? Hv Hl]; subst.
  destruct (IH false Hl) as [L F]. destruct (text_opens d v Hv) as (c & t & E & _). rewrite !app_length. split; [rewrite E; cbn [length]; lia|].
  constructor; [lia|]. eapply Forall_impl; [|exact F]. cbn. intros. lia.
Qed.
Lemma rows_length d : forall (l : list (string * value)) first, Forall (fun kv => key_ok (fst kv) /\ ok (snd kv)) l ->
  let n := length (rows_text T (S d) first (map (fun kv => (fst kv, text (S d) (snd kv))) l)) in
  length l <= n /\ Forall (fun kv => length (text (S d) (snd kv)) <= n) l.
Proof.
  induction l as [|[k v] l IH]; intros first H; cbn [map rows_text length fst snd]; [split; [lia|constructor]|]. inversion H as [|? ? [Hk Hv] Hl]; subst.
  destruct (IH false Hl) as [L F]. destruct (text_opens (S d) v Hv) as (c & t & E & _). rewrite !app_length. split; [rewrite E; cbn [length]; lia|].
  constructor; [cbn [snd]; lia|]. eapply Forall_impl; [|exact F]. cbn. intros. lia.
Qed.

Theorem reads : forall v, ok v -> forall n d, length (text d v) < n -> read_ok n d v.
Proof.
  induction v as [f|b|s|n'| |l IH|dd IH|n'|k] using value_ind'; intros Ov [|n] d L t r D E; try lia; cbn [Tok_Spec.read];
    try (inversion Ov as [? Lv| |]; subst; destruct (H_leaf _ Lv) as (_ & c & u & Ea & O & R); cbn [Tok_Text.text] in E; rewrite Ea in E; rewrite E, <- app_comm_cons;
         rewrite (not_open c _ O), (H_bag_none c _ O); exact (R r D)).
  - inversion Ov as [? Lv|? Hl|]; subst; [now destruct (H_leaf _ Lv)|].
    rewrite E. cbn [Tok_Text.text norm]. rewrite <- !app_assoc. change (expect (list_ascii_of_string "[") (cs "[ " ++ ?x)) with (Some (" "%char :: x)). 
    cbn [Tok_Text.text] in L. rewrite !app_length in L. change (length (cs "[ ")) with 2 in L.
    destruct (items_length d l true Hl) as [L1 L2].
    rewrite (items_read n d r l Hl); [reflexivity| |lia|reflexivity].
    rewrite Forall_forall in *. intros v Hv. apply (IH v Hv (Hl v Hv)). specialize (L2 v Hv). cbn in L2. lia.
  - inversion Ov as [? Lv| |? Hd]; subst; [now destruct (H_leaf _ Lv)|].
    rewrite E. cbn [Tok_Text.text]. rewrite <- !app_assoc. rewrite Cel_Proofs.pairs_map, (Cel_Proofs.sort_rows_map (text (S d))).
    assert (N : forall x, expect (list_ascii_of_string "[") (bag ++ x) = None).
    { intros x. destruct H_bag as (c & b & -> & _ & Hc). apply expect_neq. congruence. }
    rewrite N, expect_app. 
    cbn [Tok_Text.text] in L. rewrite !app_length in L. rewrite Cel_Proofs.pairs_map, (Cel_Proofs.sort_rows_map (text (S d))) in L.
    pose proof (Cel_Proofs.sort_rows_perm dd) as P. assert (Hd' := Permutation_Forall P Hd). assert (IH' := Permutation_Forall P IH).
    destruct (rows_length d (sort_rows dd) true Hd') as [L1 L2]. destruct H_bag as (c & b & Eb & _). rewrite Eb in L. cbn [length] in L.
    rewrite (rows_read n d r (sort_rows dd) Hd'); [now rewrite Cel_Read.norm_dict| |lia|reflexivity].
    rewrite Forall_forall in *. intros v Hv. apply (IH' v Hv (proj2 (Hd' v Hv))). specialize (L2 v Hv). cbn in L2. lia.
Qed.
End Generic.

(** *** the leaves of both notations *)
Lemma span_all f w r : Forall (fun c => f c = true) w -> match r with c :: _ => f c = false | [] => True end -> span f (w ++ r) = (w, r).
Proof.
  intros H Hr. induction H as [|c w Hc Hw IH]; cbn [span app].
  - destruct r as [|c r]; [reflexivity|]. cbn [span]. now rewrite Hr.
  - now rewrite Hc, IH.
Qed.
Lemma delim_not f r : f ","%char = false -> f " "%char = false -> f LF = false -> delim r -> match r with c :: _ => f c = false | [] => True end.
Proof.
  intros H1 H2 H3. destruct r as [|c r]; [auto|]. intros [H| ->]; [|exact H3]. unfold among in H. cbn [existsb list_ascii_of_string] in H.
  destruct (Ascii.eqb_spec c ",") as [->|]; [exact H1|]. destruct (Ascii.eqb_spec c " ") as [->|]; [exact H2|discriminate H].
Qed.
Lemma existsb_false f (l : list ascii) : (forall c, In c l -> f c = false) -> existsb f l = false.
Proof. induction l as [|c l IH]; intros H; [reflexivity|]. cbn [existsb]. rewrite (H c (or_introl eq_refl)), IH; [reflexivity|]. intros d Hd. apply H. now right. Qed.
Lemma chars_text s : string_of_list_ascii (cs s) = s.
Proof. apply string_of_list_ascii_of_string. Qed.
Lemma uint_digits u : Forall (fun c => Lex_Spec.digit c = true) (cs (NilEmpty.string_of_uint u)).
Proof. induction u; cbn [NilEmpty.string_of_uint cs list_ascii_of_string]; constructor; auto. Qed.
Lemma dec_chars z : Forall (fun c => (Lex_Spec.digit c || Ascii.eqb c "-")%bool = true) (dec z) /\ dec z <> [].
Proof.
  assert (U : forall u, Forall (fun c => Lex_Spec.digit c = true) (cs (NilZero.string_of_uint u)) /\ cs (NilZero.string_of_uint u) <> []).
  { intros []; (split; [first [exact (uint_digits _) | repeat constructor]|discriminate]). }
  assert (W : forall l, Forall (fun c => Lex_Spec.digit c = true) l -> Forall (fun c => (Lex_Spec.digit c || Ascii.eqb c "-")%bool = true) l).
  { intros l. apply Forall_impl. intros c ->. reflexivity. }
  unfold dec, NilZero.string_of_int. destruct (Z.to_int z).
  - destruct (U d). auto.
  - split; [|discriminate]. cbn [cs list_ascii_of_string]. constructor; [reflexivity|]. apply W, U.
Qed.
Lemma dec_reads z : NilZero.int_of_string (string_of_list_ascii (dec z)) = Some (Z.to_int z).
Proof.
  unfold dec. rewrite chars_text. apply NilZero.isi; intros Q; pose proof (of_to z) as O; rewrite Q in O; cbn in O; subst z; discriminate Q.
Qed.
Lemma num_read T show type_text number f : num_ok show number f ->
  exists c t, atom_text T show type_text false (VNum f) = Some (c :: t) /\ num_char c = true /\
    forall r, delim r -> read_number number ((c :: t) ++ r) = Some (VNum f, r).
Proof.
  intros (F & [(z & Hz & ->)|(Nz & A & Dot & Rd)]).
  - cbn [atom_text]. rewrite (XmlOut2_Props.num_text _ z Hz F). destruct (dec_chars z) as [D N]. pose proof (dec_reads z) as R.
    destruct (dec z) as [|c t]; [congruence|]. exists c, t. split; [reflexivity|].
    assert (A : Forall (fun c => num_char c = true) (c :: t)).
    { eapply Forall_impl; [|exact D]. cbn. intros a Ha. unfold num_char. now rewrite Ha. }
    split; [now inversion A|]. intros r Hr. unfold read_number. rewrite (span_all num_char (c :: t) r A).
    2: { apply delim_not; [reflexivity..|exact Hr]. }
    rewrite existsb_false, R, of_to; [reflexivity|]. intros a Ha. rewrite Forall_forall in D. specialize (D a Ha).
    destruct (Ascii.eqb_spec "." a) as [<-|]; [discriminate D|reflexivity].
  - destruct (XmlOut_Props.to_int64_fits f F) as (z & b & E). pose proof (XmlOut_Props.to_int64_spec f z b E) as Sp. destruct b; [now apply Nz in Sp|].
    cbn [atom_text]. rewrite E. destruct (show f) as [|c t] eqn:Es; [destruct Dot|]. exists c, t. split; [reflexivity|]. split; [now inversion A|].
    intros r Hr. unfold read_number. rewrite (span_all num_char (c :: t) r A). 2: { apply delim_not; [reflexivity..|exact Hr]. }
    rewrite (proj2 (existsb_exists (Ascii.eqb ".") (c :: t))); [now rewrite Rd|]. exists "."%char. split; [exact Dot|apply Ascii.eqb_refl].
Qed.
Lemma quoted_read inside close c x s r : close = c :: x -> inside c = false -> all_of inside s ->
  read_quoted inside close (cs s ++ close ++ r) = Some (s, r).
Proof.
  intros -> Hc A. unfold read_quoted. rewrite (span_all inside (cs s) ((c :: x) ++ r) A Hc), expect_app. fold (cs s). now rewrite chars_text.
Qed.
Lemma num_not c e : num_char c = true -> num_char e = false -> e <> c.
Proof. congruence. Qed.
Lemma num_leaf_opens c : num_char c = true -> leaf_opens c = true.
Proof. destruct c as [[] [] [] [] [] [] [] []]; vm_compute; congruence. Qed.
Lemma word_opens c : Lex_Spec.word_char c = true -> opens c = true.
Proof. destruct c as [[] [] [] [] [] [] [] []]; vm_compute; congruence. Qed.

Definition leaf_value (show : spec_float -> list ascii) (number : list ascii -> spec_float) (str_ok name_ok : string -> Prop) (v : value) : Prop :=
  match v with
  | VNum f => num_ok show number f | VBool _ | VEmpty => True | VStr s => str_ok s | VName n => name_ok n | _ => False
  end.
Lemma expressible_ok show number so no ko v : expressible show number so no ko v -> ok (leaf_value show number so no) ko v.
Proof.
  induction v as [f|b|s|n| |l IH|dd IH|n|k] using value_ind'; intros E; inversion E; subst; try (apply ok_leaf; try exact Logic.I; assumption).
  - apply ok_arr. rewrite Forall_forall in *. auto.
  - apply ok_dict. rewrite Forall_forall in *. intros x Hx. destruct (H1 x Hx). auto.
Qed.
Lemma expressible_good show number so no ko v : expressible show number so no ko v -> good v.
Proof.
  induction v as [f|b|s|n| |l IH|dd IH|n|k] using value_ind'; intros E; inversion E as [? [F _]| | | | | |]; subst; try (apply g_leaf; exact Logic.I).
  - apply g_leaf. destruct (XmlOut_Props.to_int64_fits f F) as (z & b & ->). discriminate.
  - apply g_arr. rewrite Forall_forall in *. auto.
  - apply g_dict. rewrite Forall_forall in *. intros x Hx. apply IH; [exact Hx|]. apply H0, Hx.
Qed.
Lemma skip_row d t : skip (LF :: indents d ++ t) = skip t.
Proof. change (skip (LF :: ?x)) with (skip x). apply skip_indents. Qed.

Section Instances.
Variable show : spec_float -> list ascii.
Variable type_text : value -> list ascii.
Variable number : list ascii -> spec_float.

Lemma js_leaf_reads v : leaf_value show number (all_of js_inside) (all_of js_inside) v -> match v with VArr _ | VDict _ => False | _ => True end /\
  exists c t, atom_text javascript show type_text false v = Some (c :: t) /\ leaf_opens c = true /\ forall r, delim r -> js_leaf number ((c :: t) ++ r) = Some (v, r).
Proof.
  intros H. destruct v as [f|b|s|n| |l|dd|n|k]; try contradiction; (split; [exact Logic.I|]).
  - destruct (num_read javascript show type_text number f H) as (c & t & E & N & R). exists c, t. split; [exact E|]. split; [now apply num_leaf_opens|].
    intros r Hr. unfold js_leaf. rewrite <- app_comm_cons. cbn [list_ascii_of_string]. rewrite !expect_neq by (apply (num_not c); [exact N|reflexivity]).
    exact (R r Hr).
  - destruct b; eexists _, _; (split; [reflexivity|]); split; reflexivity.
  - exists "'"%char, (cs s ++ cs "'"). split; [reflexivity|]. split; [reflexivity|]. intros r _. unfold js_leaf.
    rewrite <- app_comm_cons, <- app_assoc. change (expect (list_ascii_of_string "'") ("'"%char :: ?x)) with (Some x). 
    cbn iota. change (list_ascii_of_string "'") with (cs "'"). now rewrite (quoted_read js_inside (cs "'") "'" [] s r eq_refl eq_refl H).
  - exists "n"%char, (cs "ew name('" ++ cs n ++ cs "')"). split; [reflexivity|]. split; [reflexivity|]. intros r _. unfold js_leaf.
    rewrite <- app_comm_cons, <- !app_assoc. change (expect (list_ascii_of_string "'") ("n"%char :: ?x)) with (@None (list ascii)). cbn iota.
    change (expect (list_ascii_of_string "new name('") ("n"%char :: cs "ew name('" ++ ?x)) with (Some x).
    cbn iota. change (list_ascii_of_string "')") with (cs "')"). now rewrite (quoted_read js_inside (cs "')") "'" [")"%char] n r eq_refl eq_refl H).
  - eexists _, _; (split; [reflexivity|]); split; reflexivity.
Qed.
Lemma js_key_reads k : Cel_Spec.word k -> exists c t, around (t_key javascript) (cs k) = c :: t /\ opens c = true /\
  forall r, js_key ((c :: t) ++ r) = Some (k, " "%char :: r).
Proof.
  intros (c & w & E & S & A0). assert (A : Lex_Spec.all Lex_Spec.word_char (c :: w)).
  { constructor; [|exact A0]. clear - S. revert S. destruct c as [[] [] [] [] [] [] [] []]; vm_compute; congruence. }
  unfold around. cbn [javascript t_key fst snd app]. unfold cs at 1. rewrite E. exists c, (w ++ cs ": ").
  split; [reflexivity|]. split; [apply word_opens; now inversion A|]. intros r. change ((c :: w ++ cs ": ") ++ r) with (((c :: w) ++ cs ": ") ++ r). rewrite <- app_assoc.
  unfold js_key. pose proof (span_all Lex_Spec.word_char (c :: w) (cs ": " ++ r) A eq_refl) as Sp. rewrite <- app_comm_cons in Sp. rewrite Sp, S.
  change (expect (list_ascii_of_string ":") (skip (cs ": " ++ r))) with (Some (" "%char :: r)). rewrite <- E. fold (cs k). now rewrite chars_text.
Qed.
Lemma pdf_key_reads_at k r : all_of Lex_Spec.word_char k -> delim r -> pdf_key (("/"%char :: cs k) ++ r) = Some (k, r).
Proof.
  intros A Hr. unfold pdf_key. rewrite <- app_comm_cons. change (expect (list_ascii_of_string "/") ("/"%char :: ?x)) with (Some x).
  cbn iota. rewrite (span_all Lex_Spec.word_char (cs k) r A); [now rewrite chars_text|]. apply delim_not; [reflexivity..|exact Hr].
Qed.
Lemma pdf_leaf_reads v : leaf_value show number (all_of pdf_inside) (all_of Lex_Spec.word_char) v -> match v with VArr _ | VDict _ => False | _ => True end /\
  exists c t, atom_text pdf show type_text false v = Some (c :: t) /\ leaf_opens c = true /\ forall r, delim r -> pdf_leaf number ((c :: t) ++ r) = Some (v, r).
Proof.
  intros H. destruct v as [f|b|s|n| |l|dd|n|k]; try contradiction; (split; [exact Logic.I|]).
  - destruct (num_read pdf show type_text number f H) as (c & t & E & N & R). exists c, t. split; [exact E|]. split; [now apply num_leaf_opens|].
    intros r Hr. unfold pdf_leaf, pdf_key. rewrite <- app_comm_cons. cbn [list_ascii_of_string]. rewrite !expect_neq by (apply (num_not c); [exact N|reflexivity]).
    exact (R r Hr).
  - destruct b; eexists _, _; (split; [reflexivity|]); split; reflexivity.
  - exists "("%char, (cs s ++ cs ")"). split; [reflexivity|]. split; [reflexivity|]. intros r _. unfold pdf_leaf.
    rewrite <- app_comm_cons, <- app_assoc. change (expect (list_ascii_of_string "(") ("("%char :: ?x)) with (Some x). 
    cbn iota. change (list_ascii_of_string ")") with (cs ")"). now rewrite (quoted_read pdf_inside (cs ")") ")" [] s r eq_refl eq_refl H).
  - exists "/"%char, (cs n). split; [cbn [atom_text around pdf t_name fst snd]; unfold around; cbn [fst snd]; rewrite app_nil_r; reflexivity|]. split; [reflexivity|]. intros r Hr. unfold pdf_leaf.
    rewrite (pdf_key_reads_at n r H Hr). rewrite <- app_comm_cons. reflexivity.
  - eexists _, _; (split; [reflexivity|]); split; reflexivity.
Qed.
Lemma pdf_key_reads k : all_of Lex_Spec.word_char k -> exists c t, around (t_key pdf) (cs k) = c :: t /\ opens c = true /\
  forall r, pdf_key ((c :: t) ++ r) = Some (k, " "%char :: r).
Proof.
  intros A. exists "/"%char, (cs k ++ cs " "). split; [reflexivity|]. split; [reflexivity|]. intros r. change (("/"%char :: cs k ++ cs " ") ++ r) with ((("/"%char :: cs k) ++ cs " ") ++ r). rewrite <- app_assoc.
  apply pdf_key_reads_at; [exact A|left; reflexivity].
Qed.

Lemma js_reads v : js_value show number v -> forall n d, length (text show type_text javascript d v) < n -> forall t r, delim r ->
  skip t = text show type_text javascript d v ++ r -> read_javascript number n t = Some (norm v, r).
Proof.
  intros H. apply (reads show type_text javascript true (js_leaf number) js_key (leaf_value show number (all_of js_inside) (all_of js_inside)) Cel_Spec.word).
  - exists "{"%char, []. repeat split. discriminate.
  - exists "}"%char, []. repeat split.
  - intros c t Hc. apply expect_neq. intros <-. discriminate Hc.
  - apply js_leaf_reads.
  - apply js_key_reads.
  - intros c u O. split; [left; reflexivity|]. split; [reflexivity|]. exists (" "%char :: c :: u). split; [reflexivity|]. exact (skip_opens c u O).
  - intros d c u O. split; [left; reflexivity|]. split; [reflexivity|]. exists (LF :: indents d ++ c :: u). split; [reflexivity|]. rewrite skip_row. now apply skip_opens.
  - now apply expressible_ok.
Qed.
Lemma pdf_reads v : pdf_value show number v -> forall n d, length (text show type_text pdf d v) < n -> forall t r, delim r ->
  skip t = text show type_text pdf d v ++ r -> read_pdf number n t = Some (norm v, r).
Proof.
  intros H. apply (reads show type_text pdf false (pdf_leaf number) pdf_key (leaf_value show number (all_of pdf_inside) (all_of Lex_Spec.word_char)) (all_of Lex_Spec.word_char)).
  - exists "<"%char, (cs "<"). repeat split. discriminate.
  - exists ">"%char, (cs ">"). repeat split.
  - intros c t Hc. apply expect_neq. intros <-. discriminate Hc.
  - apply pdf_leaf_reads.
  - apply pdf_key_reads.
  - intros c u O. assert (K : skip (t_item pdf ++ c :: u) = c :: u) by (change (skip (t_item pdf ++ c :: u)) with (skip (c :: u)); now apply skip_opens).
    rewrite K. split; [left; reflexivity|]. split; [now apply not_close|]. exists (c :: u). split; [reflexivity|now apply skip_opens].
  - intros d c u O. assert (K : skip (t_row pdf ++ LF :: indents d ++ c :: u) = c :: u) by (cbn [t_row pdf app]; rewrite skip_row; now apply skip_opens).
    rewrite K. split; [right; reflexivity|]. split; [|exists (c :: u); split; [reflexivity|now apply skip_opens]].
    apply (expect_neq ">"). intros <-. discriminate O.
  - now apply expressible_ok.
Qed.
Lemma skip_text T : (exists c b, t_bag T = c :: b /\ opens c = true /\ c <> "["%char) -> forall (lo : value -> Prop) (ko : string -> Prop) v,
  (forall v, lo v -> match v with VArr _ | VDict _ => False | _ => True end /\ exists c t, atom_text T show type_text false v = Some (c :: t) /\ leaf_opens c = true /\ True) ->
  ok lo ko v -> forall d r, skip (text show type_text T d v ++ r) = text show type_text T d v ++ r.
Proof.
  intros HB lo ko v HL H d r. inversion H as [v' Hv|l Hl|dd Hd]; subst.
  - destruct (HL v Hv) as (N & c & t & E & O & _). destruct v; try contradiction; cbn [Tok_Text.text]; rewrite E; apply skip_opens; now apply leaf_opens_opens.
  - reflexivity.
  - destruct HB as (c & b & E & O & _). cbn [Tok_Text.text]. rewrite E, <- app_comm_cons. now apply skip_opens.
Qed.

(** C113: what is written for a value is read as that value: JavaScript *)
Theorem C113_javascript_reads_partial v : js_value show number v -> exists t, serialize_javascript show type_text v = Some t /\
  exists v', same v v' /\ forall n, length t < n -> read_javascript number n t = Some (v', []).
Proof.
  intros H. exists (text show type_text javascript 0 v). split.
  - unfold serialize_javascript. rewrite serialize_text by (eapply expressible_good; exact H). cbn [t_begin t_end javascript app]. now rewrite app_nil_r.
  - exists (norm v). split; [apply Cel_Read.same_norm|]. intros n Hn. apply (js_reads v H n 0 Hn); [exact Logic.I|].
    rewrite <- (app_nil_r (text show type_text javascript 0 v)) at 1.
    apply (skip_text javascript) with (leaf_value show number (all_of js_inside) (all_of js_inside)) Cel_Spec.word.
    + exists "{"%char, []. repeat split. discriminate.
    + intros w Hw. destruct (js_leaf_reads w Hw) as (N & c & t & E & O & _). split; [exact N|]. exists c, t. auto.
    + now apply expressible_ok.
Qed.
(** and PDF, between two comments *)
Theorem C113_pdf_reads_partial v : pdf_value show number v -> exists t,
  serialize_pdf show type_text v = Some (cs "% start pdf" ++ XmlOut_Spec.newline ++ t ++ XmlOut_Spec.newline ++ cs "% end pdf") /\
  exists v', same v v' /\ forall n, length t < n -> read_pdf number n (t ++ XmlOut_Spec.newline ++ cs "% end pdf") = Some (v', XmlOut_Spec.newline ++ cs "% end pdf").
Proof.
  intros H. exists (text show type_text pdf 0 v). split.
  - unfold serialize_pdf. rewrite serialize_text by (eapply expressible_good; exact H). cbn [t_begin t_end pdf]. now rewrite <- app_assoc.
  - exists (norm v). split; [apply Cel_Read.same_norm|]. intros n Hn. apply (pdf_reads v H n 0 Hn); [right; reflexivity|].
    apply (skip_text pdf) with (leaf_value show number (all_of pdf_inside) (all_of Lex_Spec.word_char)) (all_of Lex_Spec.word_char).
    + exists "<"%char, (cs "<"). repeat split. discriminate.
    + intros w Hw. destruct (pdf_leaf_reads w Hw) as (N & c & t & E & O & _). split; [exact N|]. exists c, t. auto.
    + now apply expressible_ok.
Qed.
End Instances.

(** *** the layout *)
Lemma items_joined T : forall ts, ts <> [] -> items_text T true ts = joined (t_item T) ts ++ cs " ".
Proof.
  assert (G : forall ts t, t ++ items_text T false ts = joined (t_item T) (t :: ts) ++ cs " ").
  { induction ts as [|u ts IH]; intros t; [reflexivity|]. cbn [items_text]. rewrite IH.
    change (joined (t_item T) (t :: u :: ts)) with (t ++ t_item T ++ joined (t_item T) (u :: ts)). now rewrite <- !app_assoc. }
  intros [|t ts] H; [congruence|]. cbn [items_text app]. apply G.
Qed.
Lemma rows_joined T d : forall rows, rows <> [] -> rows_text T (S d) true rows =
  joined (t_row T) (map (fun kt => LF :: indents (S d) ++ around (t_key T) (cs (fst kt)) ++ snd kt) rows) ++ LF :: indents d.
Proof.
  set (line := fun kt : string * list ascii => LF :: indents (S d) ++ around (t_key T) (cs (fst kt)) ++ snd kt).
  assert (G : forall rows t, t ++ rows_text T (S d) false rows = joined (t_row T) (t :: map line rows) ++ LF :: indents d).
  { induction rows as [|[k u] rows IH]; intros t; [reflexivity|]. cbn [rows_text map]. 
    change (joined (t_row T) (t :: line (k, u) :: map line rows)) with (t ++ t_row T ++ joined (t_row T) (line (k, u) :: map line rows)).
    rewrite <- !app_assoc, <- IH. unfold line at 1. cbn [fst snd]. rewrite <- !app_comm_cons, <- !app_assoc. reflexivity. }
  intros [|[k t] rows] H; [congruence|]. cbn [rows_text map app]. rewrite <- G. unfold line. cbn [fst snd]. rewrite <- !app_comm_cons, <- !app_assoc. reflexivity.
Qed.
Section LayoutProps.
Variable show : spec_float -> list ascii.
Variable type_text : value -> list ascii.
Variable T : tokens.
Variable leaf : value -> list ascii -> Prop.
Notation Laid := (Laid (t_bag T) (t_bag_end T) (t_item T) (t_row T) (fun k => around (t_key T) (cs k)) leaf).
Notation text := (text show type_text T).
Hypothesis HL : forall v t, plain v -> match v with VArr _ | VDict _ => False | _ => True end -> atom_text T show type_text false v = Some t -> leaf v t.
Lemma plain_good v : plain v -> good v.
Proof.
  induction v as [f|b|s|n| |l IH|dd IH|n|k] using value_ind'; intros C; try (apply g_leaf; exact Logic.I); inversion C as [? F|? Q|? Cl|? N Cd]; subst; try contradiction.
  - apply g_leaf. destruct (XmlOut_Props.to_int64_fits f F) as (z & b & ->). discriminate.
  - apply g_arr. rewrite Forall_forall in *. auto.
  - apply g_dict. rewrite Forall_forall in *. intros x Hx. apply IH; [exact Hx|]. apply (Cd x Hx).
Qed.
Lemma text_laid v : plain v -> forall d, Laid d v (text d v).
Proof.
  induction v as [f|b|s|n| |l IH|dd IH|n|k] using value_ind'; intros C d;
    try (destruct (good_text show type_text T _ (plain_good _ C)) as (t & Ht); cbn [Tok_Text.text]; rewrite Ht; apply L_leaf; exact (HL _ t C Logic.I Ht)).
  - inversion C as [|? Q|? Cl|]; subst; [contradiction|]. cbn [Tok_Text.text].
    destruct l as [|v l]; [apply L_no_items|]. rewrite (items_joined T (map (text d) (v :: l))) by discriminate. rewrite <- app_assoc.
    apply L_items; [discriminate|]. clear C. revert IH Cl. generalize (v :: l). clear. induction l as [|v l IHl]; intros IH Cl; cbn [map]; [constructor|].
    inversion IH; subst. inversion Cl; subst. constructor; auto.
  - inversion C as [|? Q| |? N Cd]; subst; [contradiction|]. cbn [Tok_Text.text].
    rewrite Cel_Proofs.pairs_map, (Cel_Proofs.sort_rows_map (text (S d))).
    destruct dd as [|kv dd]; [apply L_no_rows|]. revert IH N Cd. clear C. generalize (kv :: dd) (@nil_cons _ kv dd). clear kv dd. intros dd Hn IH N Cd.
    pose proof (Cel_Proofs.sort_rows_perm dd) as P.
    rewrite (rows_joined T d).
    2: { intros E. apply (f_equal (@length _)) in E. rewrite map_length, <- (Permutation_length P) in E. destruct dd; [congruence|discriminate]. }
    rewrite <- app_assoc.
    assert (E : map (fun kw => (fst kw, text (S d) (snd kw))) (sort_rows dd) =
      combine (map fst (sort_rows dd)) (map (fun kw => text (S d) (snd kw)) (sort_rows dd))).
    { generalize (sort_rows dd). clear. induction l as [|[k v] l IH]; [reflexivity|]. cbn [map combine fst snd]. now rewrite IH. }
    rewrite E. refine (L_rows (t_bag T) (t_bag_end T) (t_item T) (t_row T) (fun k => around (t_key T) (cs k)) leaf d dd (sort_rows dd)
      (map (fun kw => text (S d) (snd kw)) (sort_rows dd)) _ P _ _).
    + congruence.
    + now apply XmlOut_Props.sort_sorted.
    + assert (IH' := Permutation_Forall P IH). assert (Cd' := Permutation_Forall P Cd).
      clear - IH' Cd'. induction (sort_rows dd) as [|x l IHl]; cbn [map]; [constructor|]. inversion IH'; subst. inversion Cd'; subst. constructor; auto.
Qed.
(** and it does not depend on the order in which dictionaries were filled *)
Lemma same_text v : forall w d, plain v -> same v w -> text d v = text d w.
Proof.
  induction v as [f|b|s|n| |l IH|dd IH|n|k] using value_ind'; intros w d Hp H; inversion H as [l1 l2 HF|d0 d1 d' HP HF|]; subst; try reflexivity; try contradiction.
  - inversion Hp as [|? Q|? Hl|]; subst; [contradiction|]. cbn [Tok_Text.text]. f_equal. f_equal. f_equal. clear H Hp.
    induction HF; inversion IH; subst; inversion Hl; subst; cbn [map]; f_equal; auto.
  - inversion Hp as [|? Q| |? N Hd]; subst; [contradiction|]. cbn [Tok_Text.text]. f_equal. f_equal. f_equal. rewrite !Cel_Proofs.pairs_map.
    rewrite (Cel_Props.sort_perm _ (map (fun kw => (fst kw, text (S d) (snd kw))) d1)).
    + f_equal. assert (IH' := Permutation_Forall HP IH). assert (Hd' := Permutation_Forall HP Hd). clear - HF IH' Hd'.
      induction HF as [|x y d1 d' [E1 S1] HF IHF]; inversion IH'; subst; inversion Hd'; subst; cbn [map]; f_equal; auto. rewrite E1. f_equal. auto.
    + now apply Permutation_map.
    + rewrite map_map. exact N.
Qed.
Lemma plain_same v : forall w, plain v -> same v w -> good w.
Proof.
  induction v as [f|b|s|n| |l IH|dd IH|n|k] using value_ind'; intros w Hp H; inversion H as [l1 l2 HF|d0 d1 d' HP HF|]; subst; try contradiction; try (now apply plain_good).
  - apply g_arr. inversion Hp as [|? Q|? Hl|]; subst; [contradiction|]. clear Hp H. induction HF; inversion IH; subst; inversion Hl; subst; constructor; auto.
  - apply g_dict. inversion Hp as [|? Q| |? N Hd]; subst; [contradiction|]. assert (IH' := Permutation_Forall HP IH). assert (Hd' := Permutation_Forall HP Hd). clear - HF IH' Hd'.
    induction HF as [|x y d1 d' [E1 S1] HF IHF]; inversion IH'; subst; inversion Hd'; subst; constructor; auto.
Qed.
End LayoutProps.

Lemma number_leaf T show type_text f t : XmlOut_Spec.fits64 f -> atom_text T show type_text false (VNum f) = Some t -> number_text show (VNum f) t.
Proof.
  intros F. destruct (XmlOut_Props.to_int64_fits f F) as (z & b & E). pose proof (XmlOut_Props.to_int64_spec f z b E) as Sp.
  cbn [atom_text]. rewrite E. destruct b; intros [= <-]; [now apply nt_int|now apply nt_double].
Qed.
(** C114: every value of distinct keys and numbers that convert is written as specified, whatever its strings and names. *)
Theorem C114_layout show type_text v : plain v ->
  (exists t, serialize_javascript show type_text v = Some t /\ js_laid show 0 v t) /\
  (exists t, serialize_pdf show type_text v = Some (cs "% start pdf" ++ XmlOut_Spec.newline ++ t ++ XmlOut_Spec.newline ++ cs "% end pdf") /\ pdf_laid show 0 v t).
Proof.
  intros H. pose proof (plain_good v H) as G. split.
  - exists (text show type_text javascript 0 v). split.
    + unfold serialize_javascript. rewrite serialize_text by exact G. cbn [t_begin t_end javascript app]. now rewrite app_nil_r.
    + apply (text_laid show type_text javascript (js_text show)); [|exact H]. intros w t P N E. destruct w as [f|[]|s|n| |l|dd|n|k]; try contradiction.
      * inversion P as [? F|? Q| |]; subst; [|contradiction]. apply jt_number. exact (number_leaf javascript _ _ _ _ F E).
      * injection E as <-. exact (jt_true show).
      * injection E as <-. exact (jt_false show).
      * injection E as <-. exact (jt_string show s).
      * injection E as <-. exact (jt_name show n).
      * injection E as <-. exact (jt_empty show).
      * inversion P; contradiction.
      * inversion P; contradiction.
  - exists (text show type_text pdf 0 v). split.
    + unfold serialize_pdf. rewrite serialize_text by exact G. cbn [t_begin t_end pdf]. now rewrite <- app_assoc.
    + apply (text_laid show type_text pdf (pdf_text show)); [|exact H]. intros w t P N E. destruct w as [f|[]|s|n| |l|dd|n|k]; try contradiction.
      * inversion P as [? F|? Q| |]; subst; [|contradiction]. apply pt_number. exact (number_leaf pdf _ _ _ _ F E).
      * injection E as <-. exact (pt_true show).
      * injection E as <-. exact (pt_false show).
      * injection E as <-. exact (pt_string show s).
      * injection E as <-. unfold around. cbn [pdf t_name fst snd]. rewrite app_nil_r. exact (pt_name show n).
      * injection E as <-. exact (pt_empty show).
      * inversion P; contradiction.
      * inversion P; contradiction.
Qed.
Theorem C114_canonical show type_text v w : plain v -> same v w ->
  serialize_javascript show type_text v = serialize_javascript show type_text w /\ serialize_pdf show type_text v = serialize_pdf show type_text w.
Proof.
  intros H S. pose proof (plain_good v H) as G. pose proof (plain_same v w H S) as G'. unfold serialize_javascript, serialize_pdf.
  rewrite !serialize_text by assumption. now rewrite !(same_text _ _ _ v w 0 H S).
Qed.
(** Of two values the notation can express, equal texts mean equal values *)
Theorem C113_javascript_identifies_partial show type_text number v w : js_value show number v -> js_value show number w ->
  serialize_javascript show type_text v = serialize_javascript show type_text w -> same v w.
Proof.
  intros H H' E. destruct (C113_javascript_reads_partial show type_text number v H) as (t & Et & v' & S & R), (C113_javascript_reads_partial show type_text number w H') as (t' & Et' & w' & S' & R').
  rewrite Et, Et' in E. injection E as <-. assert (Q : Some (v', @nil ascii) = Some (w', [])) by (rewrite <- (R (Datatypes.S (length t))), <- (R' (Datatypes.S (length t))); [reflexivity|lia..]).
  injection Q as <-. eapply Cel_Props.same_trans; [exact S|]. now apply Cel_Props.same_sym.
Qed.
Theorem C113_pdf_identifies_partial show type_text number v w : pdf_value show number v -> pdf_value show number w ->
  serialize_pdf show type_text v = serialize_pdf show type_text w -> same v w.
Proof.
  intros H H' E. destruct (C113_pdf_reads_partial show type_text number v H) as (t & Et & v' & S & R), (C113_pdf_reads_partial show type_text number w H') as (t' & Et' & w' & S' & R').
  rewrite Et, Et' in E. injection E as E. apply app_inv_tail in E. subst t'.
  specialize (R (Datatypes.S (length t)) (Nat.lt_succ_diag_r _)). specialize (R' (Datatypes.S (length t)) (Nat.lt_succ_diag_r _)). rewrite R in R'. injection R' as <-.
  eapply Cel_Props.same_trans; [exact S|]. now apply Cel_Props.same_sym.
Qed.
(** Strings are not escaped: different values have one text *)
Theorem C113_javascript_refuted show type_text : let v := VArr [VStr "a', 'b"] in let w := VArr [VStr "a"; VStr "b"] in
  serialize_javascript show type_text v = serialize_javascript show type_text w /\ ~ same v w.
Proof.
  cbn zeta. split; [reflexivity|]. intros H. inversion H as [? ? F| |]; subst.
  inversion F as [|? ? ? ? _ F']; subst. inversion F'.
Qed.
Theorem C113_pdf_refuted show type_text : let v := VArr [VStr "a) (b"] in let w := VArr [VStr "a"; VStr "b"] in
  serialize_pdf show type_text v = serialize_pdf show type_text w /\ ~ same v w.
Proof.
  cbn zeta. split; [reflexivity|]. intros H. inversion H as [? ? F| |]; subst.
  inversion F as [|? ? ? ? _ F']; subst. inversion F'.
Qed.
(** and a number that does not convert is converted *)
Theorem C113_numbers_refuted show type_text f : ~ XmlOut_Spec.fits64 f -> serialize_javascript show type_text (VNum f) = None /\ serialize_pdf show type_text (VNum f) = None.
Proof.
  intros H. assert (N : to_int64 f = None).
  { unfold to_int64. destruct (f_trunc f) as [z|] eqn:E; [|reflexivity]. destruct (_ && _)%bool eqn:B; [|reflexivity].
    exfalso. apply H. exists z. split; [exact E|]. apply andb_true_iff in B. rewrite Z.leb_le, Z.ltb_lt in B. lia. }
  unfold serialize_javascript, serialize_pdf, serialize_tok. cbn [put]. unfold put_leaf. cbn [atom_text]. now rewrite N.
Qed.
Example C113_numbers_ex : ~ XmlOut_Spec.fits64 (S754_infinity false) /\ ~ XmlOut_Spec.fits64 S754_nan /\ ~ XmlOut_Spec.fits64 (f_of_Z (2 ^ 63)).
Proof. exact XmlOut2_Props.C111_numbers_ex. Qed.

(** A value with all of it *)
Definition sample : value :=
  VDict [("widths", VArr [VNum (f_of_Z 3); VNum (f_of_Z (-20)); VArr []]); ("align", VName "left"); ("on", VBool true);
         ("title", VStr "a b"); ("none", VEmpty); ("sub", VDict [("x", VBool false)]); ("bag", VDict [])]%string.
Lemma sample_ok show number (str_ok name_ok key_ok : string -> Prop) :
  str_ok "a b"%string -> name_ok "left"%string -> Forall key_ok ["widths"; "align"; "on"; "title"; "none"; "sub"; "x"; "bag"]%string ->
  expressible show number str_ok name_ok key_ok sample.
Proof.
  intros S N K. rewrite Forall_forall in K.
  assert (Num : forall z, z = 3%Z \/ z = (-20)%Z -> num_ok show number (f_of_Z z)).
  { intros z [-> | ->].
    - split.
      + exists 3%Z. split; [vm_compute; reflexivity|lia].
      + left. exists 3%Z. split; [right; split; vm_compute; reflexivity|reflexivity].
    - split.
      + exists (-20)%Z. split; [vm_compute; reflexivity|lia].
      + left. exists (-20)%Z. split; [right; split; vm_compute; reflexivity|reflexivity]. }
  unfold sample. apply e_dict.
  - cbn [map fst]. repeat (constructor; [cbn [In]; intuition congruence|]). constructor.
  - repeat apply Forall_cons; cbn [fst snd]; try apply Forall_nil; (split; [apply K; cbn [In]; tauto|]).
    + apply e_arr. repeat apply Forall_cons; try apply Forall_nil; [apply e_num, Num; auto..|]. apply e_arr, Forall_nil.
    + now apply e_name.
    + apply e_bool.
    + now apply e_str.
    + apply e_empty.
    + apply e_dict; cbn [map fst]; [repeat constructor; intros []|]. apply Forall_cons; [|apply Forall_nil]. split; [apply K; cbn [In]; tauto|apply e_bool].
    + apply e_dict; constructor.
Qed.
Example C113_javascript_ex show number : js_value show number sample.
Proof.
  apply sample_ok; [repeat constructor..|]. repeat apply Forall_cons; try apply Forall_nil; (eexists _, _; split; [reflexivity|split; [reflexivity|]]; repeat constructor).
Qed.
Example C113_pdf_ex show number : pdf_value show number sample.
Proof. apply sample_ok; [repeat constructor..|]. repeat apply Forall_cons; try apply Forall_nil; repeat constructor. Qed.
Example C114_javascript_ex show type_text : exists t, serialize_javascript show type_text sample = Some t /\
  string_of_list_ascii (flat_map (fun c => if Ascii.eqb c LF then ["\"; "n"]%char else if Ascii.eqb c "009" then ["\"; "t"]%char else [c]) t) =
  "{\n\talign: new name('left'),\n\tbag: { },\n\tnone: nil,\n\ton: true,\n\tsub: {\n\t\tx: false\n\t},\n\ttitle: 'a b',\n\twidths: [ 3, -20, [ ] ]\n}"%string.
Proof. eexists. split; vm_compute; reflexivity. Qed.
Example C114_pdf_ex show type_text : exists t, serialize_pdf show type_text sample = Some t /\
  string_of_list_ascii (flat_map (fun c => if Ascii.eqb c LF then ["\"; "n"]%char else if Ascii.eqb c "009" then ["\"; "t"]%char else [c]) t) =
  "% start pdf\n<<\n\t/align /left\n\t/bag << >>\n\t/none null\n\t/on true\n\t/sub <<\n\t\t/x false\n\t>>\n\t/title (a b)\n\t/widths [ 3 -20 [ ] ]\n>>\n% end pdf"%string.
Proof. eexists. split; vm_compute; reflexivity. Qed.
