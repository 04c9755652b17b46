(** Proofs about xstring's look-up and its glossary: texts that are answered are parsed again. *)
From Coq Require Import String Ascii.
From Verif Require Import Prelude Entity_Model Unicode_Model Xml_Model Xml_Spec Xml_Attr Xml_Sound Xml_Complete Xml_Doc Xstr_Model Xstr_Spec Xstr_Proofs.
From Coq Require Import List ZArith Lia.
Import ListNotations.
Local Open Scope nat_scope.
Ltac Zify.zify_post_hook ::= idtac.

Definition neat_all (is : list item) : Prop := Forall neat is.
Lemma neat_elem w0 nm ats w1 kids w2 w3 : neat (Elem w0 nm ats w1 kids w2 w3) <-> match kids with Comment _ :: _ => False | _ => True end /\ neat_all kids.
Proof.
  cbn [neat]. assert (E : forall is, ((fix all (is : list item) : Prop := match is with [] => True | i :: is' => neat i /\ all is' end) is) <-> neat_all is).
  { induction is as [|i is IH]; [split; [constructor|auto]|]. rewrite IH. unfold neat_all. rewrite Forall_cons_iff. tauto. }
  rewrite E. tauto.
Qed.
(** *** well-formedness with less after it *)
Definition shrinks (i : item) : Prop := forall n y, n ++ y <> [] -> item_ok i (n ++ y) -> item_ok i n.
Lemma shrink : forall i, shrinks i.
Proof.
  apply (item_rect' shrinks (fun is => forall n y, n ++ y <> [] -> items_ok is (n ++ y) -> items_ok is n)); unfold shrinks.
  - intros s n y N (A & B & C & D). split; [exact A|]. split; [exact B|]. split; [|exact D]. destruct n; [intros []|exact C].
  - auto.
  - intros b n y N [A B]. contradiction.
  - auto.
  - auto.
  - intros w0 nm ats w1 kids w2 w3 IH n y N O. apply item_ok_elem in O as (A & B & C & O). apply item_ok_elem. repeat (split; [assumption|]). apply (IH _ y); [|now rewrite <- app_assoc]. unfold close_bytes. discriminate.
  - constructor.
  - intros i is H1 H2 n y N [A B]. split; [|eapply H2; eauto]. apply (H1 _ y); rewrite <- app_assoc; [|exact A]. intros E. apply app_eq_nil in E as [_ E]. exact (N E).
Qed.
Lemma shrink_items is : forall n y, n ++ y <> [] -> items_ok is (n ++ y) -> items_ok is n.
Proof.
  induction is as [|i is IH]; intros n y N O; [constructor|]. destruct O as [A B]. split; [|eapply IH; eauto]. apply (shrink i _ y); rewrite <- app_assoc; [|exact A]. intros E. apply app_eq_nil in E as [_ E]. exact (N E).
Qed.
Lemma items_app a : forall b n, items_ok (a ++ b) n -> items_ok a (raws b ++ n).
Proof. induction a as [|i a IH]; intros b n O; [constructor|]. destruct O as [A B]. split; [|auto]. rewrite raws_app, <- app_assoc in A. exact A. Qed.
Lemma items_before a b n : n <> [] -> items_ok (a ++ b) n -> items_ok a [].
Proof. intros N O. apply items_app in O. apply (shrink_items a [] (raws b ++ n)); [|exact O]. intros E. cbn [app] in E. apply app_eq_nil in E as [_ E]. exact (N E). Qed.
Lemma last_comments is : exists b, is = without_last_comments is ++ b /\ Forall (fun i => is_comment_item i = true) b.
Proof.
  unfold without_last_comments. assert (G : forall l : list item, exists b, l = b ++ drop_while is_comment_item l /\ Forall (fun i => is_comment_item i = true) b).
  { induction l as [|x l IH]; [exists []; split; [reflexivity|constructor]|]. cbn [drop_while]. destruct (is_comment_item x) eqn:E; [|exists []; split; [reflexivity|constructor]].
    destruct IH as (b & E' & F). exists (x :: b). split; [cbn; congruence|constructor; auto]. }
  destruct (G (rev is)) as (b & E & F). exists (rev b). split; [|apply Forall_rev; exact F]. rewrite <- rev_app_distr, <- E, rev_involutive. reflexivity.
Qed.
(** the value of an element is content, with the same items *)
Lemma value_content w0 nm ats w1 kids w2 w3 next : item_ok (Elem w0 nm ats w1 kids w2 w3) next -> neat (Elem w0 nm ats w1 kids w2 w3) ->
  value_of kids = Some (raws (without_last_comments kids)) /\ items_ok (without_last_comments kids) [].
Proof.
  intros O N. apply item_ok_elem in O as (_ & _ & _ & O). apply neat_elem in N as [N _]. split.
  - unfold value_of, inner_value. destruct kids as [|i kids]; [reflexivity|]. destruct i; try contradiction; reflexivity.
  - destruct (last_comments kids) as (b & E & _). rewrite E in O. eapply items_before; [|exact O]. unfold close_bytes. discriminate.
Qed.
Lemma comments_flat {A} (f : item -> list A) b : Forall (fun i => is_comment_item i = true) b -> (forall x, f (Comment x) = []) -> flat_map f b = [].
Proof. intros F H. induction F as [|i b E F IH]; [reflexivity|]. destruct i; try discriminate. cbn [flat_map]. now rewrite H. Qed.
Lemma without_comments_flat {A} (f : item -> list A) kids : (forall x, f (Comment x) = []) -> flat_map f (without_last_comments kids) = flat_map f kids.
Proof. intros H. destruct (last_comments kids) as (b & E & F). rewrite E at 2. rewrite flat_map_app, (comments_flat f b F H). now rewrite app_nil_r. Qed.

(** a principle for rendering what is parsed again: [P] of the items of a prefix *)
Section Again.
Variable ni : list entry.
Variable pred : list call -> bytes -> bool.
Variable cb : list call -> call -> answer.
Variable R : item -> bytes -> list call -> Prop.
Definition does (i : item) : Prop := tag_of i <> None -> forall next, item_ok i next -> neat i -> forall h, exists o d, RenderE ni pred cb h i o (h ++ d) /\ R i o d.
Definition does_all (is : list item) : Prop := forall h next, items_ok is next -> neat_all is -> exists o d, Render ni pred cb h is o (h ++ d) /\
  exists l, o = flat_map fst l /\ d = flat_map snd l /\ Forall2 (fun i (x : bytes * list call) => match i with
    | Chars s => x = (s, []) | Ref b => x = (reference_text ni b, []) | OpenRef b => x = (open_reference_text ni b, []) | Comment _ => x = ([], []) | _ => R i (fst x) (snd x) end) is l.
Lemma does_nil : does_all [].
Proof. intros h next _ _. exists [], []. rewrite app_nil_r. split; [constructor|]. exists []. repeat split. constructor. Qed.
Lemma does_cons i is : does i -> does_all is -> does_all (i :: is).
Proof.
  intros H1 H2 h next [O1 O2] N. apply Forall_cons_iff in N as [N1 N2].
  assert (T : tag_of i = None -> exists o d, Render ni pred cb h (i :: is) o (h ++ d) /\ exists l, o = flat_map fst l /\ d = flat_map snd l /\ Forall2 (fun i (x : bytes * list call) => match i with
    | Chars s => x = (s, []) | Ref b => x = (reference_text ni b, []) | OpenRef b => x = (open_reference_text ni b, []) | Comment _ => x = ([], []) | _ => R i (fst x) (snd x) end) (i :: is) l).
  { intros T. destruct (H2 h next O2 N2) as (o & d & Re & l & -> & -> & F). destruct i; try discriminate.
    - exists (s ++ flat_map fst l), (flat_map snd l). split; [now constructor|]. exists ((s, []) :: l). repeat split. constructor; auto.
    - exists (reference_text ni b ++ flat_map fst l), (flat_map snd l). split; [now constructor|]. exists ((reference_text ni b, []) :: l). repeat split. constructor; auto.
    - exists (open_reference_text ni b ++ flat_map fst l), (flat_map snd l). split; [now constructor|]. exists ((open_reference_text ni b, []) :: l). repeat split. constructor; auto.
    - exists (flat_map fst l), (flat_map snd l). split; [now constructor|]. exists (([], []) :: l). repeat split. constructor; auto. }
  destruct (tag_of i) eqn:E; [|auto]. destruct (H1 ltac:(congruence) _ O1 N1 h) as (o1 & d1 & Re1 & X). destruct (H2 (h ++ d1) next O2 N2) as (o2 & d2 & Re2 & l & -> & -> & F).
  exists (o1 ++ flat_map fst l), (d1 ++ flat_map snd l). split; [rewrite app_assoc; econstructor; eauto|]. exists ((o1, d1) :: l). repeat split. constructor; [|exact F]. destruct i; try discriminate E; exact X.
Qed.
(** prefixes come for free *)
Definition does_pre (is : list item) : Prop := forall a b, is = a ++ b -> does_all a.
Lemma does_pre_nil : does_pre [].
Proof. intros a b E. symmetry in E. apply app_eq_nil in E as [-> _]. apply does_nil. Qed.
Lemma does_pre_cons i is : does i -> does_pre is -> does_pre (i :: is).
Proof. intros H1 H2 [|x a] b E; [apply does_nil|]. cbn [app] in E. injection E as -> ->. apply does_cons; [exact H1|]. apply (H2 a b eq_refl). Qed.
Lemma does_rule :
  (forall w0 nm ats w1, does (Empty w0 nm ats w1)) ->
  (forall w0 nm ats w1 kids w2 w3, does_all kids -> does_all (without_last_comments kids) -> does (Elem w0 nm ats w1 kids w2 w3)) ->
  forall i, does i.
Proof.
  intros H1 H2. apply (item_rect' does does_pre); try (intros; intros X; destruct (X eq_refl); fail).
  - exact H1.
  - intros w0 nm ats w1 kids w2 w3 Q. apply H2; [apply (Q kids []); now rewrite app_nil_r|]. destruct (last_comments kids) as (b & E & _). exact (Q _ b E).
  - apply does_pre_nil.
  - apply does_pre_cons.
Qed.
End Again.

(** *** looking up strings *)
Section Strip.
Variable ni : list entry.
Variable g : list entry_t.
Variable merged : attrs -> attrs.
Local Notation cb := (element_answer g merged).
Local Notation all := (fun (_ : list call) (_ : bytes) => true).
Local Notation R := (fun (i : item) (o : bytes) (_ : list call) => o = stripped ni i).
Lemma answers h nm l v w : cb h (Call w nm l (Some v)) = if range_equal nm MARKER then Echo else Text v.
Proof.
  unfold element_answer, lookup_answer, closest_match. cbn [c_name c_value]. unfold handled. destruct (eqP nm XSTR) as [-> | N].
  - rewrite xstr_not_marker. reflexivity.
  - cbn [orb]. destruct (range_equal nm MARKER); reflexivity.
Qed.
Lemma text_of_all is o l : Forall2 (fun i (x : bytes * list call) => match i with
    | Chars s => x = (s, []) | Ref b => x = (reference_text ni b, []) | OpenRef b => x = (open_reference_text ni b, []) | Comment _ => x = ([], []) | _ => R i (fst x) (snd x) end) is l ->
  o = flat_map fst l -> o = flat_map (stripped ni) is.
Proof.
  intros F ->. induction F as [|i [a b] is l E F IH]; [reflexivity|]. cbn [flat_map fst snd]. rewrite IH. f_equal. destruct i; cbn [fst snd] in E; try (injection E as -> ->); try exact E; reflexivity.
Qed.
Lemma strips_item : forall i, does ni all cb R i.
Proof.
  apply does_rule.
  - intros w0 nm ats w1 _ next O N h. destruct (denotes_any (written ats)) as [l D].
    pose (k := Call (raw (Empty w0 nm ats w1)) nm l (Some [])). cbn [stripped].
    destruct (list_eq_dec N.eq_dec nm (word "marker")) as [E | E].
    + eexists _, [k]. split; [|reflexivity]. eapply R_echo; [reflexivity|reflexivity|exact D|fold k; reflexivity|]; unfold k. change (value_of []) with (Some (@nil BinNums.N)). rewrite answers.
      change (word "marker") with MARKER in E. destruct (eqP nm MARKER); [reflexivity|contradiction].
    + eexists _, [k]. split; [|reflexivity]. eapply R_text; [reflexivity|reflexivity|exact D|fold k; reflexivity| |]; unfold k.
      * change (value_of []) with (Some (@nil BinNums.N)). rewrite answers. change (word "marker") with MARKER in E. destruct (eqP nm MARKER); [contradiction|reflexivity].
      * apply nil_parsed.
  - intros w0 nm ats w1 kids w2 w3 _ IH _ next O N h. destruct (denotes_any (written ats)) as [l D]. destruct (value_content _ _ _ _ _ _ _ _ O N) as [V K].
    pose (k := Call (raw (Elem w0 nm ats w1 kids w2 w3)) nm l (value_of kids)). cbn [stripped].
    destruct (list_eq_dec N.eq_dec nm (word "marker")) as [E | E].
    + eexists _, [k]. split; [|reflexivity]. eapply R_echo; [reflexivity|reflexivity|exact D|fold k; reflexivity|]; unfold k. rewrite V, answers.
      change (word "marker") with MARKER in E. destruct (eqP nm MARKER); [reflexivity|contradiction].
    + assert (Na : neat_all (without_last_comments kids)).
      { apply neat_elem in N as [_ N]. destruct (last_comments kids) as (b & Eb & _). unfold neat_all in N |- *. rewrite Eb in N. apply Forall_app in N. tauto. }
      destruct (IH (h ++ [k]) [] K Na) as (o & d & Re & l' & Eo & Ed & F). exists o, ([k] ++ d). split.
      * eapply R_text; [reflexivity|reflexivity|exact D|fold k; reflexivity| |]; unfold k.
        -- rewrite V, answers. change (word "marker") with MARKER in E. destruct (eqP nm MARKER); [contradiction|reflexivity].
        -- rewrite app_assoc. rewrite <- (app_nil_r (raws _)). apply P_content; [exact K| |exact Re]. left; reflexivity.
      * rewrite <- (without_comments_flat (stripped ni) kids) by reflexivity. exact (text_of_all _ _ _ F Eo).
Qed.
Lemma strips_all is : does_all ni all cb R is.
Proof. induction is as [|i is IH]; [apply does_nil|]. apply does_cons; [apply strips_item|exact IH]. Qed.
Lemma strips x is : content_of x is -> Forall neat is -> exists F, forall f, F <= f -> xstring ni f g merged x = Done (flat_map (stripped ni) is).
Proof.
  intros (rest & -> & O & St) N. destruct (strips_all is [] rest O N) as (o & d & Re & l & Eo & _ & F).
  rewrite (text_of_all _ _ _ F Eo) in Re. 
  assert (P : Parsed ni all cb [] (raws is ++ rest) (flat_map (stripped ni) is) d) by (apply P_content; assumption).
  apply parse_iff in P as (Fu & H). 
  exists Fu. intros f L. unfold xstring. destruct (H f L) as (s & -> & <- & _). reflexivity.
Qed.
End Strip.

(** *** the glossary *)
Definition texts_of (d : list call) : list (bytes * bytes) :=
  flat_map (fun k => if range_equal (c_name k) XSTR then match c_value k with Some v => [(attr_get (c_attributes k) ID, v)] | None => [] end else []) d.
Section Glossary.
Variable ni : list entry.
Local Notation cb := store_answer.
Local Notation R := (fun (i : item) (_ : bytes) (d : list call) => texts_of d = strings i).
Lemma calls_of_all is (l : list (bytes * list call)) : Forall2 (fun i (x : bytes * list call) => match i with
    | Chars s => x = (s, []) | Ref b => x = (reference_text ni b, []) | OpenRef b => x = (open_reference_text ni b, []) | Comment _ => x = ([], []) | _ => R i (fst x) (snd x) end) is l ->
  texts_of (flat_map snd l) = flat_map strings is.
Proof.
  intros F. induction F as [|i [a b] is l E F IH]; [reflexivity|]. cbn [flat_map snd]. unfold texts_of in *. rewrite flat_map_app, IH. f_equal. destruct i; cbn [fst snd] in E; try (injection E as -> ->); try exact E; reflexivity.
Qed.
Lemma id_attr i nm ats kids l : tag_of i = Some (nm, ats, kids) -> denotes (written ats) l -> attr_get l ID = id_attribute i.
Proof. intros T D. unfold id_attribute. rewrite T. apply (attr_get_last _ _ ID D). Qed.
Lemma texts_xstr w l v d : texts_of ([Call w XSTR l (Some v)] ++ d) = (attr_get l ID, v) :: texts_of d.
Proof. reflexivity. Qed.
Lemma texts_other w nm l v d : nm <> XSTR -> texts_of ([Call w nm l v] ++ d) = texts_of d.
Proof. intros N. unfold texts_of. cbn [app flat_map c_name c_value c_attributes]. destruct (eqP nm XSTR); [contradiction|reflexivity]. Qed.
Lemma echo_other h k : c_name k <> XSTR -> store_answer h k = Echo.
Proof. intros N. unfold store_answer. destruct (eqP (c_name k) XSTR); [contradiction|reflexivity]. Qed.
Lemma stores_item : forall i, does ni handled cb R i.
Proof.
  apply does_rule.
  - intros w0 nm ats w1 _ next O N h. destruct (denotes_any (written ats)) as [l D].
    pose (k := Call (raw (Empty w0 nm ats w1)) nm l (Some [])). cbn [strings].
    destruct (list_eq_dec N.eq_dec nm (word "xstr")) as [E | E].
    + change (word "xstr") with XSTR in E. eexists _, [k]. split; [eapply R_text; [reflexivity| |exact D|reflexivity| |apply nil_parsed]|].
      * rewrite E. reflexivity.
      * unfold store_answer. cbn [c_name]. rewrite E. reflexivity.
      * unfold k. rewrite E. rewrite <- (app_nil_r [_]), texts_xstr. rewrite (id_attr (Empty w0 XSTR ats w1) XSTR ats [] l eq_refl D). reflexivity.
    + change (word "xstr") with XSTR in E. eexists _, [k]. split; [|unfold k; rewrite <- (app_nil_r [_]); apply texts_other; exact E].
      assert (Ea : store_answer h k = Echo) by (apply echo_other; exact E).
      destruct (handled h nm) eqn:Hd.
      * eapply (R_echo ni handled cb h _ nm ats [] l k); [reflexivity|exact Hd|exact D|reflexivity|exact Ea].
      * eapply (R_empty ni handled cb h w0 nm ats w1 l k); [exact Hd|exact D|reflexivity|]. rewrite Ea. reflexivity.
  - intros w0 nm ats w1 kids w2 w3 IHk IH _ next O N h. destruct (denotes_any (written ats)) as [l D]. destruct (value_content _ _ _ _ _ _ _ _ O N) as [V K].
    pose (k := Call (raw (Elem w0 nm ats w1 kids w2 w3)) nm l (value_of kids)). cbn [strings]. apply neat_elem in N as [Nc N].
    destruct (list_eq_dec N.eq_dec nm (word "xstr")) as [E | E]; change (word "xstr") with XSTR in E.
    + assert (Na : neat_all (without_last_comments kids)).
      { destruct (last_comments kids) as (b & Eb & _). unfold neat_all in N |- *. rewrite Eb in N. apply Forall_app in N. tauto. }
      destruct (IH (h ++ [k]) [] K Na) as (o & d & Re & l' & Eo & Ed & F). exists o, ([k] ++ d). split.
      * eapply R_text; [reflexivity| |exact D|fold k; reflexivity| |]; unfold k.
        -- rewrite E. reflexivity.
        -- rewrite V. unfold store_answer. cbn [c_name c_value]. rewrite E. reflexivity.
        -- rewrite app_assoc. rewrite <- (app_nil_r (raws _)). apply P_content; [exact K|left; reflexivity|exact Re].
      * unfold k. rewrite V, E, texts_xstr. rewrite (id_attr (Elem w0 XSTR ats w1 kids w2 w3) XSTR ats kids l eq_refl D). f_equal.
        rewrite <- (without_comments_flat strings kids) by reflexivity. rewrite Ed. exact (calls_of_all _ _ F).
    + destruct (list_eq_dec N.eq_dec nm (word "marker")) as [M | M]; change (word "marker") with MARKER in M.
      * eexists _, [k]. split; [|unfold k; rewrite <- (app_nil_r [_]); apply texts_other; exact E].
        eapply (R_echo ni handled cb h _ nm ats kids l k); [reflexivity| |exact D|reflexivity|apply echo_other; exact E]. rewrite M; reflexivity.
      * apply item_ok_elem in O as (_ & _ & _ & O). destruct (IHk h _ O N) as (o & d & Re & l' & Eo & Ed & F). eexists _, d. split.
        -- apply R_inside; [|exact Re]. unfold handled. destruct (eqP nm XSTR); [contradiction|]. destruct (eqP nm MARKER); [contradiction|reflexivity].
        -- rewrite Ed. exact (calls_of_all _ _ F).
Qed.
Lemma stores_sequence l : glossary_ok l -> forall h, exists o d, Sequence ni handled cb h (glossary_text l) o (h ++ d) /\ texts_of d = flat_map strings (map fst l).
Proof.
  induction l as [|[i t] l IH]; intros G h.
  - exists [], []. rewrite app_nil_r. split; [|reflexivity]. apply Sq_end; [intros n T; exact (token_nonempty _ _ _ _ _ _ T eq_refl)|left; reflexivity|intros n T; exact (token_nonempty _ _ _ _ _ _ T eq_refl)].
  - destruct G as (T & N & O & C & G). destruct (stores_item i T _ O N h) as (o1 & d1 & Re & E1). destruct (IH G (h ++ d1)) as (o & d & Sq & E).
    exists (o1 ++ o), (d1 ++ d). split.
    + rewrite app_assoc. cbn [glossary_text]. exact (Sq_element ni handled cb h i t (glossary_text l) o1 (h ++ d1) o ((h ++ d1) ++ d) O T Re C Sq).
    + unfold texts_of in *. rewrite flat_map_app, E1, E. reflexivity.
Qed.
Variable same_place : nat -> nat -> bool.
Definition pair_of (e : entry_t) := (e_id e, e_value e).
Lemma store_cases g a v p : store same_place g a v p = g /\ In (attr_get a ID, v) (map pair_of g) \/ store same_place g a v p = g ++ [Stored (attr_get a ID) a v p].
Proof.
  unfold store. destruct (exact_match _ _ _ _ _ _) eqn:E; [left|now right]. split; [reflexivity|]. apply existsb_exists in E as (e & I1 & E). apply filter_In in I1 as [I1 E0].
  apply andb_prop in E as [_ E]. apply andb_prop in E as [E _]. destruct (eqP (e_id e) (attr_get a ID)) as [E0' |]; [|discriminate]. destruct (eqP (e_value e) v) as [E' |]; [|discriminate].
  apply in_map_iff. exists e. split; [unfold pair_of; congruence|exact I1].
Qed.
Lemma stored_kept d : forall g p, exists l', map pair_of (stored same_place g p d) = map pair_of g ++ l' /\ Kept (map pair_of g) (texts_of d) l'.
Proof.
  induction d as [|k d IH]; intros g p; [exists []; rewrite app_nil_r; split; [reflexivity|constructor]|].
  cbn [stored]. unfold texts_of. cbn [flat_map]. fold (texts_of d). destruct (range_equal (c_name k) XSTR); [|apply IH]. destruct (c_value k) as [v|]; [|apply IH].
  destruct (store_cases g (c_attributes k) v p) as [[-> I1] | ->].
  - destruct (IH g (S p)) as (l' & E & Kp). exists l'. split; [exact E|]. cbn [app]. apply K_drop; assumption.
  - destruct (IH (g ++ [Stored (attr_get (c_attributes k) ID) (c_attributes k) v p]) (S p)) as (l' & E & Kp). rewrite map_app in E, Kp. cbn [map] in E, Kp.
    change (pair_of (Stored (attr_get (c_attributes k) ID) (c_attributes k) v p)) with (attr_get (c_attributes k) ID, v) in E, Kp.
    exists ((attr_get (c_attributes k) ID, v) :: l'). split; [rewrite E, <- app_assoc; reflexivity|]. cbn [app]. apply K_keep. exact Kp.
Qed.
Lemma glossary l : glossary_ok l -> exists F g, (forall f, F <= f -> glossary_parse ni same_place f (glossary_text l) = Some g) /\ Kept [] (flat_map strings (map fst l)) (map pair_of g).
Proof.
  intros G. destruct (stores_sequence l G []) as (o & d & Sq & E). cbn [app] in Sq.
  destruct (sequence_complete ni handled cb _ _ _ _ Sq (glossary_text l) (with_lex (set_skip false (p_lex fresh)) fresh) 0 (at_here _ 0 false false) (sits_0 _) eq_refl eq_refl) as (F & H).
  destruct (stored_kept d [] 0) as (l' & E' & Kp). cbn [map app] in E', Kp.
  exists F, (stored same_place [] 0 d). split; [|rewrite E', <- E; exact Kp]. intros f L. unfold glossary_parse. destruct (H f L) as (s' & X & _ & Y). 
  assert (X' : parse_element_sequence ni handled cb f (glossary_text l) fresh = Ok tt s') by exact X. rewrite X', Y. reflexivity.
Qed.
End Glossary.
Lemma kept_in {A} (b l l' : list A) : Kept b l l' -> forall x, In x l -> In x b \/ In x l'.
Proof.
  induction 1 as [b | b y l l' K IH | b y l l' I1 K IH]; intros x I0; [destruct I0|..].
  - destruct I0 as [-> | I0]; [right; now left|]. destruct (IH x I0) as [I1 | I1]; [|right; now right]. apply in_app_or in I1 as [I1 | [-> | []]]; [now left|right; now left].
  - destruct I0 as [-> | I0]; [now left|]. apply IH, I0.
Qed.
Lemma kept_from {A} (b l l' : list A) : Kept b l l' -> forall x, In x l' -> In x l.
Proof. induction 1; intros z I0; [destruct I0|destruct I0 as [-> | I0]; [now left|right; auto]|right; auto]. Qed.
(** what repeats an earlier candidate is never the best *)
Lemma cut_at {A} (b : list A) : forall t p c q, b ++ t = p ++ c :: q -> (exists b', b = p ++ c :: b' /\ q = b' ++ t) \/ (exists p', p = b ++ p' /\ t = p' ++ c :: q).
Proof.
  induction b as [|x b IH]; intros t p c q E; [right; exists p; auto|]. destruct p as [|y p]; cbn [app] in E; injection E as -> E.
  - left. exists b. auto.
  - destruct (IH _ _ _ _ E) as [(b' & -> & ->) | (p' & -> & ->)]; [left; exists b'; auto|right; exists p'; auto].
Qed.
Lemma denoting_any ms : exists given, denoting ms given.
Proof.
  induction ms as [|[ats v] ms [given D]]; [exists []; constructor|]. destruct (denotes_any (written ats)) as [l E]. exists ((l, v) :: given). constructor; [split; auto|exact D].
Qed.
Lemma kept_best_from ni ms (b l l' : list bytes) : Kept b l l' -> forall o, best ni ms (b ++ l) o <-> best ni ms (b ++ l') o.
Proof.
  destruct (denoting_any ms) as [given D].
  induction 1 as [b | b y l l' K IH | b y l l' I0 K IH]; intros o; [reflexivity|..].
  - specialize (IH o). rewrite <- !app_assoc in IH. exact IH.
  - rewrite <- IH. clear IH K l'. split.
    + intros (p & c & q & n & E & Fi & B & A). destruct (cut_at _ _ _ _ _ E) as [(b' & -> & ->) | (p' & -> & E')].
      * exists p, c, (b' ++ l), n. split; [now rewrite <- app_assoc|]. split; [exact Fi|]. split; [exact B|]. intros c' o' n' I1. apply A. apply in_app_or in I1. apply in_or_app. destruct I1; [now left|right; now right].
      * destruct p' as [|z p']; cbn [app] in E'; injection E' as -> E'.
        { exfalso. assert (L : n < n) by (apply (B c o n); [rewrite app_nil_r; exact I0|exact Fi]). lia. }
        subst l. exists (b ++ p'), c, q, n. split; [now rewrite app_assoc|]. split; [exact Fi|]. split; [|exact A]. intros c' o' n' I1. apply B. apply in_app_or in I1. apply in_or_app. destruct I1; [now left|right; now right].
    + intros (p & c & q & n & E & Fi & B & A). destruct (cut_at _ _ _ _ _ E) as [(b' & -> & ->) | (p' & -> & ->)].
      * exists p, c, (b' ++ y :: l), n. split; [now rewrite <- app_assoc|]. split; [exact Fi|]. split; [exact B|]. intros c' o' n' I1 Fi'. apply in_app_or in I1 as [I1 | [<- | I1]]; [apply (A _ _ _ (in_or_app _ _ _ (or_introl I1)) Fi')| |apply (A _ _ _ (in_or_app _ _ _ (or_intror I1)) Fi')].
        apply in_app_or in I0 as [I0 | [-> | I0]]; [apply Nat.lt_le_incl, (B _ _ _ I0 Fi')| |apply (A _ _ _ (in_or_app _ _ _ (or_introl I0)) Fi')].
        destruct (fill_unique ni ms given D _ _ _ _ _ Fi Fi') as [_ X]. injection X as ->. apply le_n.
      * exists (b ++ y :: p'), c, q, n. split; [now rewrite <- app_assoc|]. split; [exact Fi|]. split; [|exact A]. intros c' o' n' I1. apply B. apply in_app_or in I1 as [I1 | [<- | I1]]; apply in_or_app; [now left|now left|now right].
Qed.
Lemma kept_best ni ms l l' : Kept [] l l' -> forall o, best ni ms l o <-> best ni ms l' o.
Proof. exact (kept_best_from ni ms [] l l'). Qed.
Lemma kept_under {A} (id_of text_of : A -> bytes) (b l l' : list A) id : Kept b l l' -> Kept (under id_of text_of b id) (under id_of text_of l id) (under id_of text_of l' id).
Proof.
  induction 1 as [b | b y l l' K IH | b y l l' I0 K IH]; [constructor|..].
  - unfold under in *. rewrite filter_app, map_app in IH. cbn [filter] in *. destruct (list_eq_dec N.eq_dec (id_of y) id); [cbn [map] in *; apply K_keep; exact IH|]. cbn [map] in IH. rewrite app_nil_r in IH. exact IH.
  - unfold under in *. cbn [filter]. destruct (list_eq_dec N.eq_dec (id_of y) id) as [E | E]; [|exact IH]. cbn [map]. apply K_drop; [|exact IH]. apply in_map. apply filter_In. split; [exact I0|]. destruct (list_eq_dec N.eq_dec (id_of y) id); congruence.
Qed.
Lemma under_pairs g id : under fst snd (map pair_of g) id = under e_id e_value g id.
Proof.
  unfold under. induction g as [|e g IH]; [reflexivity|]. cbn [map filter]. change (fst (pair_of e)) with (e_id e). destruct (list_eq_dec N.eq_dec (e_id e) id); cbn [map]; rewrite IH; reflexivity.
Qed.
