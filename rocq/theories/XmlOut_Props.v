(** Properties C111, C112: the XML serializer. *)
From Coq Require Import String Ascii ZArith Lia Permutation Sorted Floats.SpecFloat DecimalString.
From Verif Require Import Prelude Vm_Value Vm_Model Vm_Spec Entity_Model Cel_Model XmlOut_Model XmlOut_Spec XmlOut_Text.
From Verif Require Cel_Spec Cel_Proofs Cel_Props Entity_Props Xml_Model Xml_Spec Xml_Props.
From Coq Require Import List.
Import ListNotations.
Local Open Scope nat_scope.

(** *** numbers *)
Lemma to_int64_fits f : fits64 f -> exists z b, to_int64 f = Some (z, b).
Proof.
  intros (z & E & H). unfold to_int64. rewrite E.
  assert (((- 2 ^ 63 <=? z) && (z <? 2 ^ 63))%Z = true) as ->; [|eauto]. apply andb_true_iff. rewrite Z.leb_le, Z.ltb_lt. lia.
Qed.
Lemma to_int64_spec f z b : to_int64 f = Some (z, b) -> if b then is_integer f z else forall z', ~ is_integer f z'.
Proof.
  unfold to_int64. destruct (f_trunc f) as [q|] eqn:E; [|discriminate]. destruct (_ && _); [|discriminate]. intros [= -> <-].
  destruct f as [s|s| |s m e]; try discriminate E; cbn [f_trunc f_exact is_integer] in *.
  - congruence.
  - destruct (Z.leb_spec 0 e) as [He|He].
    + injection E as <-. left. split; [exact He|]. now destruct s.
    + assert (Hp : (0 < 2 ^ (- e))%Z) by (apply Z.pow_pos_nonneg; lia).
      injection E as <-. set (P := (2 ^ (- e))%Z) in *. clearbody P.
      pose proof (Z.div_mod (Zpos m) P ltac:(lia)) as D. pose proof (Z.mod_pos_bound (Zpos m) P Hp) as B.
      destruct (Z.eqb_spec (Zpos m mod P) 0) as [E0|E0].
      * right. split; [exact He|]. destruct s; nia.
      * intros z' [[? _]|[_ H]]; [lia|]. apply E0.
        destruct s.
        -- assert (Q : (Zpos m = (- z') * P)%Z) by lia. rewrite Q. apply Z.mod_mul. lia.
        -- rewrite H. apply Z.mod_mul. lia.
Qed.

(** *** the order of the keys *)
Lemma before_iff : forall a b, str_ltb a b = true <-> before a b.
Proof.
  induction a as [|x a IH]; intros [|y b]; cbn; try (split; [discriminate|contradiction]); try tauto.
  destruct (N.ltb_spec (N_of_ascii x) (N_of_ascii y)) as [H|H]; [tauto|].
  destruct (N.ltb_spec (N_of_ascii y) (N_of_ascii x)) as [H'|H'].
  - split; [discriminate|]. intros [?|[-> _]]; lia.
  - rewrite IH. split; [|intros [?|[_ ?]]; [lia|assumption]]. intros Q. right. split; [|exact Q].
    rewrite <- (ascii_N_embedding x), <- (ascii_N_embedding y). f_equal. lia.
Qed.
Lemma insert_sorted {A} k (a : A) : forall l, StronglySorted (fun x y => before (fst x) (fst y)) l -> ~ In k (map fst l) ->
  StronglySorted (fun x y => before (fst x) (fst y)) (insert_row k a l).
Proof.
  induction l as [|[k' a'] l IH]; intros HS N; cbn [insert_row]; [repeat constructor|].
  inversion HS as [|? ? HS' HF]; subst. cbn [map fst] in N. destruct (str_ltb k' k) eqn:E.
  - constructor; [apply IH; [exact HS'|intros Q; apply N; now right]|].
    apply (Permutation_Forall (Cel_Proofs.insert_row_perm k a l)). constructor; [now apply before_iff|exact HF].
  - assert (Hk : before k k').
    { apply before_iff. destruct (Cel_Props.ltb_total k k') as [Q|Q]; [intros ->; apply N; now left|exact Q|congruence]. }
    constructor; [exact HS|]. constructor; [exact Hk|]. eapply Forall_impl; [|exact HF]. cbn. intros x Hx.
    apply before_iff. apply before_iff in Hk, Hx. eapply Cel_Props.ltb_trans; eassumption.
Qed.
Lemma sort_sorted {A} : forall l : list (string * A), NoDup (map fst l) -> StronglySorted (fun x y => before (fst x) (fst y)) (sort_rows l).
Proof.
  induction l as [|[k a] l IH]; intros N; [constructor|]. cbn [sort_rows fold_right fst snd]. fold (sort_rows l). inversion N; subst.
  apply insert_sorted; [auto|]. intros Q. apply H1. apply (Permutation_in k (Permutation_sym (Permutation_map fst (Cel_Proofs.sort_rows_perm l)))). exact Q.
Qed.

(** *** text and bytes *)
Lemma cs_string_of l : Forall (fun c => c < 256)%N l -> bytes_of_text (cs (string_of l)) = l.
Proof.
  induction 1 as [|c l Hc Hl IH]; [reflexivity|].
  change (bytes_of_text (cs (string_of (c :: l)))) with (N_of_ascii (ascii_of_N c) :: bytes_of_text (cs (string_of l))).
  rewrite IH. f_equal. apply N_ascii_embedding. exact Hc.
Qed.
Lemma bs_bytes s : Forall Entity_Props.byte (bs s).
Proof. induction s as [|c s IH]; constructor; [|exact IH]. apply N_ascii_bounded. Qed.
Lemma escape_bytes ci s : Entity_Props.sorted_by_code ci -> Forall (fun c => c < 256)%N (entity_escape ci (bs s)).
Proof.
  intros H. destruct (Entity_Props.C52_escape_is_plain_text ci (bs s) H (bs_bytes s)) as [_ P]. eapply Forall_impl; [|exact P].
  cbn. unfold Entity_Props.printable. intros. lia.
Qed.
Lemma element_tagged t x : element_text t x = tagged t x.
Proof. unfold element_text, tagged, cs. rewrite <- !app_assoc. reflexivity. Qed.

Section Props.
Variable show : spec_float -> list ascii.
Variable type_text : value -> list ascii.
Variable code_index : list entry.
Hypothesis Hci : Entity_Props.sorted_by_code code_index.
Notation body := (body show type_text code_index).
Notation clean := (clean show type_text).
Notation Written := (Written show type_text code_index).
Notation serialize_xml := (serialize_xml show type_text code_index).

Lemma clean_good v : clean v -> good v.
Proof.
  induction v as [f|b|s|n| |l IH|dd IH|n|k] using value_ind'; intros C; try (apply g_leaf; exact Logic.I).
  - inversion C as [? F| | | | |? Q| |]; subst; [|contradiction]. apply g_leaf. destruct (to_int64_fits f F) as (z & b & ->). discriminate.
  - inversion C as [| | | | |? Q|? Cl|]; subst; [contradiction|]. apply g_arr. rewrite Forall_forall in *. auto.
  - inversion C as [| | | | |? Q| |? N Cd]; subst; [contradiction|]. apply g_dict. rewrite Forall_forall in *. intros x Hx. apply IH; [exact Hx|]. apply (Cd x Hx).
Qed.

Lemma body_written v : clean v -> forall d, Written d v (body d v).
Proof.
  induction v as [f|b|s|n| |l IH|dd IH|n|k] using value_ind'; intros C d.
  - inversion C as [? F| | | | |? Q| |]; subst; [|contradiction]. destruct (to_int64_fits f F) as (z & b & E). pose proof (to_int64_spec f z b E) as Sp.
    cbn [XmlOut_Text.body leaf_text]. rewrite E. destruct b; rewrite element_tagged; [now apply W_int|now apply W_double].
  - cbn [XmlOut_Text.body leaf_text]. rewrite element_tagged. destruct b; constructor.
  - cbn [XmlOut_Text.body leaf_text]. rewrite element_tagged. constructor. apply cs_string_of. now apply escape_bytes.
  - cbn [XmlOut_Text.body leaf_text]. rewrite element_tagged. constructor.
  - apply W_empty.
  - inversion C as [| | | | |? Q|? Cl|]; subst; [contradiction|]. cbn [XmlOut_Text.body].
    rewrite flat_map_concat_map. rewrite <- (map_map (body (S d)) (fun t => indents (S d) ++ t ++ [LF])).
    apply W_arr. clear C. induction l as [|v l IHl]; cbn [map]; [constructor|]. inversion IH; subst. inversion Cl; subst. constructor; auto.
  - inversion C as [| | | | |? Q| |? N Cd]; subst; [contradiction|]. cbn [XmlOut_Text.body].
    rewrite Cel_Proofs.pairs_map, (Cel_Proofs.sort_rows_map (body (S d))). rewrite flat_map_concat_map.
    assert (E : map (fun kw => (fst kw, body (S d) (snd kw))) (sort_rows dd) =
      combine (map fst (sort_rows dd)) (map (fun kw => body (S d) (snd kw)) (sort_rows dd))).
    { generalize (sort_rows dd). clear. induction l as [|[k v] l IH]; [reflexivity|]. cbn [map combine fst snd]. now rewrite IH. }
    rewrite E. erewrite map_ext; [apply (W_dict show type_text code_index d dd (sort_rows dd))|].
    + apply Cel_Proofs.sort_rows_perm.
    + now apply sort_sorted.
    + assert (IH' := Permutation_Forall (Cel_Proofs.sort_rows_perm dd) IH). assert (Cd' := Permutation_Forall (Cel_Proofs.sort_rows_perm dd) Cd).
      clear - IH' Cd'. induction (sort_rows dd) as [|x l IHl]; cbn [map]; [constructor|]. inversion IH'; subst. inversion Cd'; subst.
      constructor; [|auto]. apply H1. apply H3.
    + intros kt. unfold row_text. rewrite element_tagged. reflexivity.
  - cbn [XmlOut_Text.body leaf_text]. rewrite element_tagged. apply W_other. exact Logic.I.
  - cbn [XmlOut_Text.body leaf_text]. rewrite element_tagged. apply W_other. exact Logic.I.
Qed.

(** C111: the text of a value is the one specified, between <xml> and </xml>. *)
Theorem C111_text v : clean v ->
  exists t, Written 0 v t /\ serialize_xml v = Some (tagged "xml" (newline ++ t ++ newline)).
Proof.
  intros C. exists (body 0 v). split; [now apply body_written|]. rewrite (serialize_text _ _ _ v (clean_good v C)).
  unfold tagged, newline, cs. rewrite <- !app_assoc. reflexivity.
Qed.

(** *** well-formedness *)
Lemma content_app u : Content u -> forall v, Content v -> Content (u ++ v).
Proof.
  induction 1 as [|c r H1 H2 H3 Hr IH|b r Hb Hr IH|nm x r Hn Hx _ Hr IH|nm r Hn Hr IH]; intros v Hv.
  - exact Hv.
  - cbn [app]. now apply C_char; auto.
  - cbn [app]. rewrite <- app_assoc. cbn [app]. now apply C_ref; auto.
  - cbn [app]. rewrite <- app_assoc. cbn [app]. rewrite <- app_assoc. cbn [app]. rewrite <- app_assoc. cbn [app]. now apply C_elem; auto.
  - cbn [app]. rewrite <- app_assoc. cbn [app]. now apply C_empty; auto.
Qed.
Lemma bytes_app a b : bytes_of_text (a ++ b) = bytes_of_text a ++ bytes_of_text b.
Proof. apply map_app. Qed.
Lemma tidy_content t : tidy t -> Content (bytes_of_text t).
Proof.
  induction 1 as [|c t (H1 & H2 & H3) Ht IH]; [constructor|]. cbn [bytes_of_text map]. apply C_char; [| | |exact IH].
  - intros E. apply H1. rewrite <- (ascii_N_embedding c), E. reflexivity.
  - intros E. apply H2. rewrite <- (ascii_N_embedding c), E. reflexivity.
  - intros E. apply H3. rewrite <- (ascii_N_embedding c), E. reflexivity.
Qed.
Lemma entity_content t : Entity_Props.entity_text t -> Content t.
Proof.
  induction 1 as [|c t P M Ht IH|nm t Hn F Ht IH]; [constructor| |].
  - unfold Entity_Props.markup in M. apply C_char; [intros ->..|exact IH]; apply M; tauto.
  - apply C_ref; [|exact IH]. intros H. rewrite Forall_forall in F. specialize (F _ H). unfold Entity_Props.name_byte in F. lia.
Qed.
Lemma bs_text t : bytes_of_text (list_ascii_of_string t) = bs t.
Proof. induction t as [|c t IH]; [reflexivity|]. cbn. now rewrite <- IH. Qed.
Lemma tagged_content t x : Xml_Spec.xname (bs t) -> Content (bytes_of_text x) -> Content (bytes_of_text (tagged t x)).
Proof.
  intros Ht Hx. unfold tagged. rewrite !bytes_app. 
  change (bytes_of_text (list_ascii_of_string "<")) with [60%N]. change (bytes_of_text (list_ascii_of_string ">")) with [62%N].
  change (bytes_of_text (list_ascii_of_string "</")) with [60%N; 47%N].
  rewrite bs_text, <- !app_assoc. cbn [app].
  apply C_elem; [exact Ht|exact Hx|constructor].
Qed.
Definition letterb (c : N) : bool := ((97 <=? c) && (c <=? 122) || (c =? 95))%N%bool.
Lemma tag_name t : t <> ""%string -> forallb letterb (bs t) = true -> Xml_Spec.xname (bs t).
Proof.
  intros Hn H. rewrite forallb_forall in H.
  assert (L : forall c, In c (bs t) -> Xml_Spec.name_start c).
  { intros c Hc. specialize (H c Hc). unfold letterb in H. rewrite orb_true_iff, andb_true_iff, !N.leb_le, N.eqb_eq in H. unfold Xml_Spec.name_start. lia. }
  destruct t as [|a t]; [congruence|]. cbn [bs] in *. split; [apply L; now left|]. apply Forall_forall. intros c Hc. left. now apply L.
Qed.
Lemma tabs_tidy d : tidy (tabs d).
Proof. apply Forall_forall. intros c H. apply repeat_spec in H. subst c. repeat split; discriminate. Qed.
Lemma lf_tidy : tidy newline.
Proof. repeat constructor; discriminate. Qed.
Lemma dec_tidy z : tidy (list_ascii_of_string (NilZero.string_of_int (Z.to_int z))).
Proof.
  unfold NilZero.string_of_int. assert (U : forall u, tidy (list_ascii_of_string (NilEmpty.string_of_uint u))).
  { induction u; cbn; constructor; try assumption; repeat split; discriminate. }
  assert (U' : forall u, tidy (list_ascii_of_string (NilZero.string_of_uint u))).
  { intros []; try apply U. repeat constructor; discriminate. }
  destruct (Z.to_int z); [apply U'|]. cbn. constructor; [repeat split; discriminate|apply U'].
Qed.
Lemma array_tagged a b c : list_ascii_of_string "<array>" ++ a ++ b ++ c ++ list_ascii_of_string "</array>" = tagged "array" (a ++ b ++ c).
Proof. unfold tagged. rewrite <- !app_assoc. reflexivity. Qed.
Lemma dict_tagged a b c : list_ascii_of_string "<dict>" ++ a ++ b ++ c ++ list_ascii_of_string "</dict>" = tagged "dict" (a ++ b ++ c).
Proof. unfold tagged. rewrite <- !app_assoc. reflexivity. Qed.
Lemma written_content d v t : clean v -> Written d v t -> Content (bytes_of_text t).
Proof.
  revert d t. induction v as [f|b|s|n| |l IH|dd IH|n|k] using value_ind'; intros d t C W.
  - inversion C as [? F T| | | | |? Q| |]; subst; [|contradiction].
    inversion W; subst; try contradiction; (apply tagged_content; [now apply tag_name|]); apply tidy_content; [apply dec_tidy|exact T].
  - inversion W; subst; try contradiction; (apply tagged_content; [now apply tag_name|]); apply tidy_content; repeat constructor; discriminate.
  - inversion W as [? ? e He| | | | | | |? ? Q| |]; subst; try contradiction. apply tagged_content; [now apply tag_name|]. rewrite He.
    apply entity_content. apply Entity_Props.C52_escape_is_plain_text; [exact Hci|apply bs_bytes].
  - inversion C as [| | |? T| |? Q| |]; subst; [|contradiction].
    inversion W; subst; try contradiction; (apply tagged_content; [now apply tag_name|]); now apply tidy_content.
  - inversion W as [| | | | | | |? ? Q| |]; subst; try contradiction. apply (C_empty (bs "empty") []); [now apply tag_name|constructor].
  - inversion C as [| | | | |? Q|? Cl|]; subst; [contradiction|]. inversion W as [| | | | | | |? ? Q|? ? ts Hts|]; subst; [contradiction|].
    rewrite array_tagged. apply tagged_content; [now apply tag_name|]. rewrite !bytes_app.
    apply content_app; [apply tidy_content, lf_tidy|]. apply content_app; [|apply tidy_content, tabs_tidy].
    clear C W. revert Cl IH. induction Hts as [|v t l ts Ht Hts IHt]; intros Cl IH; [constructor|]. inversion Cl; subst. inversion IH; subst.
    cbn [map concat]. rewrite !bytes_app. apply content_app; [|auto]. apply content_app; [apply tidy_content, tabs_tidy|]. apply content_app; [eauto|apply tidy_content, lf_tidy].
  - inversion C as [| | | | |? Q| |? N Cd]; subst; [contradiction|]. inversion W as [| | | | | | |? ? Q| |? ? rows ts Hp Hs Hts]; subst; [contradiction|].
    rewrite dict_tagged. apply tagged_content; [now apply tag_name|]. rewrite !bytes_app.
    apply content_app; [apply tidy_content, lf_tidy|]. apply content_app; [|apply tidy_content, tabs_tidy].
    apply (Permutation_Forall Hp) in Cd, IH. clear C W Hs Hp.
    revert Cd IH. induction Hts as [|[k v] t l ts Ht Hts IHt]; intros Cl IH; [constructor|]. inversion Cl as [|? ? [Tk Cv] Cl']; subst. inversion IH; subst. cbn [fst snd] in *.
    cbn [map concat combine fst snd]. rewrite bytes_app. apply content_app; [|auto]. rewrite !bytes_app.
    apply content_app; [apply tidy_content, tabs_tidy|]. apply content_app; [apply tagged_content; [now apply tag_name|now apply tidy_content]|].
    apply content_app; [apply tidy_content, lf_tidy|]. 
    apply content_app; [apply tidy_content, tabs_tidy|]. apply content_app; [eauto|apply tidy_content, lf_tidy].
  - inversion C as [| | | | |? Q T| |]; subst.
    inversion W; subst; try contradiction; (apply tagged_content; [now apply tag_name|]); now apply tidy_content.
  - inversion C as [| | | | |? Q T| |]; subst.
    inversion W; subst; try contradiction; (apply tagged_content; [now apply tag_name|]); now apply tidy_content.
Qed.
(** *** the library's parser accepts well-formed content *)
Definition starts_lt (u : list N) : Prop := match u with c :: _ => c = 60%N | [] => False end.
Definition head_ok (is : list Xml_Spec.item) : Prop := match is with Xml_Spec.Chars (62%N :: _) :: _ => False | _ => True end.
Lemma items_all is nx : Xml_Spec.items_ok is nx <->
  (fix all (is : list Xml_Spec.item) : Prop :=
       match is with
       | [] => True
       | i :: is' => Xml_Spec.item_ok i (Xml_Spec.raws is' ++ nx) /\ all is'
       end) is.
Proof. induction is as [|i is IH]; cbn [Xml_Spec.items_ok]; [tauto|]. now rewrite IH. Qed.
Definition shape (i : Xml_Spec.item) : Prop :=
  match i with Xml_Spec.Comment _ | Xml_Spec.OpenRef _ => False | _ => True end.
Lemma content_items u : Content u ->
  exists is, Xml_Spec.raws is = u /\ Forall shape is /\ forall nx, starts_lt nx -> Xml_Spec.items_ok is nx.
Proof.
  induction 1 as [|c r H1 H2 H3 Hr (is & E & F & K)|b r Hb Hr (is & E & F & K)|nm x r Hn Hx (js & E' & F' & K') Hr (is & E & F & K)|nm r Hn Hr (is & E & F & K)].
  - exists []. repeat split. constructor.
  - assert (New : is = [] \/ (exists i is', is = i :: is' /\ (forall s, i <> Xml_Spec.Chars s)) \/ exists s is', is = Xml_Spec.Chars s :: is').
    { destruct is as [|i is]; [auto|]. right. destruct i; [right; eauto|left; eexists _, _; split; [reflexivity|discriminate]..]. }
    assert (P : Xml_Spec.plain c) by (split; assumption).
    destruct New as [->|[(i & is' & -> & Hi)|(s & is' & ->)]].
    + exists [Xml_Spec.Chars [c]]. cbn in E. subst r. split; [reflexivity|]. split; [repeat constructor|]. intros nx Hx. cbn. split; [|exact Logic.I].
      split; [discriminate|]. split; [now repeat constructor|]. split.
      { destruct nx as [|y nx]; [contradiction|]. cbn in *. subst y. intros [Q _]. now apply Q. }
      split; [intros Q; apply H2; symmetry; exact Q|]. intros r Q. discriminate Q.
    + exists (Xml_Spec.Chars [c] :: i :: is'). split; [cbn; now rewrite <- E|]. split; [constructor; [exact Logic.I|exact F]|].
      intros nx Hx. specialize (K nx Hx). cbn [Xml_Spec.items_ok]. split; [|exact K]. cbn [Xml_Spec.item_ok].
      split; [discriminate|]. split; [now repeat constructor|]. split.
      { cbn [Xml_Spec.raws flat_map]. inversion F as [|? ? Fi _]; subst. 
        destruct i; cbn in Fi; try contradiction; cbn; try (intros [Q _]; now apply Q); try (intros [_ Q]; now apply Q). exfalso. now apply (Hi s). }
      split; [intros Q; apply H2; symmetry; exact Q|]. intros q Q. discriminate Q.
    + exists (Xml_Spec.Chars (c :: s) :: is'). split; [cbn in *; now rewrite E|]. split; [inversion F; subst; constructor; [exact Logic.I|assumption]|].
      intros nx Hx. specialize (K nx Hx). cbn [Xml_Spec.items_ok Xml_Spec.item_ok] in *. destruct K as [(K1 & K2 & K3 & K4 & K5) K6]. split; [|exact K6].
      split; [discriminate|]. split; [now constructor|]. split; [exact K3|]. split; [intros Q; apply H2; symmetry; exact Q|].
      intros q [= _ ->]. apply K4. reflexivity.
  - exists (Xml_Spec.Ref b :: is). split; [cbn; rewrite <- E, <- app_assoc; reflexivity|]. split; [constructor; [exact Logic.I|exact F]|].
    intros nx Hx. split; [exact Hb|auto].
  - exists (Xml_Spec.Elem [] nm [] [] js [] [] :: is). split.
    { cbn. unfold Xml_Spec.tag_bytes, Xml_Spec.close_bytes. cbn. fold (Xml_Spec.raws js) (Xml_Spec.raws is). rewrite E, E'. rewrite app_nil_r, <- !app_assoc. cbn [app].
      rewrite <- !app_assoc. cbn [app]. rewrite <- app_assoc. reflexivity. }
    split; [constructor; [exact Logic.I|exact F]|]. intros nx Hnx. split; [|auto]. cbn [Xml_Spec.item_ok].
    split; [repeat split; auto; constructor|]. split; [constructor|]. split; [constructor|]. 
    specialize (K' (Xml_Spec.close_bytes [] nm [] ++ Xml_Spec.raws is ++ nx) eq_refl). apply items_all in K'. exact K'.
  - exists (Xml_Spec.Empty [] nm [] [] :: is). split; [cbn; unfold Xml_Spec.tag_bytes; cbn; fold (Xml_Spec.raws is); rewrite E, app_nil_r, <- app_assoc; reflexivity|].
    split; [constructor; [exact Logic.I|exact F]|]. intros nx Hnx. split; [|auto]. repeat split; auto; constructor.
Qed.
Lemma no_comments is : Forall shape is -> Xml_Spec.value_of is = Some (Xml_Spec.raws is).
Proof.
  intros F. rewrite Xml_Props.C94_value_partial.
  - f_equal. unfold Xml_Spec.without_last_comments. f_equal. assert (F' : Forall shape (rev is)) by (apply Forall_rev; exact F).
    rewrite <- (rev_involutive is) at 2. f_equal. destruct F' as [|i l Hi Hl]; [reflexivity|]. cbn. destruct i; try reflexivity. contradiction.
  - destruct F as [|i l Hi Hl]; [exact Logic.I|]. destruct i; try exact Logic.I. contradiction.
Qed.
End Props.

(** C111: the text of a value with convertible numbers, distinct keys and tidy names is well-formed content in one element,
    and the library's own parser reads it as one element xml, without attributes, that has all of it as value; whatever
    callback is given. *)
Theorem C111_accepted show type_text code_index v : Entity_Props.sorted_by_code code_index -> clean show type_text v ->
  exists x, serialize_xml show type_text code_index v = Some (tagged "xml" x) /\ Content (bytes_of_text x) /\
  forall name_index cb, let doc := bytes_of_text (tagged "xml" x) in
    let k := Xml_Model.Call doc (bs "xml") [] (Some (bytes_of_text x)) in
    cb [] k = Xml_Model.Echo -> exists f s', Xml_Model.parse_content name_index (fun _ n => if list_eq_dec N.eq_dec n (bs "xml") then true else false) cb f doc Xml_Model.fresh = Xml_Model.Ok tt s' /\
      Xml_Model.p_out s' = doc /\ Xml_Model.p_calls s' = [k].
Proof.
  intros Hci C. destruct (C111_text show type_text code_index Hci v C) as (t & W & E). exists (newline ++ t ++ newline). split; [exact E|]. clear E.
  assert (Cn : Content (bytes_of_text (newline ++ t ++ newline))).
  { rewrite !bytes_app. apply content_app; [apply tidy_content, lf_tidy|]. apply content_app; [eapply written_content; eassumption|apply tidy_content, lf_tidy]. }
  split; [exact Cn|]. clear W. generalize (newline ++ t ++ newline) Cn. clear t Cn. intros t Cn name_index cb doc k Hk. destruct (content_items _ Cn) as (is & Ei & F & K).
  apply Xml_Props.C93_parse_content_iff.
  set (el := Xml_Spec.Elem [] (bs "xml") [] [] is [] []).
  assert (Er : Xml_Spec.raw el = doc).
  { unfold doc, tagged. rewrite !bytes_app, <- Ei. cbn. unfold Xml_Spec.tag_bytes, Xml_Spec.close_bytes. cbn. reflexivity. }
  assert (R : Xml_Spec.Parsed name_index (fun _ n => if list_eq_dec N.eq_dec n (bs "xml") then true else false) cb [] (Xml_Spec.raws [el] ++ []) (doc ++ []) [k]).
  { apply Xml_Spec.P_content.
    - split; [|exact Logic.I]. split; [split; [constructor|]; split; [now apply tag_name|]; split; [constructor|]; split; [exact Logic.I|constructor]|]. split; [constructor|]. split; [constructor|].
      apply items_all, K. reflexivity.
    - now left.
    - apply Xml_Spec.R_element with [k]; [|constructor]. rewrite <- Er. change [k] with ([] ++ [k]). 
      apply Xml_Spec.R_echo with (bs "xml") [] is []; auto.
      + split; [exact Logic.I|]. intros n y. cbn. split; [contradiction|discriminate].
      + rewrite (no_comments is F), Er, Ei. reflexivity. }
  cbn [Xml_Spec.raws flat_map] in R. rewrite !app_nil_r, Er in R. exact R.
Qed.
