(** The text the XML serializer writes. *)
From Coq Require Import String Ascii ZArith Lia Permutation Floats.SpecFloat.
From Verif Require Import Prelude Vm_Value Vm_Model Vm_Spec Entity_Model Cel_Model XmlOut_Model.
From Verif Require Cel_Proofs.
From Coq Require Import List.
Import ListNotations.
Local Open Scope nat_scope.
Ltac Zify.zify_post_hook ::= idtac.

Section Text.
Variable show : spec_float -> list ascii.
Variable type_text : value -> list ascii.
Variable code_index : list entry.
Notation leaf_text := (leaf_text show type_text code_index).
Notation put := (put show type_text code_index).
Notation put_atom := (put_atom show type_text code_index).
Notation put_pair := (put_pair show type_text code_index).
Notation put_rows := (put_rows show type_text code_index).

Definition row_text (d : nat) (kt : string * list ascii) : list ascii :=
  indents d ++ element_text "key" (cs (fst kt)) ++ [LF] ++ indents d ++ snd kt ++ [LF].
Fixpoint body (d : nat) (v : value) {struct v} : list ascii :=
  match v with
  | VArr l => cs "<array>" ++ [LF] ++ flat_map (fun w => indents (S d) ++ body (S d) w ++ [LF]) l ++ indents d ++ cs "</array>"
  | VDict dd => cs "<dict>" ++ [LF] ++
      flat_map (row_text (S d)) (sort_rows (map (fun kw : string * value => let (k, w) := kw in (k, body (S d) w)) dd)) ++
      indents d ++ cs "</dict>"
  | v => match leaf_text v with Some t => t | None => [] end
  end.
(** every number in the value converts to a std::int64_t *)
Inductive good : value -> Prop :=
| g_arr l : Forall good l -> good (VArr l)
| g_dict d : Forall (fun kv => good (snd kv)) d -> good (VDict d)
| g_leaf v : match v with VArr _ | VDict _ => False | VNum f => to_int64 f <> None | _ => True end -> good v.

Lemma good_leaf v : good v -> match v with VArr _ | VDict _ => True | _ => exists t, leaf_text v = Some t end.
Proof.
  intros H. inversion H as [| |v' Hv]; subst; try exact Logic.I. destruct v; try contradiction; cbn [XmlOut_Model.leaf_text]; eauto.
  destruct (to_int64 f) as [[z []]|]; eauto. congruence.
Qed.

Definition bump_seq (e : element) : element := if tag_eqb (el_tag e) TSeq then Cel_Proofs.bumped e else e.
Definition key_place (e : element) (st : list element) : bool :=
  tag_eqb (el_tag e) TSeq && match st with e2 :: _ => tag_eqb (el_tag e2) TBag | [] => false end && (num_out e =? 0).
Definition item_ok (f : fstate -> option fstate) (t : nat -> list ascii) : Prop :=
  forall o d e st, key_place e st = false ->
    f (mk_fstate o d (e :: st)) = Some (mk_fstate (o ++ indents d ++ t d ++ [LF]) d (bump_seq e :: st)).

Lemma is_key_push v o d e st : is_key (atom_push v (mk_fstate o d (e :: st))) = key_place e st.
Proof.
  unfold is_key, key_place, is_tag, tag_at, count_at, atom_push, emit, push_elem. cbn [fstack nth_error].
  destruct st; cbn [nth_error]; destruct (num_out e); reflexivity.
Qed.
Lemma atom_pop_eq o d a e st : atom_pop (mk_fstate o d (a :: e :: st)) = mk_fstate (o ++ [LF]) d (bump_seq e :: st).
Proof.
  unfold atom_pop, is_tag, tag_at, bump_seq. cbn [fstack nth_error out fdepth].
  destruct (tag_eqb (el_tag e) TSeq); reflexivity.
Qed.
Lemma atom_push_eq v o d st : atom_push v (mk_fstate o d st) = mk_fstate (o ++ indents d) d (mk_element TAtom (Some v) 0 :: st).
Proof. reflexivity. Qed.

Lemma leaf_ok v t : leaf_text v = Some t -> item_ok (put_atom v) (fun _ => t).
Proof.
  intros Ht o d e st H. unfold XmlOut_Model.put_atom. cbv zeta. rewrite is_key_push, H, Ht, atom_push_eq. unfold emit. cbn [out fdepth fstack].
  rewrite atom_pop_eq, <- !app_assoc. reflexivity.
Qed.
Lemma key_ok k o d n st : put_atom (VName k) (mk_fstate o d (mk_element TSeq None 0 :: mk_element TBag None n :: st)) =
  Some (mk_fstate (o ++ indents d ++ element_text "key" (cs k) ++ [LF]) d (mk_element TSeq None 1 :: mk_element TBag None n :: st)).
Proof.
  unfold XmlOut_Model.put_atom. cbv zeta. rewrite is_key_push. cbn [key_place el_tag tag_eqb num_out Nat.eqb andb].
  rewrite atom_push_eq. unfold emit. cbn [out fdepth fstack]. rewrite atom_pop_eq, <- !app_assoc. reflexivity.
Qed.

Lemma items_ok d a st : el_tag a = TAtom -> forall l n o, Forall (fun v => item_ok (put v) (fun d => body d v)) l ->
  put_items put l (mk_fstate o d (mk_element TSeq None n :: a :: st)) =
  Some (mk_fstate (o ++ flat_map (fun w => indents d ++ body d w ++ [LF]) l) d (mk_element TSeq None (n + length l) :: a :: st)).
Proof.
  intros Ha. induction l as [|v l IH]; intros n o H; cbn [put_items flat_map length].
  - now rewrite app_nil_r, Nat.add_0_r.
  - inversion H as [|? ? Hv Hl]; subst. rewrite (Hv o d (mk_element TSeq None n) (a :: st)).
    2:{ unfold key_place. cbn [el_tag tag_eqb]. rewrite Ha. reflexivity. }
    change (bump_seq (mk_element TSeq None n)) with (mk_element TSeq None (S n)).
    rewrite (IH (S n) _ Hl), <- !app_assoc. replace (n + S (length l)) with (S n + length l) by lia. reflexivity.
Qed.
Lemma rows_ok d st : forall (l : list (string * value)) o, Forall (fun kv => item_ok (put (snd kv)) (fun d => body d (snd kv))) l ->
  forall n, put_rows (map (fun kw => (fst kw, put (snd kw))) l) (mk_fstate o d (mk_element TBag None n :: st)) =
  Some (mk_fstate (o ++ flat_map (row_text d) (map (fun kw => (fst kw, body d (snd kw))) l)) d (mk_element TBag None n :: st)).
Proof.
  induction l as [|[k v] l IH]; intros o H n; cbn [XmlOut_Model.put_rows map flat_map fst snd].
  - now rewrite app_nil_r.
  - inversion H as [|? ? Hv Hl]; subst. cbn [snd] in Hv. unfold XmlOut_Model.put_pair.
    change (begin_sequence (mk_fstate o d (mk_element TBag None n :: st))) with (mk_fstate o d (mk_element TSeq None 0 :: mk_element TBag None n :: st)).
    rewrite key_ok, (Hv _ d (mk_element TSeq None 1) (mk_element TBag None n :: st) eq_refl).
    unfold end_sequence. cbn [fstack bump_seq el_tag tag_eqb out fdepth]. change (is_tag TBag 1 _) with true. cbn iota.
    rewrite (IH _ Hl). unfold row_text. cbn [fst snd]. rewrite <- !app_assoc. reflexivity.
Qed.

Theorem put_text v : good v -> item_ok (put v) (fun d => body d v).
Proof.
  induction v as [f|b|s|n| |l IH|dd IH|n|k] using value_ind'; intros G;
    try (pose proof (good_leaf _ G) as (t & Ht); cbn [body]; rewrite Ht; exact (leaf_ok _ t Ht)).
  - inversion G as [l' Hl| |? F]; [subst l'|contradiction].
    assert (IH1 : Forall (fun v => item_ok (put v) (fun d => body d v)) l) by (rewrite Forall_forall in *; auto).
    intros o d e st H. cbn [XmlOut_Model.put]. cbv zeta. rewrite is_key_push, H, atom_push_eq.
    change (begin_sequence _) with (mk_fstate ((o ++ indents d) ++ cs "<array>" ++ [LF]) (S d) (mk_element TSeq None 0 :: mk_element TAtom (Some (VArr l)) 0 :: e :: st)).
    rewrite (items_ok (S d) (mk_element TAtom (Some (VArr l)) 0) (e :: st) eq_refl l 0 _ IH1).
    unfold end_sequence. cbn [fstack out fdepth pred]. change (is_tag TBag 1 _) with false. change (is_tag TAtom 1 _) with true. cbn iota.
    cbn [body]. rewrite atom_pop_eq, app_nil_r, <- !app_assoc. reflexivity.
  - inversion G as [|d' Hl|? F]; [subst d'|contradiction].
    assert (IH1 : Forall (fun kv => item_ok (put (snd kv)) (fun d => body d (snd kv))) dd) by (rewrite Forall_forall in *; auto).
    intros o d e st H. cbn [XmlOut_Model.put]. cbv zeta. rewrite is_key_push, H, atom_push_eq.
    change (begin_bag _) with (mk_fstate ((o ++ indents d) ++ cs "<dict>" ++ [LF]) (S d) (mk_element TBag None 0 :: mk_element TAtom (Some (VDict dd)) 0 :: e :: st)).
    assert (Hg : forall dd, (fix go (d : list (string * value)) : list (string * (fstate -> option fstate)) := match d with [] => [] | (k, w) :: d' => (k, put w) :: go d' end) dd =
      map (fun kw => (fst kw, put (snd kw))) dd).
    { clear. induction dd as [|[k w] dd IH]; cbn [map fst snd]; [reflexivity|]. now rewrite IH. }
    rewrite Hg, Cel_Proofs.sort_rows_map.
    rewrite (rows_ok (S d) (mk_element TAtom (Some (VDict dd)) 0 :: e :: st) (sort_rows dd) _ (Permutation_Forall (Cel_Proofs.sort_rows_perm dd) IH1) 0).
    unfold end_bag. cbn [fstack out fdepth pred]. change (is_tag TAtom 1 _) with true. cbn iota.
    cbn [body]. rewrite atom_pop_eq, app_nil_r, <- !app_assoc. rewrite Cel_Proofs.pairs_map, Cel_Proofs.sort_rows_map. reflexivity.
Qed.
Theorem serialize_text v : good v ->
  serialize_xml show type_text code_index v = Some (cs "<xml>" ++ [LF] ++ body 0 v ++ [LF] ++ cs "</xml>").
Proof.
  intros G. unfold serialize_xml. change begin_xml with (mk_fstate (cs "<xml>" ++ [LF]) 0 [mk_element TFormat None 0]).
  rewrite (put_text v G (cs "<xml>" ++ [LF]) 0 (mk_element TFormat None 0) [] eq_refl). unfold end_xml. cbn [out fdepth indents repeat app].
  rewrite <- !app_assoc. reflexivity.
Qed.
End Text.
