(** Property C112: the XML text of a value identifies it. *)
From Coq Require Import String Ascii ZArith Lia Permutation Sorted Floats.SpecFloat DecimalString DecimalZ.
From Verif Require Import Prelude Vm_Value Vm_Model Vm_Spec Entity_Model Cel_Model XmlOut_Model XmlOut_Spec XmlOut_Text XmlOut_Props.
From Verif Require Cel_Spec Cel_Proofs Cel_Props Entity_Props.
From Coq Require Import List.
Import ListNotations.
Local Open Scope nat_scope.
Ltac Zify.zify_post_hook ::= idtac.
Notation same := Cel_Spec.same.

(** *** strings of digits *)
Lemma dec_inj z z' : dec z = dec z' -> z = z'.
Proof.
  intros H. unfold dec, cs in H.
  assert (E : NilZero.string_of_int (Z.to_int z) = NilZero.string_of_int (Z.to_int z')).
  { rewrite <- (string_of_list_ascii_of_string (NilZero.string_of_int (Z.to_int z))), H. apply string_of_list_ascii_of_string. }
  assert (P : forall y, Z.to_int y <> Decimal.Pos Decimal.Nil /\ Z.to_int y <> Decimal.Neg Decimal.Nil).
  { intros y. pose proof (of_to y) as O. split; intros Q; rewrite Q in O; cbn in O; subst y; discriminate Q. }
  destruct (P z) as [P1 P2], (P z') as [P3 P4].
  assert (D : Some (Z.to_int z) = Some (Z.to_int z')) by (rewrite <- (NilZero.isi _ P1 P2), <- (NilZero.isi _ P3 P4); now rewrite E).
  injection D as D. rewrite <- (of_to z), <- (of_to z'). now rewrite D.
Qed.
Lemma is_integer_fun f z z' : is_integer f z -> is_integer f z' -> z = z'.
Proof.
  destruct f as [s|s| |s m e]; cbn; try contradiction; [congruence|].
  intros [[H1 ->]|[H1 H2]] [[H3 ->]|[H3 H4]]; try lia; try reflexivity.
  rewrite H2 in H4. assert (P : (0 < 2 ^ (- e))%Z) by (apply Z.pow_pos_nonneg; lia).
  apply Z.mul_reg_r in H4; [exact H4|]. lia.
Qed.
(** *** what is before a mark *)
Lemma mark_inj {A} (c : A) : forall a a' u u', ~ In c a -> ~ In c a' -> a ++ c :: u = a' ++ c :: u' -> a = a' /\ u = u'.
Proof.
  induction a as [|x a IH]; intros [|y a'] u u' Ha Ha' E; cbn in E.
  - injection E as ->. auto.
  - injection E as <- _. exfalso. apply Ha'. now left.
  - injection E as -> _. exfalso. apply Ha. now left.
  - injection E as -> E. cbn in Ha, Ha'. destruct (IH a' u u') as [-> ->]; tauto.
Qed.
(** *** the escaped strings *)
Import Entity_Props.
Lemma esc_inj c c' : byte c -> byte c' -> esc c = esc c' -> c = c'.
Proof.
  intros Hc Hc' E.
  assert (A : forallb (fun c => forallb (fun c' => negb (bytes_eqb (esc c) (esc c')) || (c =? c')%N) all_bytes) all_bytes = true) by (vm_compute; reflexivity).
  rewrite forallb_forall in A. specialize (A c (in_all_bytes c Hc)). rewrite forallb_forall in A. specialize (A c' (in_all_bytes c' Hc')).
  apply orb_true_iff in A. destruct A as [A|A]; [|now apply N.eqb_eq]. apply negb_true_iff in A.
  rewrite E in A. rewrite (proj2 (bytes_eqb_eq _ _) eq_refl) in A. discriminate.
Qed.
Lemma esc_prefix c c' r r' : byte c -> byte c' -> esc c ++ r = esc c' ++ r' -> c = c' /\ r = r'.
Proof.
  intros Hc Hc' E. destruct (esc_cases c Hc) as [(E1 & P1 & M1)|(n1 & E1 & _ & F1 & _)], (esc_cases c' Hc') as [(E2 & P2 & M2)|(n2 & E2 & _ & F2 & _)]; rewrite E1, E2 in E.
  - injection E as -> ->. auto.
  - injection E as -> _. exfalso. apply M1. now left.
  - injection E as <- _. exfalso. apply M2. now left.
  - cbn [app] in E. rewrite <- !app_assoc in E. injection E as E.
    assert (F : forall n, Forall name_byte n -> ~ In 59%N n).
    { intros n F H. rewrite Forall_forall in F. specialize (F _ H). unfold name_byte in F. lia. }
    apply mark_inj in E; [|auto..]. destruct E as [-> ->]. split; [|reflexivity]. apply esc_inj; auto. congruence.
Qed.
Lemma esc_all_inj : forall s s', Forall byte s -> Forall byte s' -> flat_map esc s = flat_map esc s' -> s = s'.
Proof.
  assert (N : forall c, byte c -> esc c <> []).
  { intros c Hc E. destruct (esc_cases c Hc) as [(E1 & _)|(n & E1 & _)]; congruence. }
  induction s as [|c s IH]; intros [|c' s'] F F' E; cbn [flat_map] in E.
  - reflexivity.
  - inversion F'; subst. destruct (esc c') eqn:Q; [|discriminate]. now apply N in Q.
  - inversion F; subst. destruct (esc c) eqn:Q; [|discriminate]. now apply N in Q.
  - inversion F; subst. inversion F'; subst. apply esc_prefix in E; [|assumption..]. destruct E as [-> E]. f_equal. auto.
Qed.
Lemma bs_inj s s' : bs s = bs s' -> s = s'.
Proof.
  revert s'. induction s as [|c s IH]; intros [|c' s'] E; cbn in E; try discriminate; [reflexivity|]. injection E as E1 E2.
  f_equal; [|auto]. rewrite <- (ascii_N_embedding c), <- (ascii_N_embedding c'). congruence.
Qed.
Lemma string_text_inj ci s s' : sorted_by_code ci -> cs (string_of (entity_escape ci (bs s))) = cs (string_of (entity_escape ci (bs s'))) -> s = s'.
Proof.
  intros Hci E. apply (f_equal bytes_of_text) in E. rewrite !cs_string_of in E by now apply escape_bytes.
  rewrite !(entity_escape_esc ci _ Hci) in E. apply bs_inj, esc_all_inj; [apply bs_bytes..|exact E].
Qed.
Definition lt_char : Ascii.ascii := "<"%char.
Lemma tidy_lt t : tidy t -> ~ In lt_char t.
Proof. intros F H. unfold tidy in F. rewrite Forall_forall in F. destruct (F _ H) as [Q _]. now apply Q. Qed.
Lemma entity_lt t : entity_text t -> ~ In 60%N t.
Proof.
  induction 1 as [|c t P M Ht IH|nm t Hn F Ht IH]; cbn; [tauto| |].
  - intros [->|H]; [|auto]. apply M. unfold markup. auto.
  - intros [H|H]; [lia|]. apply in_app_or in H. destruct H as [H|[H|H]]; [|lia|auto]. rewrite Forall_forall in F. specialize (F _ H). unfold name_byte in F. lia.
Qed.
Lemma escaped_lt ci s : sorted_by_code ci -> ~ In lt_char (cs (string_of (entity_escape ci (bs s)))).
Proof.
  intros Hci H. apply (in_map N_of_ascii) in H. fold (bytes_of_text (cs (string_of (entity_escape ci (bs s))))) in H.
  rewrite cs_string_of in H by now apply escape_bytes. revert H. apply entity_lt. apply C52_escape_is_plain_text; [exact Hci|apply bs_bytes].
Qed.
Lemma chars_inj s s' : cs s = cs s' -> s = s'.
Proof. intros E. rewrite <- (string_of_list_ascii_of_string s), <- (string_of_list_ascii_of_string s'). unfold cs in E. now rewrite E. Qed.

(** *** elements *)
Definition gt_char : Ascii.ascii := ">"%char.
Lemma tagged_inj t t' x x' r r' : ~ In gt_char (cs t) -> ~ In gt_char (cs t') -> ~ In lt_char x -> ~ In lt_char x' ->
  element_text t x ++ r = element_text t' x' ++ r' -> t = t' /\ x = x' /\ r = r'.
Proof.
  intros G G' L L' E. unfold element_text in E. change (cs "<") with [lt_char] in E. change (cs ">") with [gt_char] in E.
  change (cs "</") with (lt_char :: ["/"%char]) in E. rewrite <- !app_assoc in E. cbn [app] in E. injection E as E. 
  apply mark_inj in E; [|assumption..]. destruct E as [Et E]. apply chars_inj in Et. subst t'. split; [reflexivity|].
  apply mark_inj in E; [|assumption..]. destruct E as [-> E]. split; [reflexivity|].
  injection E as E. apply app_inv_head in E. now injection E.
Qed.

Section Inj.
Variable show : spec_float -> list Ascii.ascii.
Variable type_text : value -> list Ascii.ascii.
Variable code_index : list entry.
Hypothesis Hci : sorted_by_code code_index.
Notation body := (body show type_text code_index).
Notation clean := (clean show type_text).

(** the first tag of a value, and what follows it *)
Definition opening (v : value) : list Ascii.ascii :=
  match v with
  | VStr _ => cs "string" | VName _ => cs "ident" | VBool _ => cs "bool" | VNum _ => cs "integer" | VEmpty => cs "empty/"
  | VArr _ => cs "array" | VDict _ => cs "dict" | _ => cs "xml_unknown"
  end.
Definition content (d : nat) (v : value) : list Ascii.ascii :=
  match v with
  | VArr l => [LF] ++ flat_map (fun w => indents (S d) ++ body (S d) w ++ [LF]) l ++ indents d ++ cs "</array>"
  | VDict dd => [LF] ++ flat_map (row_text (S d)) (map (fun kw => (fst kw, body (S d) (snd kw))) (sort_rows dd)) ++ indents d ++ cs "</dict>"
  | VStr s => cs (string_of (entity_escape code_index (bs s))) ++ cs "</string>"
  | VName n => cs n ++ cs "</ident>"
  | VBool b => cs (if b then "true" else "false") ++ cs "</bool>"
  | VNum f => match to_int64 f with Some (z, _) => dec z ++ cs "</integer>" | None => [] end
  | VEmpty => []
  | _ => type_text v ++ cs "</xml_unknown>"
  end.
Lemma num_text f z : is_integer f z -> fits64 f -> to_int64 f = Some (z, true).
Proof.
  intros H F. destruct (to_int64_fits f F) as (z' & b & E). pose proof (to_int64_spec f z' b E) as Sp. destruct b.
  - rewrite E. now rewrite (is_integer_fun f z' z Sp H).
  - now apply Sp in H.
Qed.
Lemma exact_num f : exact (VNum f) -> exists z, is_integer f z /\ f = f_of_Z z.
Proof. intros X. inversion X; [eauto|contradiction]. Qed.
Lemma clean_num f : clean (VNum f) -> fits64 f.
Proof. intros X. inversion X; [assumption|contradiction]. Qed.
Lemma body_opening d v : clean v -> exact v -> body d v = lt_char :: opening v ++ gt_char :: content d v.
Proof.
  intros C X. destruct v as [f|b|s|n| |l|dd|n|k]; try reflexivity.
  - destruct (exact_num f X) as (z & Hz & _). pose proof (clean_num f C) as F.
    cbn [XmlOut_Text.body leaf_text content opening]. rewrite (num_text _ z Hz F). reflexivity.
  - cbn [XmlOut_Text.body content opening]. rewrite Cel_Proofs.pairs_map, (Cel_Proofs.sort_rows_map (body (S d))). reflexivity.
Qed.
Lemma opening_gt v : ~ In gt_char (opening v).
Proof. destruct v; cbn; intros H; repeat (destruct H as [H|H]; [discriminate H|]); exact H. Qed.

Definition injective_at (v : value) : Prop := forall w, clean w -> exact w -> forall d r r', body d v ++ r = body d w ++ r' -> same v w /\ r = r'.
Lemma indents_split a b x y r r' : x <> TAB -> y <> TAB -> indents a ++ x :: r = indents b ++ y :: r' -> a = b.
Proof.
  intros Hx Hy. revert b. induction a as [|a IH]; intros [|b] E; cbn in E; [reflexivity| | |].
  - injection E as -> _. now contradiction Hx.
  - injection E as <- _. now contradiction Hy.
  - injection E as E. f_equal. auto.
Qed.
Lemma items_inj d : forall l, Forall injective_at l -> forall l', Forall clean l -> Forall exact l -> Forall clean l' -> Forall exact l' -> forall u u',
  flat_map (fun w => indents (S d) ++ body (S d) w ++ [LF]) l ++ indents d ++ lt_char :: u =
  flat_map (fun w => indents (S d) ++ body (S d) w ++ [LF]) l' ++ indents d ++ lt_char :: u' -> Forall2 same l l' /\ u = u'.
Proof.
  induction 1 as [|v l Hv Hl IH]; intros [|v' l'] C X C' X' u u' E; cbn [flat_map] in E.
  - cbn [app] in E. apply app_inv_head in E. injection E as ->. split; [constructor|reflexivity].
  - exfalso. inversion C'; subst. inversion X'; subst. rewrite (body_opening (S d) v') in E by assumption. rewrite <- !app_assoc in E. cbn [app] in E.
    apply indents_split in E; [lia|discriminate..].
  - exfalso. inversion C; subst. inversion X; subst. rewrite (body_opening (S d) v) in E by assumption. rewrite <- !app_assoc in E. cbn [app] in E.
    apply indents_split in E; [lia|discriminate..].
  - inversion C; subst. inversion X; subst. inversion C'; subst. inversion X'; subst. rewrite <- !app_assoc in E. apply app_inv_head in E.
    apply Hv in E; [|assumption..]. destruct E as [Sv E]. cbn [app] in E. injection E as E. apply IH in E; [|assumption..].
    destruct E as [F ->]. split; [constructor; assumption|reflexivity].
Qed.
Lemma rows_inj d : forall l, Forall (fun kv => injective_at (snd kv)) l -> forall l',
  Forall (fun kv => tidy (cs (fst kv)) /\ clean (snd kv)) l -> Forall (fun kv => exact (snd kv)) l ->
  Forall (fun kv => tidy (cs (fst kv)) /\ clean (snd kv)) l' -> Forall (fun kv => exact (snd kv)) l' -> forall u u',
  flat_map (row_text (S d)) (map (fun kw => (fst kw, body (S d) (snd kw))) l) ++ indents d ++ lt_char :: u =
  flat_map (row_text (S d)) (map (fun kw => (fst kw, body (S d) (snd kw))) l') ++ indents d ++ lt_char :: u' ->
  Forall2 (fun x y => fst x = fst y /\ same (snd x) (snd y)) l l' /\ u = u'.
Proof.
  induction 1 as [|[k v] l Hv Hl IH]; intros [|[k' v'] l'] C X C' X' u u' E; cbn [flat_map map fst snd] in E.
  - cbn [app] in E. apply app_inv_head in E. injection E as ->. split; [constructor|reflexivity].
  - exfalso. unfold row_text at 1, element_text in E. rewrite <- !app_assoc in E. cbn [app cs list_ascii_of_string] in E.
    apply indents_split in E; [lia|discriminate..].
  - exfalso. unfold row_text at 1, element_text in E. rewrite <- !app_assoc in E. cbn [app cs list_ascii_of_string] in E.
    apply indents_split in E; [lia|discriminate..].
  - inversion C as [|? ? [T C1] C2]; subst. inversion X; subst. inversion C' as [|? ? [T' C1'] C2']; subst. inversion X'; subst. cbn [fst snd] in *.
    set (L1 := flat_map _ _) in E. set (L2 := flat_map _ _) in E. unfold row_text in E. cbn [fst snd] in E. rewrite <- !app_assoc in E. apply app_inv_head in E.
    assert (G : ~ In gt_char (cs "key")) by (cbn; intros [Q|[Q|[Q|[]]]]; discriminate Q).
    apply tagged_inj in E; [|assumption|assumption|now apply tidy_lt..]. destruct E as (_ & Ek & E). apply chars_inj in Ek. subst k'.
    cbn [app] in E. injection E as E. apply app_inv_head in E.
    apply Hv in E; [|assumption..]. destruct E as [Sv E]. cbn [app] in E. injection E as E. apply IH in E; [|assumption..].
    destruct E as [F ->]. split; [constructor; [split; [reflexivity|assumption]|assumption]|reflexivity].
Qed.
Lemma opening_inj v w d r r' : clean v -> exact v -> clean w -> exact w -> body d v ++ r = body d w ++ r' ->
  opening v = opening w /\ content d v ++ r = content d w ++ r'.
Proof.
  intros C X C' X' E. rewrite (body_opening d _ C X), (body_opening d _ C' X') in E. rewrite <- !app_comm_cons in E. injection E as E.
  rewrite <- !app_assoc, <- !app_comm_cons in E. apply mark_inj in E; [exact E|apply opening_gt..].
Qed.
Lemma close_inj t x x' r r' : ~ In lt_char x -> ~ In lt_char x' -> x ++ (lt_char :: t) ++ r = x' ++ (lt_char :: t) ++ r' -> x = x' /\ r = r'.
Proof.
  intros L L' E. rewrite <- !app_comm_cons in E. apply mark_inj in E; [|assumption..]. destruct E as [-> E]. split; [reflexivity|].
  now apply app_inv_head in E.
Qed.
Lemma bool_lt (b : bool) : ~ In lt_char (cs (if b then "true"%string else "false"%string)).
Proof. destruct b; cbn; intros H; repeat (destruct H as [H|H]; [discriminate H|]); exact H. Qed.
Lemma body_inj v : clean v -> exact v -> injective_at v.
Proof.
  induction v as [f|b|s|n| |l IH|dd IH|n|k] using value_ind'; intros C X w C' X' d r r' E;
    apply opening_inj in E; try assumption; destruct E as [O E];
    destruct w as [f'|b'|s'|n'| |l'|dd'|n'|k']; try discriminate O; clear O; cbn [content] in E; rewrite <- ?app_assoc in E.
  - destruct (exact_num f X) as (z & Hz & Hf), (exact_num f' X') as (z' & Hz' & Hf'). pose proof (clean_num f C) as F. pose proof (clean_num f' C') as F'.
    rewrite (num_text f z), (num_text f' z') in E by assumption. rewrite <- !app_assoc in E.
    apply (close_inj (cs "/integer>") (dec z) (dec z') r r') in E; [|apply tidy_lt, dec_tidy..]. destruct E as [Ed E]. apply dec_inj in Ed. subst r' z'. rewrite Hf, Hf'.
    split; [now apply Cel_Spec.same_leaf|reflexivity].
  - apply (close_inj (cs "/bool>") _ _ r r') in E; [|apply bool_lt..].
    destruct E as [Eb E]. subst r'. split; [|reflexivity]. destruct b, b'; try discriminate Eb; now apply Cel_Spec.same_leaf.
  - apply (close_inj (cs "/string>") _ _ r r') in E; [|now apply escaped_lt..].
    destruct E as [Es E]. subst r'. apply string_text_inj in Es; [|exact Hci]. subst s'. split; [now apply Cel_Spec.same_leaf|reflexivity].
  - inversion C as [| | |? T| |? Q| |]; [|contradiction]. inversion C' as [| | |? T'| |? Q| |]; [|contradiction]. subst.
    apply (close_inj (cs "/ident>") _ _ r r') in E; [|now apply tidy_lt..].
    destruct E as [Es E]. subst r'. apply chars_inj in Es. subst n'. split; [now apply Cel_Spec.same_leaf|reflexivity].
  - cbn [app] in E. subst r'. split; [now apply Cel_Spec.same_leaf|reflexivity].
  - inversion C as [| | | | |? Q|? Cl|]; [contradiction|]. inversion C' as [| | | | |? Q|? Cl'|]; [contradiction|].
    inversion X as [|? Q|? Xl|]; [contradiction|]. inversion X' as [|? Q|? Xl'|]; [contradiction|]. subst.
    apply app_inv_head in E.
    apply (items_inj d l) with (u := cs "/array>" ++ r) (u' := cs "/array>" ++ r') in E; try assumption; [|clear - IH Cl Xl; rewrite Forall_forall in *; auto].
    destruct E as [F E]. apply app_inv_head in E. subst r'.
    split; [now apply Cel_Spec.same_arr|reflexivity].
  - inversion C as [| | | | |? Q| |? N Cl]; [contradiction|]. inversion C' as [| | | | |? Q| |? N' Cl']; [contradiction|].
    inversion X as [|? Q| |? Xl]; [contradiction|]. inversion X' as [|? Q| |? Xl']; [contradiction|]. subst.
    apply app_inv_head in E.
    pose proof (Cel_Proofs.sort_rows_perm dd) as P. pose proof (Cel_Proofs.sort_rows_perm dd') as P'.
    assert (HI : Forall (fun kv => injective_at (snd kv)) dd).
    { clear - IH Cl Xl. rewrite Forall_forall in *. intros x Hx. apply IH; auto. apply (Cl x Hx). }
    apply (rows_inj d (sort_rows dd)) with (u := cs "/dict>" ++ r) (u' := cs "/dict>" ++ r') in E; 
      [|first [exact (Permutation_Forall P HI) | exact (Permutation_Forall P Cl) | exact (Permutation_Forall P Xl) | exact (Permutation_Forall P' Cl') | exact (Permutation_Forall P' Xl')]..].
    destruct E as [F E]. apply app_inv_head in E. subst r'. split; [|reflexivity].
    assert (F' : Forall2 (fun x y => fst y = fst x /\ same (snd y) (snd x)) (sort_rows dd') (sort_rows dd)) by (apply (Cel_Props.Forall2_swap _ _ _ F)).
    destruct (Permutation_Forall2 (Permutation_sym P') F') as (d1 & Q & F1). apply (Cel_Spec.same_dict dd d1).
    + now rewrite P.
    + apply Cel_Props.Forall2_swap in F1. exact F1.
  - inversion X as [|? Q| |]; contradiction.
  - inversion X as [|? Q| |]; contradiction.
  - inversion X as [|? Q| |]; contradiction.
  - inversion X as [|? Q| |]; contradiction.
Qed.

(** Values that are the same have one text, in whatever order their dictionaries were filled *)
Lemma same_body v : forall w d, clean v -> same v w -> body d v = body d w.
Proof.
  induction v as [f|b|s|n| |l IH|dd IH|n|k] using value_ind'; intros w d Hp H; inversion H as [l1 l2 HF|d0 d1 d' HP HF|]; subst; try reflexivity; try contradiction.
  - inversion Hp as [| | | | |? Q|? Hl|]; subst; [contradiction|]. cbn [XmlOut_Text.body]. f_equal. f_equal. f_equal. clear H Hp.
    induction HF as [|v v' l l' Hv HF IHF]; [reflexivity|]. inversion IH; subst; inversion Hl; subst; cbn [flat_map]; f_equal; auto. f_equal. f_equal. auto.
  - inversion Hp as [| | | | |? Q| |? N Hd]; subst; [contradiction|]. cbn [XmlOut_Text.body]. f_equal. f_equal. f_equal. f_equal. rewrite !Cel_Proofs.pairs_map.
    rewrite (Cel_Props.sort_perm _ (map (fun kw => (fst kw, body (S d) (snd kw))) d1)).
    + f_equal. assert (IH' := Permutation_Forall HP IH). assert (Hd' := Permutation_Forall HP Hd). clear - HF IH' Hd'.
      induction HF as [|x y d1 d' [E1 S1] HF IHF]; inversion IH'; subst; inversion Hd' as [|? ? [T C] Hd'']; subst; cbn [map]; f_equal; auto. rewrite E1. f_equal. auto.
    + now apply Permutation_map.
    + rewrite map_map. exact N.
Qed.
End Inj.

(** C112: of two values made of 64 bit integers, strings, names, booleans, empty, arrays and dictionaries
    the texts are equal exactly when the values are. *)
Theorem C112_text_identifies_partial show type_text code_index v w : sorted_by_code code_index ->
  clean show type_text v -> exact v -> clean show type_text w -> exact w ->
  (serialize_xml show type_text code_index v = serialize_xml show type_text code_index w <-> same v w).
Proof.
  intros Hci C X C' X'. rewrite !serialize_text by now apply (clean_good show type_text). split.
  - intros E. injection E as E. now apply (body_inj show type_text code_index Hci v C X) in E.
  - intros E. now rewrite (same_body show type_text code_index v w 0 C E).
Qed.
(** Values that are the same, with distinct keys, have one text, whatever they are made of. *)
Theorem C112_canonical show type_text code_index v w : clean show type_text v -> clean show type_text w -> same v w ->
  serialize_xml show type_text code_index v = serialize_xml show type_text code_index w.
Proof. intros C C' E. rewrite !serialize_text by now apply (clean_good show type_text). now rewrite (same_body show type_text code_index v w 0 C E). Qed.

(** *** where it fails *)
(** A number that does not convert to a 64 bit integer is converted all the same, which is undefined *)
Theorem C111_numbers_refuted show type_text code_index f : ~ fits64 f -> serialize_xml show type_text code_index (VNum f) = None.
Proof.
  intros H. assert (N : to_int64 f = None).
  { unfold to_int64. destruct (f_trunc f) as [z|] eqn:E; [|reflexivity]. destruct (_ && _)%bool eqn:B; [|reflexivity].
    exfalso. apply H. exists z. split; [exact E|]. apply andb_true_iff in B. rewrite Z.leb_le, Z.ltb_lt in B. lia. }
  unfold serialize_xml. cbn [put]. unfold put_atom. cbv zeta. change begin_xml with (mk_fstate (cs "<xml>" ++ [LF]) 0 [mk_element TFormat None 0]).
  change (is_key _) with false. cbn [leaf_text]. rewrite N. reflexivity.
Qed.
Example C111_numbers_ex : ~ fits64 (S754_infinity false) /\ ~ fits64 S754_nan /\ ~ fits64 (f_of_Z (2 ^ 63)).
Proof.
  split; [|split]; intros (z & E & H); [discriminate E|discriminate E|].
  vm_compute in E. injection E as <-. destruct H as [_ H]. vm_compute in H. discriminate H.
Qed.
(** A name is not escaped: here the text is not well-formed and the library's parser refuses it *)
Theorem C111_names_refuted show type_text code_index :
  serialize_xml show type_text code_index (VName "<") = Some (cs "<xml>" ++ [LF] ++ cs "<ident><</ident>" ++ [LF] ++ cs "</xml>") /\
  ~ exists f s', Xml_Model.parse_content [] (fun _ _ => true) (fun _ _ => Xml_Model.Echo) f
     (bytes_of_text (cs "<xml>" ++ [LF] ++ cs "<ident><</ident>" ++ [LF] ++ cs "</xml>")) Xml_Model.fresh = Xml_Model.Ok tt s'.
Proof.
  split; [reflexivity|]. intros (f & s' & H). destruct (Nat.le_gt_cases f 30) as [L|L].
  - do 31 (destruct f as [|f]; [vm_compute in H; discriminate H|]). lia.
  - replace f with (30 + (f - 30)) in H by lia. generalize dependent (f - 30). intros n H. vm_compute in H. discriminate H.
Qed.
(** Numbers that are not integers are told apart only as far as they are printed, other values not at all *)
Theorem C112_doubles_refuted show type_text code_index f g : (forall z, ~ is_integer f z) -> (forall z, ~ is_integer g z) ->
  fits64 f -> fits64 g -> show f = show g -> serialize_xml show type_text code_index (VNum f) = serialize_xml show type_text code_index (VNum g).
Proof.
  intros Hf Hg Ff Fg E. destruct (to_int64_fits f Ff) as (zf & bf & Ef), (to_int64_fits g Fg) as (zg & bg & Eg).
  pose proof (to_int64_spec _ _ _ Ef) as Sf. pose proof (to_int64_spec _ _ _ Eg) as Sg. destruct bf; [now apply Hf in Sf|]. destruct bg; [now apply Hg in Sg|].
  rewrite !serialize_text by (apply g_leaf; cbn; congruence). cbn [XmlOut_Text.body leaf_text]. now rewrite Ef, Eg, E.
Qed.
Theorem C112_other_values_refuted show type_text code_index v w :
  match v with VSize _ | VOther _ => True | _ => False end -> match w with VSize _ | VOther _ => True | _ => False end ->
  type_text v = type_text w -> serialize_xml show type_text code_index v = serialize_xml show type_text code_index w.
Proof. intros Hv Hw E. rewrite !serialize_text by (apply g_leaf; now destruct v, w). destruct v, w; try contradiction; cbn [XmlOut_Text.body leaf_text]; now rewrite E. Qed.

(** A value with all of it *)
Definition sample : value := VDict [("b", VArr [VNum (f_of_Z 3); VStr "<&>"; VName "x"; VArr []]); ("a", VBool true); ("c", VEmpty)]%string.
Example sample_text : serialize_xml (fun _ => []) (fun _ => []) the_codes sample = Some (cs (String.concat (String LF "") [
  "<xml>"; "<dict>"; String TAB "<key>a</key>"; String TAB "<bool>true</bool>"; String TAB "<key>b</key>"; String TAB "<array>";
  String TAB (String TAB "<integer>3</integer>"); String TAB (String TAB "<string>&lt;&amp;&gt;</string>"); String TAB (String TAB "<ident>x</ident>");
  String TAB (String TAB "<array>"); String TAB (String TAB "</array>"); String TAB "</array>"; String TAB "<key>c</key>"; String TAB "<empty/>"; "</dict>"; "</xml>"]%string)).
Proof. vm_compute. reflexivity. Qed.
Example sample_clean : clean (fun _ => []) (fun _ => []) sample /\ exact sample.
Proof.
  assert (I3 : is_integer (f_of_Z 3) 3) by (vm_compute; right; split; reflexivity).
  split.
  - apply cl_dict; [repeat constructor; cbn; intuition discriminate|].
    assert (T : forall k : string, In k ["a"; "b"; "c"; "x"]%string -> tidy (cs k)).
    { intros k [<-|[<-|[<-|[<-|[]]]]]; repeat constructor; discriminate. }
    constructor; [|constructor; [|constructor; [|constructor]]]; (split; [apply T; cbn; tauto|]); cbn [snd].
    + apply cl_arr. constructor; [|constructor; [|constructor; [|constructor; [|constructor]]]].
      * apply cl_num; [exists 3%Z; split; [vm_compute; reflexivity|lia]|constructor].
      * apply cl_str.
      * apply cl_name, T. cbn. tauto.
      * apply cl_arr. constructor.
    + apply cl_bool.
    + apply cl_nothing.
  - apply ex_dict. constructor; [|constructor; [|constructor; [|constructor]]]; cbn [snd].
    + apply ex_arr. constructor; [now apply ex_num with 3%Z|constructor; [now apply ex_leaf|constructor; [now apply ex_leaf|constructor; [|constructor]]]].
      apply ex_arr. constructor.
    + now apply ex_leaf.
    + now apply ex_leaf.
Qed.
