(** Properties C52-C54: xml_escape / xml_unescape (entity_escape, entity_unescape). *)
From Verif Require Import Prelude Search_Model Search_Props Unicode_Model Unicode_Spec Entity_Model.
From Coq Require Import Permutation String.
From Coq Require Import List.
Local Open Scope N_scope.
Ltac Zify.zify_post_hook ::= idtac.

(** *** Specification *)

(** The indexes are the table, in some order that is sorted by the key. *)
Definition sorted_by_code (idx : list entry) : Prop := Permutation table idx /\ Sorted N.ltb snd idx.
Definition sorted_by_name (idx : list entry) : Prop := Permutation table idx /\ Sorted bytes_ltb fst idx.

Definition byte (c : N) : Prop := c < 256.
(** ASCII text a C string can hold: bytes 1 .. 127 *)
Definition ascii (c : N) : Prop := 0 < c < 128.
(** printable ASCII *)
Definition printable (c : N) : Prop := 0x20 <= c <= 0x7E.
(** Characters with a meaning in markup: the ampersand, angle brackets and quotes *)
Definition markup (c : N) : Prop := c = 38 \/ c = 60 \/ c = 62 \/ c = 34 \/ c = 39.

(** Text in which an ampersand only occurs as the first byte of an entity reference
    "&" name ";" whose name has letters, digits and '#' only. *)
Definition name_byte (c : N) : Prop :=
  (48 <= c <= 57) \/ (65 <= c <= 90) \/ (97 <= c <= 122) \/ c = 35.
Inductive entity_text : list N -> Prop :=
| et_nil : entity_text []
| et_char c l : printable c -> ~ markup c -> entity_text l -> entity_text (c :: l)
| et_ref name l : name <> [] -> Forall name_byte name -> entity_text l ->
    entity_text (38 :: name ++ 59 :: l).

(** *** The binary searches find exactly the table's entries *)
Lemma bytes_eqb_eq a b : bytes_eqb a b = true <-> a = b.
Proof.
  revert b. induction a as [|x a IH]; intros [|y b]; simpl; split; intros H; try discriminate; auto.
  - apply andb_true_iff in H. destruct H as [H1 H2]. apply N.eqb_eq in H1. apply IH in H2. congruence.
  - injection H as -> ->. rewrite N.eqb_refl. apply IH. reflexivity.
Qed.
Lemma bytes_ltb_irrefl a : bytes_ltb a a = false.
Proof. induction a as [|x a IH]; simpl; [reflexivity|]. now rewrite N.ltb_irrefl. Qed.
Lemma bytes_tri a b : bytes_ltb a b = false -> bytes_ltb b a = false -> a = b.
Proof.
  revert b. induction a as [|x a IH]; intros [|y b]; simpl; intros H1 H2; try discriminate; auto.
  destruct (N.ltb_spec x y); [discriminate|]. destruct (N.ltb_spec y x); [discriminate|].
  f_equal; [lia|]. apply IH; assumption.
Qed.
Lemma bytes_ltb_trans a b d : bytes_ltb a b = true -> bytes_ltb b d = true -> bytes_ltb a d = true.
Proof.
  revert b d. induction a as [|x a IH]; intros [|y b] [|z d]; simpl; try discriminate; auto.
  destruct (N.ltb_spec x y), (N.ltb_spec y z), (N.ltb_spec x z), (N.ltb_spec y x), (N.ltb_spec z y),
    (N.ltb_spec z x); try discriminate; try lia; auto.
  intros H5 H6. eapply IH; eassumption.
Qed.
Lemma bytes_swo : strict_weak_order bytes_ltb.
Proof.
  split; [exact bytes_ltb_irrefl|]. split; [exact bytes_ltb_trans|].
  intros a b d H1 H2 H3 H4. rewrite (bytes_tri a b H1 H2), (bytes_tri b d H3 H4).
  apply bytes_ltb_irrefl.
Qed.
Lemma N_swo : strict_weak_order N.ltb.
Proof.
  split; [|split]; intros; repeat match goal with
    | H : (_ <? _) = true |- _ => apply N.ltb_lt in H
    | H : (_ <? _) = false |- _ => apply N.ltb_ge in H end;
  try (apply N.ltb_irrefl); try (apply N.ltb_lt; lia); apply N.ltb_ge; lia.
Qed.

Section Index.
Context {K : Type} (ltb eqb : K -> K -> bool) (key : entry -> K).
Hypothesis eqb_eq : forall a b, eqb a b = true <-> a = b.
Hypothesis swo : strict_weak_order ltb.
Hypothesis tri : forall a b, ltb a b = false -> ltb b a = false -> a = b.

Lemma find_unique (x : K) (e : entry) (l : list entry) :
  NoDup (map key l) -> In e l -> key e = x -> find (fun e => eqb (key e) x) l = Some e.
Proof.
  intros ND Hin Hk. induction l as [|a l IH]; [contradiction|]. simpl in *.
  inversion ND as [|? ? Hn ND']. destruct Hin as [->|Hin].
  - rewrite (proj2 (eqb_eq (key e) x) Hk). reflexivity.
  - destruct (eqb (key a) x) eqn:E.
    + apply eqb_eq in E. exfalso. apply Hn. rewrite E, <- Hk. apply in_map. exact Hin.
    + apply IH; assumption.
Qed.
Lemma find_absent (x : K) (l : list entry) :
  (forall e, In e l -> key e <> x) -> find (fun e => eqb (key e) x) l = None.
Proof.
  intros H. destruct (find (fun e => eqb (key e) x) l) as [e|] eqn:E; [|reflexivity].
  apply find_some in E. destruct E as [H1 H2]. apply eqb_eq in H2. exfalso. exact (H e H1 H2).
Qed.

Lemma index_find (tbl idx : list entry) (x : K) :
  NoDup (map key tbl) -> Permutation tbl idx -> Sorted ltb key idx ->
  match lower_bound ltb key idx x with
  | Some (i, _) => match nth_error idx i with
                   | Some e => if eqb (key e) x then Some e else None
                   | None => None
                   end
  | None => None
  end = find (fun e => eqb (key e) x) tbl.
Proof.
  intros ND HP HS.
  destruct (C28_searches_of_sorted_ranges ltb key idx x swo HS)
    as (lo & hi & k1 & k2 & k3 & -> & _ & _ & _ & _ & _ & Hlh & Hpos).
  destruct (nth_error idx lo) as [e|] eqn:E.
  - destruct (eqb (key e) x) eqn:Ek.
    + symmetry. apply find_unique; [exact ND| |apply eqb_eq; exact Ek].
      apply (Permutation_in _ (Permutation_sym HP)). eapply nth_error_In; eassumption.
    + symmetry. apply find_absent. intros e' Hin Hk.
      apply (Permutation_in _ HP) in Hin. apply In_nth_error in Hin. destruct Hin as (j & Hj).
      destruct (Hpos j e' Hj) as (_ & _ & H3). destruct swo as (Hir & _).
      destruct H3 as [_ H3]. specialize (H3 (conj (eq_trans (f_equal (fun z => ltb z x) Hk) (Hir x))
        (eq_trans (f_equal (ltb x) Hk) (Hir x)))).
      destruct (Hpos lo e E) as (_ & _ & H4). destruct H4 as [H4 _]. specialize (H4 ltac:(lia)).
      rewrite (tri _ _ (proj1 H4) (proj2 H4)) in Ek. rewrite (proj2 (eqb_eq x x) eq_refl) in Ek.
      discriminate.
  - symmetry. apply find_absent. intros e' Hin Hk.
    apply (Permutation_in _ HP) in Hin. apply In_nth_error in Hin. destruct Hin as (j & Hj).
    destruct (Hpos j e' Hj) as (_ & _ & H3). destruct swo as (Hir & _).
    destruct H3 as [_ H3]. specialize (H3 (conj (eq_trans (f_equal (fun z => ltb z x) Hk) (Hir x))
        (eq_trans (f_equal (ltb x) Hk) (Hir x)))).
    apply nth_error_None in E. lia.
Qed.
End Index.

Fixpoint nodupb {K} (eqb : K -> K -> bool) (l : list K) : bool :=
  match l with [] => true | x :: l' => negb (existsb (eqb x) l') && nodupb eqb l' end.
Lemma nodupb_NoDup {K} (eqb : K -> K -> bool) (l : list K) :
  (forall a b, eqb a b = true <-> a = b) -> nodupb eqb l = true -> NoDup l.
Proof.
  intros He. induction l as [|x l IH]; simpl; intros H; [constructor|].
  apply andb_true_iff in H. destruct H as [H1 H2]. constructor; [|auto].
  intros Hin. apply negb_true_iff in H1. enough (existsb (eqb x) l = true) by congruence.
  apply existsb_exists. exists x. split; [exact Hin|]. apply He. reflexivity.
Qed.

Definition code_find (c : N) : option entry := find (fun e => snd e =? c) table.
Definition name_find (n : list N) : option entry := find (fun e => bytes_eqb (fst e) n) table.

Lemma code_index_find ci c : sorted_by_code ci -> code_point_index_find ci c = code_find c.
Proof.
  intros (HP & HS). unfold code_point_index_find, code_find.
  apply (index_find N.ltb N.eqb snd N.eqb_eq N_swo); [|apply (nodupb_NoDup N.eqb); [exact N.eqb_eq|vm_compute; reflexivity]|exact HP|exact HS].
  intros a b H1 H2. apply N.ltb_ge in H1, H2. lia.
Qed.
Lemma name_index_find ni n : sorted_by_name ni -> entity_name_index_find ni n = name_find n.
Proof.
  intros (HP & HS). unfold entity_name_index_find, name_find.
  apply (index_find bytes_ltb bytes_eqb fst bytes_eqb_eq bytes_swo bytes_tri); [apply (nodupb_NoDup bytes_eqb); [exact bytes_eqb_eq|vm_compute; reflexivity]|exact HP|exact HS].
Qed.

(** *** Facts about the 256 bytes *)
Definition all_bytes : list N := map N.of_nat (seq 0 256).
Lemma in_all_bytes c : byte c -> In c all_bytes.
Proof.
  intros H. unfold byte in H. apply in_map_iff. exists (N.to_nat c). split; [lia|]. apply in_seq. lia.
Qed.
Definition esc (c : N) : list N :=
  match code_find c with
  | Some e => 38 :: fst e ++ [59]
  | None =>
    if needs_escape c then
      [38; 35; 120] ++ [hex_digit (N.land (N.shiftr c 4) 15); hex_digit (N.land c 15)] ++ [59]
    else [c]
  end.
Lemma escape_byte_esc ci c : sorted_by_code ci -> escape_byte ci c = esc c.
Proof. intros H. unfold escape_byte, esc. now rewrite (code_index_find ci c H). Qed.
Lemma entity_escape_esc ci s : sorted_by_code ci -> entity_escape ci s = flat_map esc s.
Proof.
  intros H. unfold entity_escape. induction s as [|c s IH]; [reflexivity|]. simpl.
  now rewrite IH, escape_byte_esc.
Qed.

(** either [esc c] is [c] itself, not markup, or it is a reference [&name;] *)
Definition name_byteb (c : N) : bool :=
  ((48 <=? c) && (c <=? 57)) || ((65 <=? c) && (c <=? 90)) || ((97 <=? c) && (c <=? 122)) || (c =? 35).
Definition esc_plain (c : N) : bool :=
  bytes_eqb (esc c) [c] && (0x20 <=? c) && (c <=? 0x7E) &&
  negb (c =? 38) && negb (c =? 60) && negb (c =? 62) && negb (c =? 34) && negb (c =? 39).
Definition middle (l : list N) : list N := removelast (tl l).
Definition esc_ref (c : N) : bool :=
  bytes_eqb (esc c) (38 :: middle (esc c) ++ [59]) &&
  forallb name_byteb (middle (esc c)) && negb (bytes_eqb (middle (esc c)) []).
Lemma name_byteb_ok c : name_byteb c = true -> name_byte c.
Proof.
  unfold name_byteb, name_byte. rewrite !orb_true_iff, !andb_true_iff, !N.leb_le, N.eqb_eq. lia.
Qed.
Lemma esc_cases c : byte c ->
  (esc c = [c] /\ printable c /\ ~ markup c) \/
  (exists name, esc c = 38 :: name ++ [59] /\ name <> [] /\ Forall name_byte name /\
     needs_escape c || match code_find c with Some _ => true | None => false end = true).
Proof.
  intros H.
  assert (Hok : esc_plain c || (esc_ref c &&
     (needs_escape c || match code_find c with Some _ => true | None => false end)) = true).
  { assert (A : forallb (fun c => esc_plain c || (esc_ref c &&
     (needs_escape c || match code_find c with Some _ => true | None => false end))) all_bytes = true)
      by (vm_compute; reflexivity).
    rewrite forallb_forall in A. apply A, in_all_bytes, H. }
  apply orb_true_iff in Hok. destruct Hok as [Hok|Hok].
  - left. unfold esc_plain in Hok.
    rewrite !andb_true_iff, !negb_true_iff, !N.eqb_neq, bytes_eqb_eq, !N.leb_le in Hok.
    destruct Hok as (((((((A0 & A1) & A2) & A3) & A4) & A5) & A6) & A7).
    unfold printable, markup. split; [exact A0|]. split; [lia|].
    intros [M|[M|[M|[M|M]]]]; congruence.
  - right. apply andb_true_iff in Hok. destruct Hok as [Hok Hn]. unfold esc_ref in Hok.
    rewrite !andb_true_iff, negb_true_iff, bytes_eqb_eq in Hok.
    destruct Hok as ((A1 & A2) & A3). exists (middle (esc c)). split; [exact A1|]. split.
    + intros E. rewrite E in A3. discriminate.
    + split; [|exact Hn]. apply Forall_forall. intros x Hx. rewrite forallb_forall in A2.
      apply name_byteb_ok, A2, Hx.
Qed.

(** *** C52. entity_escape produces plain text *)
Theorem C52_escape_is_plain_text :
  forall (ci : list entry) (s : list N), sorted_by_code ci -> Forall byte s ->
    entity_text (entity_escape ci s) /\ Forall printable (entity_escape ci s).
Proof.
  intros ci s Hci Hs. rewrite (entity_escape_esc ci s Hci). clear Hci.
  induction Hs as [|c s Hc Hs (IH1 & IH2)]; simpl; [split; constructor|].
  destruct (esc_cases c Hc) as [(E & P & M)|(name & E & Hne & Hn & _)]; rewrite E.
  - simpl. split; [constructor; assumption|constructor; assumption].
  - split.
    + rewrite <- app_comm_cons, <- app_assoc. simpl. now constructor.
    + apply Forall_app. split; [|exact IH2]. constructor; [unfold printable; lia|].
      apply Forall_app. split; [|constructor; [unfold printable; lia|constructor]].
      eapply Forall_impl; [|exact Hn]. intros x Hx. unfold name_byte in Hx. unfold printable. lia.
Qed.
Print Assumptions C52_escape_is_plain_text.

(** needs_entity_escape is true exactly when entity_escape changes the text. *)
Theorem C52_needs_escape_is_exact :
  forall (ci : list entry) (s : list N), sorted_by_code ci -> Forall byte s ->
    (needs_entity_escape ci s = true <-> entity_escape ci s <> s).
Proof.
  intros ci s Hci Hs. rewrite (entity_escape_esc ci s Hci).
  assert (L : forall s, Forall byte s -> (length s <= length (flat_map esc s))%nat).
  { clear. intros s Hs. induction Hs as [|c s Hc Hs IH]; simpl; [lia|]. rewrite app_length.
    destruct (esc_cases c Hc) as [(E & _)|(name & E & _)]; rewrite E; simpl; lia. }
  induction Hs as [|c s Hc Hs IH]; simpl; [split; [discriminate|congruence]|].
  rewrite (code_index_find ci c Hci).
  destruct (esc_cases c Hc) as [(E & P & M)|(name & E & Hne & Hn & Hx)].
  - rewrite E. simpl.
    assert (N1 : needs_escape c = false).
    { destruct (needs_escape c) eqn:Q; [|reflexivity]. unfold esc in E. rewrite Q in E.
      destruct (code_find c) as [e|]; [|discriminate]. injection E as _ E.
      destruct (fst e); discriminate. }
    assert (N2 : code_find c = None).
    { destruct (code_find c) as [e|] eqn:Q; [|reflexivity]. unfold esc in E. rewrite Q in E.
      injection E as _ E. destruct (fst e); discriminate. }
    rewrite N1, N2, IH. split; intros H1 H2; apply H1; congruence.
  - assert (T : (if needs_escape c then true
       else match code_find c with Some _ => true | None => needs_entity_escape ci s end) = true).
    { destruct (needs_escape c); [reflexivity|]. destruct (code_find c); [reflexivity|discriminate]. }
    rewrite T. split; [|reflexivity]. intros _ H. apply (f_equal (@length N)) in H.
    rewrite app_length, E in H. simpl in H. rewrite app_length in H. simpl in H.
    specialize (L s Hs). lia.
Qed.
Print Assumptions C52_needs_escape_is_exact.

(** *** C53. What unescaping an escaped text gives *)
Lemma break_at_hit ch l r : Forall (fun c => c <> ch) l -> break_at ch (l ++ ch :: r) = (l, ch :: r).
Proof.
  intros H. induction H as [|c l Hc H IH]; simpl; [now rewrite N.eqb_refl|].
  rewrite (proj2 (N.eqb_neq c ch) Hc), IH. reflexivity.
Qed.
Lemma break_at_app ch l : exists a b, break_at ch l = (a, b) /\ l = a ++ b.
Proof.
  induction l as [|c l (a & b & E & ->)]; simpl; [exists [], []; auto|].
  destruct (c =? ch); [exists [], (c :: a ++ b); auto|].
  rewrite E. exists (c :: a), b. auto.
Qed.

Section Unescape.
Variable ni : list entry.

(** the loop with its accumulator factored out *)
Definition prepend (p : list N) (u : unescaped) : unescaped :=
  match u with Unescaped r => Unescaped (p ++ r) | u => u end.
Lemma loop_acc fuel iter result :
  unescape_loop ni fuel iter result = prepend result (unescape_loop ni fuel iter []).
Proof.
  revert iter result. induction fuel as [|fuel IH]; intros iter result; [reflexivity|].
  cbn [unescape_loop]. destruct iter as [|i iter]; [simpl; now rewrite app_nil_r|].
  destruct (break_at 38 (i :: iter)) as [pre next]. destruct next as [|n next]; [reflexivity|].
  destruct (break_at 59 next) as [ent next_end]. destruct next_end as [|e rest]; [reflexivity|].
  destruct (entity_map_find ni ent) as [cp|]; [|reflexivity].
  rewrite IH, (IH rest (([] ++ pre) ++ _)). simpl.
  destruct (unescape_loop ni fuel rest []); simpl; try reflexivity. now rewrite !app_assoc.
Qed.

(** enough fuel is enough *)
Lemma loop_mono fuel iter result : (length iter < fuel)%nat ->
  unescape_loop ni fuel iter result = unescape_loop ni (S fuel) iter result.
Proof.
  revert iter result. induction fuel as [|fuel IH]; intros iter result Hf; [lia|].
  cbn [unescape_loop] in *. destruct iter as [|i iter]; [reflexivity|].
  destruct (break_at_app 38 (i :: iter)) as (pre & next & E & E2). rewrite E.
  destruct next as [|n next]; [reflexivity|].
  destruct (break_at_app 59 next) as (ent & next_end & E3 & E4). rewrite E3.
  destruct next_end as [|e rest]; [reflexivity|].
  destruct (entity_map_find ni ent) as [cp|]; [|reflexivity].
  rewrite IH; [reflexivity|]. apply (f_equal (@length N)) in E2, E4.
  rewrite !app_length in *. simpl in *. lia.
Qed.
Lemma loop_enough fuel iter result : (length iter < fuel)%nat ->
  unescape_loop ni fuel iter result = unescape_loop ni (S (length iter)) iter result.
Proof.
  intros H. replace fuel with (fuel - S (length iter) + S (length iter))%nat by lia.
  generalize (fuel - S (length iter))%nat as k. intros k.
  induction k as [|k IH]; [reflexivity|]. rewrite <- IH. simpl plus. symmetry. apply loop_mono. lia.
Qed.

Lemma loop_char fuel c l : c <> 38 ->
  unescape_loop ni (S fuel) (c :: l) [] = prepend [c] (unescape_loop ni (S fuel) l []).
Proof.
  intros Hc. destruct l as [|d l].
  - cbn [unescape_loop]. cbn [break_at]. rewrite (proj2 (N.eqb_neq c 38) Hc). reflexivity.
  - cbn [unescape_loop]. change (break_at 38 (c :: d :: l)) with
      (if c =? 38 then ([], c :: d :: l) else let (a, b) := break_at 38 (d :: l) in (c :: a, b)).
    rewrite (proj2 (N.eqb_neq c 38) Hc). destruct (break_at 38 (d :: l)) as [a b].
    destruct b as [|e b]; [reflexivity|].
    destruct (break_at 59 b) as [ent next_end]. destruct next_end as [|e2 rest]; [reflexivity|].
    destruct (entity_map_find ni ent) as [cp|]; [|reflexivity].
    rewrite (loop_acc fuel rest (([] ++ c :: a) ++ _)), (loop_acc fuel rest (([] ++ a) ++ _)).
    destruct (unescape_loop ni fuel rest []); reflexivity.
Qed.
Lemma unescape_char c l : c <> 38 -> entity_unescape ni (c :: l) = prepend [c] (entity_unescape ni l).
Proof.
  intros Hc. unfold entity_unescape. cbn [length]. rewrite (loop_char _ c l Hc).
  rewrite <- (loop_mono (S (length l)) l []) by lia. reflexivity.
Qed.
Lemma unescape_ref name l cp : Forall (fun c => c <> 59) name -> entity_map_find ni name = Some cp ->
  entity_unescape ni (38 :: name ++ 59 :: l) =
  prepend (if cp =? 0 then [] else utf32_to_utf8 cp) (entity_unescape ni l).
Proof.
  intros Hn Hf. unfold entity_unescape. rewrite <- loop_acc.
  assert (Hl : (length l < length (38%N :: name ++ 59%N :: l))%nat)
    by (cbn [length]; rewrite app_length; cbn [length]; lia).
  revert Hl. generalize (length (38%N :: name ++ 59%N :: l)) as k. intros k Hk.
  cbn [unescape_loop break_at]. rewrite N.eqb_refl, (break_at_hit 59 name l Hn), Hf.
  rewrite !app_nil_l. apply loop_enough. exact Hk.
Qed.
End Unescape.

(** entity_map_find applied to the reference written for a byte gives the byte back *)
Definition ent_find (ent : list N) : option N :=
  match ent with
  | 35 :: x :: l' => Some (if x =? 120 then xatoi l' 0 else datoi (x :: l') 0)
  | _ => match name_find ent with Some e => Some (snd e) | None => None end
  end.
Lemma entity_map_find_ent ni ent : sorted_by_name ni -> entity_map_find ni ent = ent_find ent.
Proof. intros H. unfold entity_map_find, ent_find. now rewrite (name_index_find ni ent H). Qed.

Lemma esc_find c : byte c -> esc c = [c] \/ ent_find (middle (esc c)) = Some c.
Proof.
  intros H.
  assert (Hok : bytes_eqb (esc c) [c] || match ent_find (middle (esc c)) with Some d => d =? c | None => false end = true).
  { assert (A : forallb (fun c => bytes_eqb (esc c) [c] ||
      match ent_find (middle (esc c)) with Some d => d =? c | None => false end) all_bytes = true)
      by (vm_compute; reflexivity).
    rewrite forallb_forall in A. apply A, in_all_bytes, H. }
  apply orb_true_iff in Hok. destruct Hok as [Hok|Hok].
  - left. apply bytes_eqb_eq, Hok.
  - right. destruct (ent_find _) as [d|]; [|discriminate]. apply N.eqb_eq in Hok. congruence.
Qed.
Lemma middle_ref name : middle (38 :: name ++ [59]) = name.
Proof. unfold middle. simpl. apply removelast_last. Qed.

Lemma utf8_byte c : byte c -> utf32_to_utf8 c = utf8 c.
Proof.
  intros H. assert (A : forallb (fun c => bytes_eqb (utf32_to_utf8 c) (utf8 c)) all_bytes = true)
    by (vm_compute; reflexivity).
  rewrite forallb_forall in A. apply bytes_eqb_eq, A, in_all_bytes, H.
Qed.

(** For every byte string: unescaping the escaped text never throws and gives the UTF-8 encoding of
    the bytes read as Latin-1 characters, with the NUL characters left out. *)
Theorem C53_unescape_of_escape :
  forall (ci ni : list entry) (s : list N), sorted_by_code ci -> sorted_by_name ni -> Forall byte s ->
    entity_unescape ni (entity_escape ci s) =
    Unescaped (flat_map utf8 (filter (fun c => negb (c =? 0)) s)).
Proof.
  intros ci ni s Hci Hni Hs. rewrite (entity_escape_esc ci s Hci). clear ci Hci.
  induction Hs as [|c s Hc Hs IH]; [reflexivity|]. cbn [flat_map].
  destruct (esc_cases c Hc) as [(E & P & M)|(name & E & Hne & Hn & _)]; rewrite E.
  - cbn [app]. rewrite unescape_char by (unfold markup in M; tauto). rewrite IH.
    assert (c <> 0) by (unfold printable in P; lia). cbn [filter].
    rewrite (proj2 (N.eqb_neq c 0) H). cbn [negb flat_map]. unfold prepend. f_equal. f_equal.
    unfold utf8. unfold printable in P. destruct (N.ltb_spec c 0x80); [reflexivity|lia].
  - rewrite <- app_comm_cons, <- app_assoc. cbn [app].
    destruct (esc_find c Hc) as [E2|E2]; [rewrite E in E2; destruct name; discriminate|].
    rewrite E, middle_ref in E2.
    rewrite (unescape_ref ni name _ c), IH.
    + cbn [filter]. destruct (c =? 0); [reflexivity|]. cbn [negb flat_map]. unfold prepend.
      now rewrite (utf8_byte c Hc).
    + eapply Forall_impl; [|exact Hn]. intros x Hx. unfold name_byte in Hx. lia.
    + rewrite (entity_map_find_ent ni name Hni). exact E2.
Qed.
Print Assumptions C53_unescape_of_escape.

(** So the round trip is the identity on ASCII text ... *)
Theorem C53_round_trip_partial :
  forall (ci ni : list entry) (s : list N), sorted_by_code ci -> sorted_by_name ni -> Forall ascii s ->
    entity_unescape ni (entity_escape ci s) = Unescaped s.
Proof.
  intros ci ni s Hci Hni Hs. rewrite (C53_unescape_of_escape ci ni s Hci Hni).
  - f_equal. induction Hs as [|c s Hc Hs IH]; [reflexivity|]. unfold ascii in Hc. cbn [filter].
    destruct (N.eqb_spec c 0); [lia|]. cbn [negb flat_map]. rewrite IH. unfold utf8.
    destruct (N.ltb_spec c 0x80); [reflexivity|lia].
  - eapply Forall_impl; [|exact Hs]. intros c Hc. unfold ascii in Hc. unfold byte. lia.
Qed.
Print Assumptions C53_round_trip_partial.

(** ... and on no other byte string: a NUL is lost and every byte from 0x80 on becomes two. *)
Theorem C53_round_trip_refuted :
  forall (ci ni : list entry) (s : list N), sorted_by_code ci -> sorted_by_name ni -> Forall byte s ->
    ~ Forall ascii s -> (forall c, In c s -> c <> 0) \/ (forall c, In c s -> c < 128) ->
    entity_unescape ni (entity_escape ci s) <> Unescaped s.
Proof.
  intros ci ni s Hci Hni Hs Hna Hd. rewrite (C53_unescape_of_escape ci ni s Hci Hni Hs).
  intros H. injection H as H. apply Hna. clear Hna ci ni Hci Hni.
  assert (U : forall c, byte c -> 128 <= c -> length (utf8 c) = 2%nat).
  { intros c Hb Hc. unfold utf8. unfold byte in Hb. destruct (N.ltb_spec c 0x80); [lia|].
    destruct (N.ltb_spec c 0x800); [reflexivity|lia]. }
  destruct Hd as [Hd|Hd].
  - assert (G : forall s, Forall byte s -> (forall c, In c s -> c <> 0) ->
      (length s <= length (flat_map utf8 (filter (fun c => negb (c =? 0)%N) s)))%nat /\
      (length s = length (flat_map utf8 (filter (fun c => negb (c =? 0)%N) s)) -> Forall ascii s)).
    { clear H Hd Hs s. intros s Hs. induction Hs as [|c s Hc Hs IH]; intros Hd; [split; [simpl; lia|constructor]|].
      assert (Hc0 : c <> 0) by (apply Hd; left; reflexivity).
      destruct IH as [IH1 IH2]; [intros x Hx; apply Hd; right; exact Hx|].
      cbn [filter]. rewrite (proj2 (N.eqb_neq c 0) Hc0). cbn [negb flat_map length].
      rewrite app_length. destruct (N.ltb_spec c 128) as [Hl|Hl].
      - assert (E : length (utf8 c) = 1%nat).
        { unfold utf8. destruct (N.ltb_spec c 0x80); [reflexivity|lia]. }
        rewrite E. split; [lia|]. intros Hlen. constructor; [unfold ascii; lia|]. apply IH2. lia.
      - rewrite (U c Hc Hl). split; [lia|]. intros Hlen. lia. }
    apply (proj2 (G s Hs Hd)). now rewrite H.
  - assert (G : forall s, Forall byte s -> (forall c, In c s -> c < 128) ->
      (length (flat_map utf8 (filter (fun c => negb (c =? 0)%N) s)) <= length s)%nat /\
      (length s = length (flat_map utf8 (filter (fun c => negb (c =? 0)%N) s)) -> Forall ascii s)).
    { clear H Hd Hs s. intros s Hs. induction Hs as [|c s Hc Hs IH]; intros Hd; [split; [simpl; lia|constructor]|].
      assert (Hc0 : c < 128) by (apply Hd; left; reflexivity).
      destruct IH as [IH1 IH2]; [intros x Hx; apply Hd; right; exact Hx|].
      cbn [filter]. destruct (N.eqb_spec c 0) as [E0|E0]; cbn [negb flat_map length].
      - split; [lia|]. intros Hlen. lia.
      - assert (E : length (utf8 c) = 1%nat).
        { unfold utf8. destruct (N.ltb_spec c 0x80); [reflexivity|lia]. }
        rewrite app_length, E. split; [lia|]. intros Hlen. constructor; [unfold ascii; lia|]. apply IH2. lia. }
    apply (proj2 (G s Hs Hd)). now rewrite H.
Qed.
Print Assumptions C53_round_trip_refuted.

(** *** C54. needs_entity_unescape is false only if entity_unescape leaves the text alone *)
(** It does when there is no ampersand ... *)
Theorem C54_no_ampersand_partial :
  forall (ni : list entry) (s : list N), ~ In 38 s ->
    needs_entity_unescape s = false /\ entity_unescape ni s = Unescaped s.
Proof.
  intros ni s H.
  assert (B : break_at 38 s = (s, [])).
  { induction s as [|c s IH]; [reflexivity|]. simpl. destruct (N.eqb_spec c 38) as [->|_].
    - exfalso. apply H. left. reflexivity.
    - rewrite IH; [reflexivity|]. intros Hin. apply H. right. exact Hin. }
  split.
  - unfold needs_entity_unescape. rewrite B. reflexivity.
  - unfold entity_unescape. cbn [unescape_loop]. destruct s as [|c s]; [reflexivity|]. rewrite B. reflexivity.
Qed.
Print Assumptions C54_no_ampersand_partial.
(** ... but everything from an ampersand without a later semicolon on is dropped. *)
Theorem C54_bare_ampersand_refuted :
  forall (ni : list entry) (a b : list N), ~ In 38 a -> ~ In 59 b ->
    needs_entity_unescape (a ++ 38 :: b) = false /\ entity_unescape ni (a ++ 38 :: b) = Unescaped a.
Proof.
  intros ni a b Ha Hb.
  assert (B : break_at 38 (a ++ 38 :: b) = (a, 38 :: b)).
  { apply break_at_hit. apply Forall_forall. intros x Hx ->. auto. }
  assert (C : break_at 59 b = (b, [])).
  { clear B. induction b as [|c b IH]; [reflexivity|]. simpl. destruct (N.eqb_spec c 59) as [->|_].
    - exfalso. apply Hb. left. reflexivity.
    - rewrite IH; [reflexivity|]. intros Hin. apply Hb. right. exact Hin. }
  split.
  - unfold needs_entity_unescape. rewrite B. cbn [snd break_at]. simpl (38 =? 59). rewrite C. reflexivity.
  - unfold entity_unescape. cbn [unescape_loop]. rewrite B, C.
    destruct (a ++ 38 :: b) eqn:E; [destruct a; discriminate|]. reflexivity.
Qed.
Print Assumptions C54_bare_ampersand_refuted.

(** *** The hypotheses can be met: insertion sort gives such indexes, and a concrete text *)
Section Sort.
Context {K : Type} (ltb : K -> K -> bool) (key : entry -> K).
Fixpoint insert (e : entry) (l : list entry) : list entry :=
  match l with
  | [] => [e]
  | a :: l' => if ltb (key a) (key e) then a :: insert e l' else e :: l
  end.
Definition isort (l : list entry) : list entry := fold_right insert [] l.
Lemma insert_perm e l : Permutation (e :: l) (insert e l).
Proof.
  induction l as [|a l IH]; simpl; [reflexivity|]. destruct (ltb (key a) (key e)); [|reflexivity].
  rewrite perm_swap, IH. reflexivity.
Qed.
Lemma isort_perm l : Permutation l (isort l).
Proof. induction l as [|a l IH]; simpl; [reflexivity|]. rewrite <- insert_perm. now constructor. Qed.
Fixpoint sortedb (l : list entry) : bool :=
  match l with
  | [] => true
  | a :: l' => forallb (fun b => negb (ltb (key b) (key a))) l' && sortedb l'
  end.
Lemma sortedb_ok l : sortedb l = true -> Sorted ltb key l.
Proof.
  induction l as [|a l IH]; simpl; intros H i j x y Hij Hx Hy.
  - destruct i; discriminate.
  - apply andb_true_iff in H. destruct H as [H1 H2]. rewrite forallb_forall in H1.
    destruct j as [|j]; [lia|]. simpl in Hy. destruct i as [|i]; simpl in Hx.
    + injection Hx as ->. apply negb_true_iff, H1. eapply nth_error_In; eassumption.
    + apply (IH H2 i j x y); [lia|assumption|assumption].
Qed.
End Sort.
Example entity_indexes_exist :
  sorted_by_code (isort N.ltb snd table) /\ sorted_by_name (isort bytes_ltb fst table).
Proof.
  split; (split; [apply isort_perm|apply sortedb_ok; vm_compute; reflexivity]).
Qed.
Definition the_codes := isort N.ltb snd table.
Definition the_names := isort bytes_ltb fst table.
Local Open Scope string_scope.
Example escape_example :
  entity_escape the_codes (bs "if (a<b && c) x = 'y'") =
    bs "if (a&lt;b &amp;&amp; c) x = &apos;y&apos;" /\
  entity_unescape the_names (bs "a&lt;b &#x41;&#66; caf&eacute;") =
    Unescaped (bs "a<b AB caf" ++ [0xC3; 0xA9])%list /\
  entity_unescape the_names (bs "&nosuch;") = RangeError /\
  entity_escape the_codes [0xC3; 0xA9]%N = bs "&Atilde;&copy;" /\
  entity_unescape the_names (entity_escape the_codes [0xC3; 0xA9]%N) = Unescaped [0xC3; 0x83; 0xC2; 0xA9]%N.
Proof. vm_compute. repeat split; reflexivity. Qed.
