(** Properties of the XML lexer and parser: C91-C95. *)
From Coq Require Import String Ascii.
From Coq Require Import List.
From Verif Require Import Prelude Entity_Model Search_Model Unicode_Model Xml_Model Xml_Spec Xml_Lex Xml_Attr Xml_Sound Xml_Complete Xml_Safe Xml_Doc.
Import ListNotations.
Local Open Scope nat_scope.
Ltac Zify.zify_post_hook ::= idtac.

(** bytes of a literal; a [`] stands for a double quote *)
Fixpoint txt (s : string) : bytes :=
  match s with
  | EmptyString => []
  | String c s' => (if Ascii.eqb c "`" then 34%N else N_of_ascii c) :: txt s'
  end.

(** *** C91: the lexer *)

(** What stands at a place in the buffer, white space skipped when it is to be, decides the token, and
    every place has a token, is the end, or is an error. *)
Theorem C91_tokens : forall pre w u sk np, spaces w -> (sk = false -> w = []) -> (sk = true -> ~ begins space u) ->
  let b := pre ++ w ++ u in let at_ := length pre + length w in
  let r := get_token b (Lx (length pre) sk np None) in
  (u = [] -> r = GTok (Tok KEof at_ at_) (Lx at_ sk np None)) /\
  (forall k f l n, Token np u k f l n ->
     r = GTok (Tok k (at_ + f) (at_ + l)) (Lx (at_ + n) (skip_after k sk) (name_after k np) None)) /\
  (NoToken np u -> r = GExn) /\
  (u = [] \/ (exists k f l n, Token np u k f l n) \/ NoToken np u).
Proof.
  intros pre w u sk np W W2 W3 b at_ r.
  assert (V : sits b (length pre) (w ++ u)) by (exists pre; auto).
  split; [|split; [|split]].
  - intros ->. unfold r, at_. eapply reads_get. apply (Rd_eof b (length pre) sk np w W W2). rewrite app_nil_r in V. exact V.
  - intros k f l n T. exact (get_tok b (length pre) sk np w u k f l n V T W W2 W3).
  - intros N. unfold r, get_token. cbn [l_back l_pos l_skip l_name].
    assert (L : length b = length pre + (length w + length u)) by (unfold b; rewrite !app_length; reflexivity).
    destruct (Nat.ltb_spec (length b) (length pre)); [lia|]. cbn zeta.
    rewrite (sits_skipn _ _ _ V).
    assert (E : (if sk then white_length (w ++ u) else 0) = length w).
    { destruct sk; [apply white_length_spec; auto|rewrite (W2 eq_refl); reflexivity]. }
    rewrite E. pose proof (sits_app _ _ _ _ V) as V2. rewrite (sits_skipn _ _ _ V2).
    assert (0 < length u) by (destruct N; cbn [length]; lia).
    destruct (Nat.eqb_spec (length pre + length w) (length b)); [lia|].
    rewrite (no_token_fails np u N). reflexivity.
  - destruct u as [|c u]; [auto|]. right. exact (token_or_not np c u).
Qed.
(** no place has two *)
Theorem C91_tokens_are_functional : forall np u k f l n, Token np u k f l n ->
  (forall k' f' l' n', Token np u k' f' l' n' -> k' = k /\ f' = f /\ l' = l /\ n' = n) /\ ~ NoToken np u.
Proof.
  intros np u k f l n T. pose proof (token_parses _ _ _ _ _ _ T) as H. split.
  - intros k' f' l' n' T'. rewrite (token_parses _ _ _ _ _ _ T') in H. injection H as -> -> -> ->. auto.
  - intros N. rewrite (no_token_fails _ _ N) in H. discriminate.
Qed.

Lemma token_range np u k f l n : Token np u k f l n -> f <= l <= n.
Proof. intros T. destruct T; lia. Qed.
(** A token that was put back is the next one *)
Theorem C91_putback : forall b l t l', get_token b l = GTok t l' -> get_token b (putback t l') = GTok t l'.
Proof.
  intros b l t l' H. pose proof (get_back _ _ _ _ H) as E. unfold get_token, putback. cbn [l_back l_pos l_skip l_name].
  destruct l' as [a c d e]. cbn in *. subst. reflexivity.
Qed.
(** Where no attribute value lacks its closing quote, reading stays inside the buffer and goes forward *)
Theorem C91_in_bounds_partial : forall b p sk np, Safe b -> p <= length b -> Reach b np (skipn p b) ->
  get_token b (Lx p sk np None) <> GUB /\
  forall t l', get_token b (Lx p sk np None) = GTok t l' ->
    p <= t_first t /\ t_first t <= t_last t /\ t_last t <= l_pos l' /\ l_pos l' <= length b /\
    (t_kind t <> KEof -> p < l_pos l') /\ (t_kind t = KEof -> l_pos l' = length b) /\
    Reach b (l_name l') (skipn (l_pos l') b).
Proof.
  intros b p sk np Sf Hp Hr. assert (J : Inv b (Lx p sk np None)) by (split; assumption).
  destruct (get_inv b _ Sf J) as (H1 & _). split; [exact H1|]. intros t l' G.
  destruct (get_at_inv b _ p sk np t l' Sf J (at_here _ _ _ _) G) as ((_ & Hr') & p' & -> & B & P). cbn [l_pos l_name] in *.
  destruct (get_reads _ _ _ _ _ _ _ (sits_at b p Hp) G) as (w & u & R & E).
  inversion R as [? W1 W2 V1 | ? ? k f l n W1 W2 W3 V1 T]; subst; cbn [t_kind t_first t_last] in *.
  - pose proof (sits_length _ _ _ V1). split; [lia|]. split; [lia|]. split; [lia|]. split; [lia|]. split; [exact P|]. split; [intros _; lia|exact Hr'].
  - pose proof (token_range _ _ _ _ _ _ T). split; [lia|]. split; [lia|]. split; [lia|]. split; [lia|]. split; [exact P|].
    split; [intros ->; inversion T|exact Hr'].
Qed.
(** An attribute value without its closing quote takes the lexer past the end of the buffer: the next token
    is read from memory that is not the buffer's. *)
Theorem C91_unclosed_value_overruns_refuted : forall pre q v sk, quote q -> Forall plain v -> ~ In q v ->
  let b := pre ++ q :: v in
  exists t l', get_token b (Lx (length pre) sk true None) = GTok t l' /\ length b < l_pos l' /\ get_token b l' = GUB.
Proof.
  intros pre q v sk Q P N b.
  assert (V : sits b (length pre) ([] ++ q :: v)) by (exists pre; auto).
  eexists _, _. split.
  - apply (get_tok b (length pre) sk true [] (q :: v) _ _ _ _ V (T_open_value true q v eq_refl Q P N)); [constructor|reflexivity|].
    intros _. cbn [begins]. unfold space. destruct Q as [-> | ->]; lia.
  - assert (L : length b = length pre + S (length v)) by (unfold b; rewrite app_length; reflexivity).
    split; [cbn [l_pos length]; lia|]. cbn [skip_after name_after]. apply get_beyond. cbn [length]. lia.
Qed.

(** a check of [Safe] *)
Fixpoint safe_from (fuel : nat) (np : bool) (u : bytes) : bool :=
  match fuel, u with
  | 0, _ => false
  | _, [] => true
  | S fuel, c :: u' =>
    match parse_token np u with
    | LTok k _ _ n => (n <=? length u) && safe_from fuel (name_after k np) (skipn n u)
    | _ => true
    end && (if is_space c then safe_from fuel np u' else true)
  end.
Lemma safe_from_sound b : safe_from (S (length b)) false b = true -> Safe b.
Proof.
  intros H. assert (P : forall np u, Reach b np u -> exists f, length u < f /\ safe_from f np u = true).
  { intros np u R. induction R as [|np w u R IH W|np u k f l n v r R IH T Eu Ev].
    - exists (S (length b)). split; [lia|exact H].
    - destruct IH as (f & L & Hf). clear R. revert f L Hf. induction w as [|c w IHw]; intros f L Hf; [exists f; auto|].
      destruct f as [|f]; [discriminate|]. inversion W as [|? ? Wc W']; subst. cbn [app length safe_from] in *. apply andb_true_iff in Hf. destruct Hf as (_ & Hf).
      destruct (is_spaceP c); [|contradiction]. apply (IHw W' f); [lia|exact Hf].
    - destruct IH as (g & L & Hg). pose proof (token_nonempty _ _ _ _ _ _ T). destruct u as [|c u]; [contradiction|].
      destruct g as [|g]; [discriminate|]. cbn [safe_from] in Hg. rewrite (token_parses _ _ _ _ _ _ T) in Hg.
      apply andb_true_iff in Hg. destruct Hg as (Hg & _). apply andb_true_iff in Hg. destruct Hg as (Hn & Hg). apply Nat.leb_le in Hn.
      destruct (token_length _ _ _ _ _ _ T) as (N & _).
      exists g. rewrite Eu, skipn_app, <- Ev, skipn_all, Nat.sub_diag in Hg. cbn [app skipn] in Hg.
      rewrite Eu, app_length in L. split; [lia|exact Hg]. }
  intros q v R Q F. destruct (in_dec N.eq_dec q v) as [Y|N]; [exact Y|]. exfalso.
  destruct (P _ _ R) as (f & L & Hf). destruct f as [|f]; [discriminate|]. cbn [safe_from] in Hf.
  rewrite (token_parses _ _ _ _ _ _ (T_open_value true q v eq_refl Q F N)) in Hf.
  apply andb_true_iff in Hf. destruct Hf as (Hf & _). apply andb_true_iff in Hf. destruct Hf as (Hf & _). apply Nat.leb_le in Hf. cbn [length] in Hf. lia.
Qed.
Example C91_ex : let b := txt "<a b = `c`/>" in
  Safe b /\ Reach b true (skipn 6 b) /\
  exists l', get_token b (Lx 6 true true None) = GTok (Tok KAttValue 8 9) l' /\ l_pos l' = 10.
Proof.
  cbn zeta. split; [apply safe_from_sound; reflexivity|]. split.
  - assert (R1 : Reach (txt "<a b = `c`/>") true (txt "a b = `c`/>")).
    { eapply (At_token _ false _ KOpen 0 1 1 [lt]); [apply At_start|apply (parse_token_iff false); reflexivity|reflexivity|reflexivity]. }
    assert (R2 : Reach (txt "<a b = `c`/>") true (txt "b = `c`/>")).
    { apply (At_space _ _ (txt " ")); [|repeat constructor; right; reflexivity].
      eapply (At_token _ true _ KName 0 1 1 (txt "a")); [exact R1|apply (parse_token_iff true); reflexivity|reflexivity|reflexivity]. }
    assert (R3 : Reach (txt "<a b = `c`/>") true (txt "= `c`/>")).
    { apply (At_space _ _ (txt " ")); [|repeat constructor; right; reflexivity].
      eapply (At_token _ true _ KName 0 1 1 (txt "b")); [exact R2|apply (parse_token_iff true); reflexivity|reflexivity|reflexivity]. }
    eapply (At_token _ true _ KEquals 0 1 1 (txt "=")); [exact R3|apply (parse_token_iff true); reflexivity|reflexivity|reflexivity].
  - eexists. split; reflexivity.
Qed.

(** *** C92: attribute_set_t is a map *)

(** what a client can make *)
Inductive Made : aset -> Prop :=
| Made_empty : Made []
| Made_insert : forall s k v, Made s -> Made (aset_insert s k v)
| Made_insert_all : forall s l, Made s -> Made (aset_insert_all s l)
| Made_merge : forall s o, Made s -> Made o -> Made (aset_merge s o).
Lemma made_sorted s : Made s -> sorted s.
Proof.
  induction 1; [exact I|apply insert_sorted; assumption|apply insert_all_sorted; assumption|apply merge_spec; assumption].
Qed.
Lemma in_iff_assoc (s : aset) k v : sorted s -> (In (k, v) s <-> assoc s k = Some v).
Proof. intros So. split; [apply in_assoc; exact So|apply assoc_in]. Qed.
Lemma assoc_none_iff (s : aset) k : assoc s k = None <-> ~ In k (map fst s).
Proof.
  split.
  - intros H K. apply in_map_iff in K. destruct K as ([k' v] & E & Hin). cbn in E. subst k'.
    induction s as [|[m w] s IH]; [contradiction|]. cbn [assoc] in H. destruct (list_eq_dec N.eq_dec m k); [discriminate|].
    destruct Hin as [[= -> _] | Hin]; [contradiction|exact (IH H Hin)].
  - intros H. apply assoc_none. intros [m v] Hin E. cbn in E. subst m. apply H. apply in_map_iff. exists (k, v). auto.
Qed.
Lemma insert_all_assoc l : forall s k, sorted s ->
  assoc (aset_insert_all s l) k = match assoc (rev l) k with Some v => Some v | None => assoc s k end.
Proof.
  induction l as [|[m v] l IH]; intros s k So; [reflexivity|]. cbn [aset_insert_all fold_left fst snd].
  change (fold_left _ l ?x) with (aset_insert_all x l). rewrite IH by (apply insert_sorted; exact So).
  cbn [rev]. rewrite assoc_app. destruct (assoc (rev l) k); [reflexivity|]. cbn [assoc]. rewrite insert_assoc by exact So. destruct (list_eq_dec N.eq_dec m k); reflexivity.
Qed.

(** Every set is ordered by name, holds each name once, and finds exactly what it holds; insertion replaces;
    merging keeps what was there. *)
Theorem C92_map : forall s o, Made s -> Made o ->
  ascending (map fst s) /\ NoDup (map fst s) /\
  (forall k v, In (k, v) s -> aset_get s k = v) /\
  (forall k, ~ In k (map fst s) -> aset_get s k = null_range) /\
  (forall k v k' w, In (k', w) (aset_insert s k v) <-> k' = k /\ w = v \/ k' <> k /\ In (k', w) s) /\
  (forall k w, In (k, w) (aset_merge s o) <-> In (k, w) s \/ ~ In k (map fst s) /\ In (k, w) o).
Proof.
  intros s o Ms Mo. pose proof (made_sorted s Ms) as Ss. pose proof (made_sorted o Mo) as So.
  split; [exact Ss|]. split; [apply sorted_nodup; exact Ss|]. split; [|split; [|split]].
  - intros k v H. rewrite get_is_assoc by exact Ss. apply (in_iff_assoc s k v Ss) in H. rewrite H. reflexivity.
  - intros k H. rewrite get_is_assoc by exact Ss. apply assoc_none_iff in H. rewrite H. reflexivity.
  - intros k v k' w. rewrite in_iff_assoc by (apply insert_sorted; exact Ss). rewrite insert_assoc by exact Ss.
    rewrite (in_iff_assoc s k' w Ss). destruct (list_eq_dec N.eq_dec k k') as [-> | N].
    + split; [intros [= ->]; left; auto|]. intros [(_ & ->) | (X & _)]; [reflexivity|contradiction].
    + split; [intros H; right; auto|]. intros [(-> & _) | (_ & X)]; [contradiction|exact X].
  - intros k w. destruct (merge_spec s o Ss So) as (Sm & _ & H). rewrite (in_iff_assoc _ _ _ Sm), H, (in_iff_assoc s k w Ss), (in_iff_assoc o k w So).
    rewrite <- assoc_none_iff. destruct (assoc s k); split; auto.
    + intros [X | (X & _)]; [exact X|discriminate].
    + intros [X | (_ & X)]; [discriminate|exact X].
Qed.
(** Inserting a sequence inserts its elements in turn: of several with one name the last counts. *)
Theorem C92_insert_range : forall s l k w, Made s ->
  In (k, w) (aset_insert_all s l) <->
  (exists l1 l2, l = l1 ++ (k, w) :: l2 /\ ~ In k (map fst l2)) \/ ~ In k (map fst l) /\ In (k, w) s.
Proof.
  intros s l k w Ms. pose proof (made_sorted s Ms) as Ss.
  rewrite in_iff_assoc by (apply insert_all_sorted; exact Ss). rewrite insert_all_assoc by exact Ss. rewrite (in_iff_assoc s k w Ss).
  assert (R : ~ In k (map fst l) <-> assoc (rev l) k = None).
  { rewrite assoc_none_iff, map_rev, <- in_rev. reflexivity. }
  rewrite R.
  assert (L : (exists l1 l2, l = l1 ++ (k, w) :: l2 /\ ~ In k (map fst l2)) <-> assoc (rev l) k = Some w).
  { clear. split.
    - intros (l1 & l2 & -> & H). rewrite rev_app_distr. cbn [rev]. rewrite <- app_assoc, assoc_app.
      assert (assoc (rev l2) k = None) as -> by (rewrite assoc_none_iff, map_rev, <- in_rev; exact H).
      cbn [app assoc]. destruct (list_eq_dec N.eq_dec k k); [reflexivity|contradiction].
    - induction l as [|[m v] l IH]; [discriminate|]. cbn [rev]. rewrite assoc_app. destruct (assoc (rev l) k) as [v'|] eqn:E.
      + intros H. destruct (IH H) as (l1 & l2 & -> & Hn). exists ((m, v) :: l1), l2. auto.
      + cbn [assoc]. destruct (list_eq_dec N.eq_dec m k) as [-> | ]; [|discriminate]. intros [= ->]. exists [], l. split; [reflexivity|].
        rewrite assoc_none_iff, map_rev, <- in_rev in E. exact E. }
  rewrite L. destruct (assoc (rev l) k) as [v'|]; split.
  - intros [= ->]. left. reflexivity.
  - intros [X | (X & _)]; [exact X|discriminate].
  - intros X. right. auto.
  - intros [X | (_ & X)]; [discriminate|exact X].
Qed.

Definition same_name (a b : attribute) : bool := if list_eq_dec N.eq_dec (fst a) (fst b) then true else false.
Definition same_bytes (a b : attribute) : bool := if list_eq_dec N.eq_dec (tr_text (snd a)) (tr_text (snd b)) then true else false.
Lemma shared_exists o test (a : attribute) : sorted o ->
  shared o test a = existsb (fun b => same_name a b && test (snd a) (snd b)) o.
Proof.
  intros So. unfold shared. destruct (assoc o (fst a)) as [w|] eqn:E.
  - apply assoc_in in E. induction o as [|[m v] o IH]; [contradiction|]. apply sorted_cons in So. destruct So as (So & So').
    cbn [existsb]. unfold same_name at 1. cbn [fst snd]. destruct E as [[= -> ->] | E].
    + destruct (list_eq_dec N.eq_dec (fst a) (fst a)); [|contradiction]. cbn [andb].
      replace (existsb _ o) with false; [rewrite orb_false_r; reflexivity|]. symmetry. apply not_true_is_false. intros H. apply existsb_exists in H.
      destruct H as (b & Hb & Hs). specialize (So b Hb). cbn [fst] in So. apply andb_true_iff in Hs. destruct Hs as (Hs & _). unfold same_name in Hs.
      destruct (list_eq_dec N.eq_dec (fst a) (fst b)) as [e1|]; [|discriminate]. rewrite e1 in So. exact (before_irrefl _ So).
    + destruct (list_eq_dec N.eq_dec (fst a) m) as [e|]; [|cbn [andb orb]; apply IH; assumption].
      specialize (So _ E). cbn [fst] in So. rewrite <- e in So. destruct (before_irrefl _ So).
  - symmetry. apply not_true_is_false. intros H. apply existsb_exists in H. destruct H as (b & Hb & Hs).
    apply assoc_none_iff in E. apply E. apply andb_true_iff in Hs. destruct Hs as (Hs & _). unfold same_name in Hs.
    destruct (list_eq_dec N.eq_dec (fst a) (fst b)) as [e|]; [|discriminate]. apply in_map_iff. exists b. auto.
Qed.
Lemma same_text_bytes a b : same_text (snd a) (snd b) = same_bytes a b.
Proof.
  unfold same_text, same_bytes. destruct (range_equalP (tr_text (snd a)) (tr_text (snd b))), (list_eq_dec N.eq_dec (tr_text (snd a)) (tr_text (snd b))); congruence.
Qed.
Lemma existsb_ext {A} (p q : A -> bool) l : (forall a, p a = q a) -> existsb p l = existsb q l.
Proof. intros H. induction l as [|a l IH]; [reflexivity|]. cbn. rewrite H, IH. reflexivity. Qed.
(** count_same counts the names (or the names with the same value) in both; the sets are equal when they hold
    the same names with the same values; has_collisions tells whether a name has two values. *)
Theorem C92_comparisons : forall s o, Made s -> Made o ->
  aset_count_same s o false = length (filter (fun a => existsb (same_name a) o) s) /\
  aset_count_same s o true = length (filter (fun a => existsb (fun b => same_name a b && same_bytes a b) o) s) /\
  (aset_eq s o = true <->
     forall k x, (exists v, In (k, v) s /\ tr_text v = x) <-> (exists v, In (k, v) o /\ tr_text v = x)) /\
  (aset_has_collisions s o = true <->
     exists k v w, In (k, v) s /\ In (k, w) o /\ tr_text v <> tr_text w).
Proof.
  intros s o Ms Mo. pose proof (made_sorted s Ms) as Ss. pose proof (made_sorted o Mo) as So. split; [|split; [|split]].
  - rewrite count_keys by assumption. f_equal. apply filter_ext. intros a. rewrite shared_exists by exact So. apply existsb_ext. intros b. apply andb_true_r.
  - rewrite count_texts by assumption. f_equal. apply filter_ext. intros a. rewrite shared_exists by exact So. apply existsb_ext. intros b. rewrite same_text_bytes. reflexivity.
  - rewrite eq_spec by assumption.
    assert (T : forall r, sorted r -> forall k x, (exists v, In (k, v) r /\ tr_text v = x) <-> text_at r k = Some x).
    { intros r Sr k x. unfold text_at. split.
      - intros (v & H & <-). apply (in_iff_assoc r k v Sr) in H. rewrite H. reflexivity.
      - intros H. destruct (assoc r k) as [v|] eqn:E; [|discriminate]. injection H as <-. exists v. split; [apply assoc_in; exact E|reflexivity]. }
    split.
    + intros H k x. rewrite (T s Ss), (T o So), H. reflexivity.
    + intros H k. destruct (text_at s k) as [x|] eqn:E.
      * apply (T s Ss) in E. apply H in E. apply (T o So) in E. symmetry. exact E.
      * destruct (text_at o k) as [x|] eqn:E2; [|reflexivity]. apply (T o So) in E2. apply H in E2. apply (T s Ss) in E2. congruence.
  - rewrite has_collisions_spec by exact So. rewrite existsb_exists. split.
    + intros ([k v] & H & Hs). unfold shared in Hs. cbn [fst snd] in Hs. destruct (assoc o k) as [w|] eqn:E; [|discriminate].
      exists k, v, w. split; [exact H|]. split; [apply assoc_in; exact E|]. unfold same_text in Hs. destruct (range_equalP (tr_text v) (tr_text w)); [discriminate|assumption].
    + intros (k & v & w & H1 & H2 & N). exists (k, v). split; [exact H1|]. unfold shared. cbn [fst snd].
      apply (in_iff_assoc o k w So) in H2. rewrite H2. unfold same_text. destruct (range_equalP (tr_text v) (tr_text w)); [contradiction|reflexivity].
Qed.
(** count_collisions is meant to be the number of names with two values, but it compares where the values
    are, not what they are. *)
Theorem C92_count_collisions_refuted : exists s o, Made s /\ Made o /\ aset_eq s o = true /\
  aset_has_collisions s o = false /\ aset_count_collisions s o = 1.
Proof.
  exists (aset_insert [] (txt "a") (TR 4 (txt "x"))), (aset_insert [] (txt "a") (TR 20 (txt "x"))).
  split; [repeat constructor|]. split; [repeat constructor|]. split; [reflexivity|]. split; reflexivity.
Qed.
Theorem C92_count_collisions_partial : forall s o, Made s -> Made o ->
  aset_count_collisions s o = length (filter (fun a => existsb (fun b => same_name a b && negb (same_memory (snd a) (snd b))) o) s).
Proof.
  intros s o _ Mo. pose proof (made_sorted o Mo) as So. rewrite count_collisions_spec by exact So. f_equal. apply filter_ext.
  intros a. apply shared_exists. exact So.
Qed.
Example C92_ex : let s := aset_insert (aset_insert (aset_insert [] (txt "bb") (TR 1 (txt "x"))) (txt "c") (TR 2 (txt "y"))) (txt "bb") (TR 3 (txt "z")) in
  Made s /\ map fst s = [txt "c"; txt "bb"] /\ aset_get s (txt "bb") = TR 3 (txt "z").
Proof. cbn zeta. split; [repeat constructor|]. split; reflexivity. Qed.

(** *** C93: content *)
Section Content.
Variable name_index : list entry.
Variable pred : list call -> bytes -> bool.
Variable cb : list call -> call -> answer.
Notation parse_content := (parse_content name_index pred cb).
Notation parse_document := (parse_document name_index pred cb).
Notation parse_element_sequence := (parse_element_sequence name_index pred cb).
Notation Parsed := (Parsed name_index pred cb).
Notation Render := (Render name_index pred cb).
Notation RenderE := (RenderE name_index pred cb).

(** parse_content succeeds exactly on what the grammar describes, with the output and the calls it describes *)
Theorem C93_parse_content_iff : forall x o h,
  (exists f s', parse_content f x fresh = Ok tt s' /\ p_out s' = o /\ p_calls s' = h) <-> Parsed [] x o h.
Proof.
  intros x o h. split.
  - intros (f & s' & H & <- & <-). destruct (all_sound name_index pred cb f) as (_ & _ & _ & _ & P).
    destruct (P x fresh true s' eq_refl eq_refl H) as (o & Q & E). cbn [fresh p_out p_calls app] in *. rewrite E. exact Q.
  - intros P. destruct (run_all name_index pred cb) as (_ & _ & R).
    destruct (R _ _ _ _ P fresh true eq_refl eq_refl eq_refl) as (F & L & H). exists F. eexists. split; [apply (H F); lia|]. split; reflexivity.
Qed.
(** and more steps give the same *)
Theorem C93_more_fuel : forall f x s', parse_content f x fresh = Ok tt s' ->
  exists F, forall f', F <= f' -> exists s'', parse_content f' x fresh = Ok tt s'' /\ p_out s'' = p_out s' /\ p_calls s'' = p_calls s'.
Proof.
  intros f x s' H. assert (P : Parsed [] x (p_out s') (p_calls s')) by (apply C93_parse_content_iff; exists f, s'; auto).
  destruct (run_all name_index pred cb) as (_ & _ & R).
  destruct (R _ _ _ _ P fresh true eq_refl eq_refl eq_refl) as (F & L & HF). exists F. intros f' Hf. eexists. split; [apply (HF f' Hf)|]. split; reflexivity.
Qed.
(** the grammar is not ambiguous *)
Theorem C93_unambiguous : forall x o h o' h', Parsed [] x o h -> Parsed [] x o' h' -> o = o' /\ h = h'.
Proof.
  intros x o h o' h' P P'. destruct (run_all name_index pred cb) as (_ & _ & R).
  destruct (R _ _ _ _ P fresh true eq_refl eq_refl eq_refl) as (F & L & HF). destruct (R _ _ _ _ P' fresh true eq_refl eq_refl eq_refl) as (F' & L' & HF').
  specialize (HF (F + F') ltac:(lia)). specialize (HF' (F + F') ltac:(lia)). rewrite HF in HF'. injection HF' as _ <- <-. auto.
Qed.
(** When the client answers with real ranges, and nothing it hands back for parsing nor the text itself
    has an unclosed attribute value, no memory outside of the buffers is read, and when it hands nothing back for
    parsing, the parser comes to an end. *)
Theorem C93_safe_and_terminating_partial : forall x, Safe x -> answers_ok cb ->
  (forall f, parse_content f x fresh <> UB) /\
  (echoes pred cb -> forall f, 3 * length x + 4 <= f -> parse_content f x fresh <> NoFuel).
Proof.
  intros x Sf Ok0. split.
  - intros f. destruct (all_fine name_index pred cb Ok0 f) as (_ & _ & _ & _ & P). exact (proj1 (P x fresh true Sf eq_refl eq_refl)).
  - intros E f Hf. destruct (all_fine name_index pred cb Ok0 f) as (_ & _ & _ & _ & P). apply (P x fresh true Sf eq_refl eq_refl). auto.
Qed.

(** every list of attributes denotes a set *)
Lemma denotes_some ats : exists l, denotes ats l.
Proof.
  assert (H : forall ats0 s, built ats0 s -> exists s', built (ats0 ++ ats) s').
  { induction ats as [|[k v] ats IH]; intros ats0 s B; [exists s; rewrite app_nil_r; exact B|].
    destruct (IH (ats0 ++ [(k, v)]) (aset_insert s k (TR 0 v)) (built_insert ats0 s k (TR 0 v) B)) as (s' & B').
    exists s'. rewrite <- app_assoc in B'. exact B'. }
  destruct (H [] [] built_nil) as (s' & B). exists (texts s'). apply built_denotes. exact B.
Qed.
(** Every well-formed text is accepted, whatever the predicate is, when the client hands nothing back. *)
Theorem C93_accepts_well_formed : forall is, items_ok is [] -> answers_ok cb -> echoes pred cb ->
  exists o h, Parsed [] (raws is) o h.
Proof.
  intros is O Ok0 Ec.
  assert (A : forall i h, tag_of i = None \/ exists o h', RenderE h i o h').
  { intros i. apply (item_rect' (fun i => forall h, tag_of i = None \/ exists o h', RenderE h i o h') (fun is => forall h, exists o h', Render h is o h')).
    - intros; left; reflexivity.
    - intros; left; reflexivity.
    - intros; left; reflexivity.
    - intros; left; reflexivity.
    - intros w0 nm ats w1 h. right. destruct (denotes_some (written ats)) as (l & D). destruct (pred h nm) eqn:Ep.
      + pose (k := Call (raw (Empty w0 nm ats w1)) nm l (value_of [])). eexists _, _. apply (R_echo name_index pred cb h (Empty w0 nm ats w1) nm ats [] l k eq_refl Ep D eq_refl).
        pose proof (Ok0 h k). pose proof (Ec h k Ep). destruct (cb h k) as [|x|]; [reflexivity|destruct (H0 x eq_refl)|contradiction].
      + pose (k := Call (raw (Empty w0 nm ats w1)) nm l (Some [])). pose proof (Ok0 h k) as H0.
        destruct (cb h k) as [|x|] eqn:E; [| |contradiction]; eexists _, _; (eapply R_empty; [exact Ep|exact D|reflexivity|unfold k in E; rewrite E; reflexivity]).
    - intros w0 nm ats w1 kids w2 w3 IH h. right. destruct (denotes_some (written ats)) as (l & D). destruct (pred h nm) eqn:Ep.
      + pose (k := Call (raw (Elem w0 nm ats w1 kids w2 w3)) nm l (value_of kids)). eexists _, _.
        apply (R_echo name_index pred cb h (Elem w0 nm ats w1 kids w2 w3) nm ats kids l k eq_refl Ep D eq_refl).
        pose proof (Ok0 h k). pose proof (Ec h k Ep). destruct (cb h k) as [|x|]; [reflexivity|destruct (H0 x eq_refl)|contradiction].
      + destruct (IH h) as (o & h' & R). eexists _, _. apply R_inside; [exact Ep|exact R].
    - intros h. eexists _, _. apply R_nil.
    - intros i0 is0 IHi IHs h. destruct i0 as [x|x|x|x|w0 nm ats w1|w0 nm ats w1 kids w2 w3].
      1-4: destruct (IHs h) as (o & h' & R); eexists _, _; constructor; exact R.
      1-2: destruct (IHi h) as [X | (o & h' & R)]; [discriminate|]; destruct (IHs h') as (o2 & h2 & R2); eexists _, _; eapply R_element; eassumption. }
  assert (B : forall is h, exists o h', Render h is o h').
  { clear - A. induction is as [|i is IH]; intros h; [eexists _, _; apply R_nil|].
    destruct (A i h) as [E | (o & h' & R)].
    - destruct (IH h) as (o & h' & R). destruct i; try discriminate; eexists _, _; constructor; exact R.
    - destruct (IH h') as (o2 & h2 & R2). eexists _, _; eapply R_element; eassumption. }
  destruct (B is []) as (o & h & R). exists o, h. rewrite <- (app_nil_r (raws is)). apply P_content; [exact O|left; reflexivity|exact R].
Qed.
End Content.

Definition no_pred (h : list call) (n : bytes) := false.
Definition every (h : list call) (n : bytes) := true.
Definition echo (h : list call) (k : call) := Echo.
Definition again (h : list call) (k : call) := Text (txt "<a/>").
(** An attribute value cut off: the parser reads outside of its buffer. *)
Theorem C93_unclosed_value_refuted : forall f, parse_content [] no_pred echo (20 + f) (txt "<a b=`c") fresh = UB.
Proof. intros f. reflexivity. Qed.
(** An element answered with a text to be parsed in which the predicate holds again: the parser never ends. *)
Theorem C93_reparse_never_ends_refuted : forall f, parse_content [] every again f (txt "<a/>") fresh = NoFuel.
Proof.
  assert (H : forall n f, f < n -> forall sk out calls, parse_content [] every again f (txt "<a/>") (Ps (Lx 0 sk false None) false out calls) = NoFuel).
  { induction n as [|n IH]; intros f Hf sk out calls; [lia|].
    destruct f as [|[|[|[|[|f]]]]]; try reflexivity.
    rewrite parse_content_eq. cbn zeta. rewrite content_eq.
    change (is_token (txt "<a/>") KCharData (with_lex (set_skip false (p_lex (Ps (Lx 0 sk false None) false out calls))) (Ps (Lx 0 sk false None) false out calls)))
      with (Ok (A := option tok) None (Ps (Lx 1 true true (Some (Tok KOpen 0 1))) false out calls)). cbn [bind].
    rewrite content_loop_eq.
    change (is_token (txt "<a/>") KReference (Ps (Lx 1 true true (Some (Tok KOpen 0 1))) false out calls))
      with (Ok (A := option tok) None (Ps (Lx 1 true true (Some (Tok KOpen 0 1))) false out calls)). cbn [bind].
    assert (E : element [] every again (S (S f)) (txt "<a/>") (Ps (Lx 1 true true (Some (Tok KOpen 0 1))) false out calls) = NoFuel).
    { rewrite element_eq.
      change (is_token (txt "<a/>") KOpen (Ps (Lx 1 true true (Some (Tok KOpen 0 1))) false out calls))
        with (Ok (A := option tok) (Some (Tok KOpen 0 1)) (Ps (Lx 1 true true None) false out calls)). cbn [bind].
      change (require_token (txt "<a/>") KName (Ps (Lx 1 true true None) false out calls)) with (Ok (Tok KName 1 2) (Ps (Lx 2 true true None) false out calls)).
      cbn [bind]. cbn zeta.
      match goal with |- context [attributes ?a ?b ?c ?d] => change (attributes a b c d) with (Ok (A := aset) [] (Ps (Lx 4 false false (Some (Tok KSlashClose 2 4))) true out calls)) end.
      cbn [bind].
      change (is_token (txt "<a/>") KSlashClose (Ps (Lx 4 false false (Some (Tok KSlashClose 2 4))) true out calls))
        with (Ok (A := option tok) (Some (Tok KSlashClose 2 4)) (Ps (Lx 4 false false None) true out calls)). cbn [bind p_pre].
      rewrite content_callback_eq. cbn [p_pre every p_calls]. unfold again at 1. cbn zeta.
      match goal with |- context [next_position ?a ?b] => change (next_position a b) with (Ok tt (Ps (Lx 4 false false (Some (Tok KEof 4 4))) true out (calls ++ [Call (txt "<a/>") (txt "a") [] (Some [])]))) end.
      cbn [bind p_out p_calls]. rewrite IH by lia. reflexivity. }
    rewrite E. reflexivity. }
  intros f. exact (H (S f) f (Nat.lt_succ_diag_r f) true [] []).
Qed.
(** The hypotheses are met by a text with every construct in it *)
Definition sample : string := "x&lt;<!-- c --><a b = 'v' ><i/> y </a >&amp;z".
Example C93_ex : Safe (txt sample) /\ answers_ok echo /\ echoes every echo /\
  exists s', parse_content [] no_pred echo 200 (txt sample) fresh = Ok tt s' /\
    p_out s' = txt "x<a b = 'v' ><i/> y </a z" /\ map c_name (p_calls s') = [txt "i"].
Proof.
  split; [apply safe_from_sound; vm_compute; reflexivity|]. split; [intros h k; exact I|]. split; [intros h k _ x; discriminate|].
  eexists. split; [vm_compute; reflexivity|]. split; vm_compute; reflexivity.
Qed.

(** *** C94: what the client is called with *)

(** the call made for an element *)
Definition call_for (i : item) (k : call) : Prop :=
  exists nm ats kids, tag_of i = Some (nm, ats, kids) /\
    c_element k = raw i /\ c_name k = nm /\ denotes (written ats) (c_attributes k) /\ c_value k = value_of kids.
(** Every call is for an element, with its text, its name, its attributes and the text of its children. *)
Theorem C94_calls : forall name_index pred cb x o h, Parsed name_index pred cb [] x o h ->
  Forall (fun k => exists i, call_for i k) h.
Proof.
  intros name_index pred cb.
  assert (H : (forall h is o h', Render name_index pred cb h is o h' -> exists d, h' = h ++ d /\ Forall (fun k => exists i, call_for i k) d) /\
    (forall h i o h', RenderE name_index pred cb h i o h' -> exists d, h' = h ++ d /\ Forall (fun k => exists i, call_for i k) d) /\
    (forall h x o h', Parsed name_index pred cb h x o h' -> exists d, h' = h ++ d /\ Forall (fun k => exists i, call_for i k) d)).
  { apply Render_ind3; try (intros; assumption).
    - intros h. exists []. rewrite app_nil_r. auto.
    - intros h i is o1 h1 o h' _ (d1 & -> & F1) _ (d2 & -> & F2). exists (d1 ++ d2). rewrite app_assoc. split; [reflexivity|]. apply Forall_app. auto.
    - intros h w0 nm ats w1 l k x _ D -> _. eexists. split; [reflexivity|]. constructor; [|constructor].
      exists (Empty w0 nm ats w1), nm, ats, []. cbn. auto.
    - intros h i nm ats kids l k T _ D -> _. eexists. split; [reflexivity|]. constructor; [|constructor]. exists i, nm, ats, kids. cbn. auto.
    - intros h i nm ats kids l k x o h' T _ D -> _ _ (d & -> & F). eexists (_ :: d). rewrite <- app_assoc. split; [reflexivity|].
      constructor; [|exact F]. exists i, nm, ats, kids. cbn. auto. }
  intros x o h P. destruct H as (_ & _ & H). destruct (H _ _ _ _ P) as (d & -> & F). exact F.
Qed.
(** The value is the text of the children but comments at either end, when they do not begin with a comment *)
Theorem C94_value_partial : forall kids, match kids with Comment _ :: _ => False | _ => True end ->
  value_of kids = Some (raws (without_last_comments kids)).
Proof.
  intros kids H. unfold value_of, inner_value. destruct kids as [|i kids]; [reflexivity|]. destruct i; try contradiction; reflexivity.
Qed.
(** When they do, text is lost or the range is not one: <a><!--c-->text<b/></a> is given as <b/>, and for
    <a><!--c-->text</a> the range goes from a null pointer into the buffer. *)
Theorem C94_value_after_comment_refuted :
  (exists kids, items_ok kids (txt "</a>") /\ raws kids = txt "<!--c-->text<b/>" /\ inner_value kids = txt "text<b/>" /\ value_of kids = Some (txt "<b/>")) /\
  (exists s', parse_content [] every echo 100 (txt "<a><!--c-->text</a>") fresh = Ok tt s' /\ map c_value (p_calls s') = [None]) /\
  (exists s', parse_content [] every echo 100 (txt "<a><!--c-->text<b/></a>") fresh = Ok tt s' /\ map c_value (p_calls s') = [Some (txt "<b/>")]).
Proof.
  split; [|split].
  - exists [Comment (txt "c"); Chars (txt "text"); Empty [] (txt "b") [] []]. split.
    + cbn [items_ok item_ok]. split; [|split; [|split; [|exact I]]].
      * intros a b. vm_compute. destruct a as [|p [|q [|r a]]]; cbn; try discriminate; intros [=]; try discriminate.
      * unfold chars_ok, plain. split; [discriminate|]. split; [repeat constructor; discriminate|]. split; [cbn; unfold lt; intros (X & _); apply X; reflexivity|].
        split; [cbn; discriminate|]. intros r. discriminate.
      * assert (B : name_start 98%N) by (right; left; lia).
        split; [constructor|]. split; [split; [exact B|constructor; [left; exact B|constructor]]|]. split; [constructor|]. split; [exact I|constructor].
    + split; [reflexivity|]. split; reflexivity.
  - eexists. split; [vm_compute; reflexivity|]. reflexivity.
  - eexists. split; [vm_compute; reflexivity|]. reflexivity.
Qed.

(** With a predicate on the name only and a client that answers with what it got: the elements it is called for,
    in order, and the output *)
Fixpoint visited (p : bytes -> bool) (i : item) : list item :=
  match i with
  | Empty _ _ _ _ => [i]
  | Elem _ nm _ _ kids _ _ => if p nm then [i] else flat_map (visited p) kids
  | _ => []
  end.
Fixpoint written_out (name_index : list entry) (p : bytes -> bool) (i : item) : bytes :=
  match i with
  | Chars s => s
  | Ref b => reference_text name_index b
  | OpenRef b => open_reference_text name_index b
  | Comment _ => []
  | Empty _ _ _ _ => raw i
  | Elem w0 nm ats w1 kids w2 w3 =>
    if p nm then raw i else tag_bytes w0 nm ats w1 ++ gt :: flat_map (written_out name_index p) kids ++ echoed_close w2 nm w3
  end.
Theorem C94_echo : forall name_index (p : bytes -> bool) cb x o h, (forall h k, cb h k = Echo) ->
  Parsed name_index (fun _ n => p n) cb [] x o h ->
  exists is rest, x = raws is ++ rest /\ items_ok is rest /\ stops rest /\
    o = flat_map (written_out name_index p) is /\ Forall2 call_for (flat_map (visited p) is) h.
Proof.
  intros name_index p cb x o h Ec P.
  assert (H : (forall h is o h', Render name_index (fun _ n => p n) cb h is o h' ->
       o = flat_map (written_out name_index p) is /\ exists d, h' = h ++ d /\ Forall2 call_for (flat_map (visited p) is) d) /\
    (forall h i o h', RenderE name_index (fun _ n => p n) cb h i o h' ->
       o = written_out name_index p i /\ exists d, h' = h ++ d /\ Forall2 call_for (visited p i) d) /\
    (forall h x o h', Parsed name_index (fun _ n => p n) cb h x o h' -> True)).
  { apply Render_ind3; try (intros; exact I).
    - intros h0. split; [reflexivity|]. exists []. rewrite app_nil_r. split; [reflexivity|constructor].
    - intros h0 s is o0 h' _ (-> & d & -> & F). split; [reflexivity|]. exists d. auto.
    - intros h0 s is o0 h' _ (-> & d & -> & F). split; [reflexivity|]. exists d. auto.
    - intros h0 s is o0 h' _ (-> & d & -> & F). split; [reflexivity|]. exists d. auto.
    - intros h0 s is o0 h' _ (-> & d & -> & F). split; [reflexivity|]. exists d. auto.
    - intros h0 i is o1 h1 o0 h' _ (-> & d1 & -> & F1) _ (-> & d2 & -> & F2). split; [reflexivity|]. exists (d1 ++ d2). rewrite app_assoc. split; [reflexivity|].
      cbn [flat_map]. apply Forall2_app; assumption.
    - intros h0 w0 nm ats w1 l k y Hp D -> Ha. rewrite Ec in Ha. injection Ha as <-. split; [reflexivity|]. eexists. split; [reflexivity|].
      constructor; [|constructor]. exists nm, ats, []. cbn. auto.
    - intros h0 w0 nm ats w1 kids w2 w3 o0 h' Hp _ (-> & d & -> & F). cbn [written_out visited]. rewrite Hp. split; [reflexivity|]. exists d. auto.
    - intros h0 i nm ats kids l k T Hp D -> _. destruct i; try discriminate; injection T as ? ? ?; subst; cbn [written_out visited]; rewrite ?Hp; (split; [reflexivity|]);
        eexists; (split; [reflexivity|]); (constructor; [|constructor]); eexists _, _, _; cbn; eauto 10.
    - intros h0 i nm ats kids l k y o0 h' T Hp D -> E. rewrite Ec in E. discriminate. }
  inversion P as [h0 is rest o0 h1 O St R]; subst. destruct (proj1 H _ _ _ _ R) as (-> & d & -> & F). exists is, rest. auto.
Qed.
Example C94_ex : exists s', parse_content [] (fun _ n => bytes_eqb n (txt "b")) echo 200 (txt "<a p='1'><b q='2' r='3' q='4'>t<c/><!--x--></b><d/></a>") fresh = Ok tt s' /\
  p_calls s' = [Call (txt "<b q='2' r='3' q='4'>t<c/><!--x--></b>") (txt "b") [(txt "q", txt "4"); (txt "r", txt "3")] (Some (txt "t<c/>"));
                Call (txt "<d/>") (txt "d") [] (Some [])].
Proof. eexists. split; vm_compute; reflexivity. Qed.

(** *** C95: documents and sequences of elements *)

(** A document that is parsed is optional text (a byte order mark, or anything else), an optional processing
    instruction, and an element; or nothing is written and nobody is called. What follows the element is not looked at. *)
Theorem C95_document_sound : forall name_index pred cb f b s', parse_document name_index pred cb f b fresh = Ok tt s' ->
  (exists t x w i rest, b = t ++ x ++ w ++ raw i ++ rest /\ leading t (x ++ w ++ raw i ++ rest) /\ prolog x /\ spaces w /\
     tag_of i <> None /\ item_ok i rest /\ RenderE name_index pred cb [] i (p_out s') (p_calls s')) \/
  p_out s' = [] /\ p_calls s' = [].
Proof. exact document_sound. Qed.
Theorem C95_document_complete : forall name_index pred cb t x w i rest o h,
  leading t (x ++ w ++ raw i ++ rest) -> prolog x -> spaces w -> (x = [] -> w = []) ->
  tag_of i <> None -> item_ok i rest -> readable rest -> RenderE name_index pred cb [] i o h ->
  exists F, forall f, F <= f -> exists s', parse_document name_index pred cb f (t ++ x ++ w ++ raw i ++ rest) fresh = Ok tt s' /\
    p_out s' = o /\ p_calls s' = h.
Proof.
  intros name_index pred cb t x w i rest o h Ld Px W Wx Tg Oki Rd R.
  apply document_complete; try assumption.
  assert (V : sits (t ++ x ++ w ++ raw i ++ rest) (length t + length x + length w + length (raw i)) rest).
  { exists (t ++ x ++ w ++ raw i). split; [rewrite <- !app_assoc; reflexivity|rewrite !app_length; lia]. }
  destruct (readable_get _ _ _ V Rd) as (k & l' & G & _). exists k, l'. exact G.
Qed.
(** A sequence is elements with text between them, up to the first thing that is neither *)
Theorem C95_sequence_sound : forall name_index pred cb f b s', parse_element_sequence name_index pred cb f b fresh = Ok tt s' ->
  Elements name_index pred cb [] b (p_out s') (p_calls s').
Proof.
  intros name_index pred cb f b s' H. unfold parse_element_sequence in H.
  destruct (sequence_sound name_index pred cb f b (with_lex (set_skip false (p_lex fresh)) fresh) 0 b s' (at_here b 0 false false) (sits_0 b) eq_refl H) as (o & E & Eo).
  cbn [fresh with_lex p_out p_calls app] in *. rewrite Eo. exact E.
Qed.
Theorem C95_sequence_complete : forall name_index pred cb b o h, Sequence name_index pred cb [] b o h ->
  exists F, forall f, F <= f -> exists s', parse_element_sequence name_index pred cb f b fresh = Ok tt s' /\ p_out s' = o /\ p_calls s' = h.
Proof.
  intros name_index pred cb b o h Sq.
  destruct (sequence_complete name_index pred cb _ _ _ _ Sq b (with_lex (set_skip false (p_lex fresh)) fresh) 0 (at_here b 0 false false) (sits_0 b) eq_refl eq_refl) as (F & H).
  exists F. exact H.
Qed.
(** What one would not expect to pass for a document: text before the root, no root at all, anything after it *)
Theorem C95_document_refuted :
  (exists s', parse_document [] no_pred echo 50 (txt "junk<a/>") fresh = Ok tt s' /\ p_out s' = txt "<a/>") /\
  (exists s', parse_document [] no_pred echo 50 (txt "junk") fresh = Ok tt s' /\ p_out s' = []) /\
  (exists s', parse_document [] no_pred echo 50 (txt "<!-- c --><a/>") fresh = Ok tt s' /\ p_out s' = []) /\
  (exists s', parse_document [] no_pred echo 50 (txt "<a/></b></c>") fresh = Ok tt s' /\ p_out s' = txt "<a/>").
Proof. split; [|split; [|split]]; eexists; (split; [vm_compute; reflexivity|reflexivity]). Qed.
(** A comment ends a sequence of elements, and text before the first is its end *)
Theorem C95_sequence_refuted :
  (exists s', parse_element_sequence [] no_pred echo 50 (txt "<a/><!-- c --><b/>") fresh = Ok tt s' /\ p_out s' = txt "<a/>") /\
  (exists s', parse_element_sequence [] no_pred echo 50 (txt " <a/><b/>") fresh = Ok tt s' /\ p_out s' = []).
Proof. split; eexists; (split; [vm_compute; reflexivity|reflexivity]). Qed.
Example C95_ex :
  (exists s', parse_document [] no_pred echo 50 ([239; 187; 191]%N ++ txt "<?xml version='1.0'?> <a b='c'>x<d/></a>") fresh = Ok tt s' /\
     p_out s' = txt "<a b='c'>x<d/></a>" /\ map c_name (p_calls s') = [txt "d"]) /\
  (exists s', parse_element_sequence [] no_pred echo 50 (txt "<a/> <b>t</b> <c/>") fresh = Ok tt s' /\ p_out s' = txt "<a/><b>t</b><c/>").
Proof.
  split; eexists; (split; [vm_compute; reflexivity|]); [split|]; vm_compute; reflexivity.
Qed.
