(** What the XML parser accepts is a sequence of well-formed items, and what it does with them is what
    Xml_Spec says. *)
From Verif Require Import Prelude Entity_Model Xml_Model Xml_Spec Xml_Lex Xml_Attr.
Local Open Scope nat_scope.
Ltac Zify.zify_post_hook ::= idtac.

Ltac apps := repeat (progress (rewrite <- ?app_assoc; cbn [app])).
Ltac lens := repeat (progress (rewrite ?app_length; cbn [length])).

(** *** Positions *)
Definition sits (b : bytes) (p : nat) (u : bytes) : Prop := exists pre, b = pre ++ u /\ length pre = p.
Lemma sits_skipn b p u : sits b p u -> skipn p b = u.
Proof. intros (pre & -> & <-). rewrite skipn_app, skipn_all, Nat.sub_diag. reflexivity. Qed.
Lemma sits_length b p u : sits b p u -> length b = p + length u.
Proof. intros (pre & -> & <-). apply app_length. Qed.
Lemma sits_app b p u v : sits b p (u ++ v) -> sits b (p + length u) v.
Proof.
  intros (pre & -> & <-). exists (pre ++ u). rewrite <- app_assoc, app_length. auto.
Qed.
Lemma sits_cons b p c v : sits b p (c :: v) -> sits b (p + 1) v.
Proof. intros H. exact (sits_app b p [c] v H). Qed.
Lemma sits_0 b : sits b 0 b.
Proof. exists []. auto. Qed.
Lemma sub_sits b p u v : sits b p (u ++ v) -> sub b p (p + length u) = u.
Proof.
  intros H. unfold sub. rewrite (sits_skipn _ _ _ H). replace (p + length u - p) with (length u) by lia.
  rewrite firstn_app, Nat.sub_diag, firstn_all, firstn_O, app_nil_r. reflexivity.
Qed.
Lemma sub_sits_at b p q u v n : sits b p (u ++ v) -> q = p + length u -> n = q -> sub b p n = u.
Proof. intros H -> ->. exact (sub_sits _ _ _ _ H). Qed.

(** *** Reading a token *)
Lemma get_back b l t l' : get_token b l = GTok t l' -> l_back l' = None.
Proof.
  unfold get_token. destruct (l_back l) as [t0|]; [intros [= <- <-]; reflexivity|].
  destruct (length b <? l_pos l); [discriminate|]. cbn zeta.
  destruct (_ =? length b); [intros [= <- <-]; reflexivity|].
  destruct (parse_token _ _); [discriminate..|]. intros [= <- <-]. reflexivity.
Qed.
Definition At (b : bytes) (l : lx) (p : nat) (sk np : bool) : Prop :=
  l = Lx p sk np None \/ exists t l', get_token b (Lx p sk np None) = GTok t l' /\ l = putback t l'.
Lemma get_at b l p sk np : At b l p sk np -> get_token b l = get_token b (Lx p sk np None).
Proof.
  intros [-> | (t & l' & G & ->)]; [reflexivity|]. rewrite G. pose proof (get_back _ _ _ _ G) as B.
  destruct l' as [q s n bk]. cbn in B. subst bk. reflexivity.
Qed.
Lemma at_here b p sk np : At b (Lx p sk np None) p sk np.
Proof. left. reflexivity. Qed.

(** a token, or the end of the buffer, after the white space that is skipped *)
Inductive Reads (b : bytes) (p : nat) (sk np : bool) : tok -> lx -> bytes -> bytes -> Prop :=
| Rd_eof : forall w, spaces w -> (sk = false -> w = []) -> sits b p w ->
    Reads b p sk np (Tok KEof (p + length w) (p + length w)) (Lx (p + length w) sk np None) w []
| Rd_tok : forall w u k f l n, spaces w -> (sk = false -> w = []) -> (sk = true -> ~ begins space u) ->
    sits b p (w ++ u) -> Token np u k f l n ->
    Reads b p sk np (Tok k (p + length w + f) (p + length w + l))
          (Lx (p + length w + n) (skip_after k sk) (name_after k np) None) w u.

Lemma token_nonempty np u k f l n : Token np u k f l n -> u <> [].
Proof.
  intros H. destruct H; try discriminate.
  - destruct n as [|c n]; [contradiction|discriminate].
  - destruct c as [|x c]; [contradiction|discriminate].
Qed.
Lemma get_reads b p sk np t l' v : sits b p v -> get_token b (Lx p sk np None) = GTok t l' ->
  exists w u, Reads b p sk np t l' w u /\ v = w ++ u.
Proof.
  intros V. unfold get_token. cbn [l_back l_pos l_skip l_name]. pose proof (sits_length _ _ _ V) as L.
  destruct (Nat.ltb_spec (length b) p) as [?|?]; [lia|]. cbn zeta. rewrite (sits_skipn _ _ _ V).
  assert (W : exists w u, v = w ++ u /\ spaces w /\ (sk = false -> w = []) /\ (sk = true -> ~ begins space u) /\
                          (if sk then white_length v else 0) = length w).
  { destruct sk.
    - destruct (white_split v) as (w & u & -> & H1 & H2 & H3). exists w, u. repeat split; auto; discriminate.
    - exists [], v. repeat split; auto; [constructor|discriminate]. }
  destruct W as (w & u & -> & W1 & W2 & W3 & ->).
  destruct (Nat.eqb_spec (p + length w) (length b)) as [E|NE].
  - intros [= <- <-]. assert (u = []) as ->.
    { rewrite app_length in L. destruct u; [reflexivity|cbn in L; lia]. }
    exists w, []. split; [|reflexivity]. constructor; auto. rewrite app_nil_r in V. exact V.
  - pose proof (sits_app _ _ _ _ V) as V'. rewrite (sits_skipn _ _ _ V').
    destruct u as [|c u]; [rewrite app_nil_r in *; lia|].
    destruct (parse_token np (c :: u)) as [| |k f l n] eqn:P; [discriminate..|]. intros [= <- <-].
    exists w, (c :: u). split; [|reflexivity]. apply Rd_tok; auto. apply parse_token_iff, P.
Qed.
Lemma reads_get b p sk np t l' w u : Reads b p sk np t l' w u -> get_token b (Lx p sk np None) = GTok t l'.
Proof.
  intros [w0 W1 W2 V | w0 u0 k f l n W1 W2 W3 V T]; unfold get_token; cbn [l_back l_pos l_skip l_name];
    pose proof (sits_length _ _ _ V) as L; destruct (Nat.ltb_spec (length b) p) as [?|?]; try lia; cbn zeta;
    rewrite (sits_skipn _ _ _ V).
  - replace (if sk then white_length w0 else 0) with (length w0).
    + rewrite L, Nat.eqb_refl. reflexivity.
    + destruct sk; [|rewrite W2; reflexivity]. pose proof (white_length_spec w0 [] W1 (fun x => x)) as Hw.
      rewrite app_nil_r in Hw. auto.
  - replace (if sk then white_length (w0 ++ u0) else 0) with (length w0).
    + pose proof (token_nonempty _ _ _ _ _ _ T) as NE. rewrite app_length in L.
      destruct u0 as [|c u0]; [contradiction|]. cbn [length] in L.
      destruct (Nat.eqb_spec (p + length w0) (length b)) as [?|?]; [lia|].
      rewrite (sits_skipn _ _ _ (sits_app _ _ _ _ V)). rewrite (token_parses _ _ _ _ _ _ T). reflexivity.
    + destruct sk; [|rewrite W2; reflexivity]. rewrite white_length_spec; auto.
Qed.
Lemma get_beyond b p sk np : length b < p -> get_token b (Lx p sk np None) = GUB.
Proof. intros H. unfold get_token. cbn. destruct (Nat.ltb_spec (length b) p); [reflexivity|lia]. Qed.

(** *** The token operations of the parser *)
Lemma bind_ok {A B} (r : res A) (k : A -> ps -> res B) (x : B) s' :
  bind r k = Ok x s' -> exists a s, r = Ok a s /\ k a s = Ok x s'.
Proof. destruct r; cbn; try discriminate. intros H. exists a, s. auto. Qed.
Ltac binv H a s E := apply bind_ok in H; destruct H as (a & s & E & H).

Lemma next_token_ok b s t s' p sk np : At b (p_lex s) p sk np -> next_token b s = Ok t s' ->
  exists l', get_token b (Lx p sk np None) = GTok t l' /\ s' = with_lex l' s.
Proof.
  intros A. unfold next_token. rewrite (get_at _ _ _ _ _ A). destruct (get_token b (Lx p sk np None)); try discriminate.
  intros [= <- <-]. eexists. split; reflexivity.
Qed.
Lemma kind_eqbP a b : reflect (a = b) (kind_eqb a b).
Proof. destruct a, b; constructor; congruence. Qed.
Lemma is_token_some b k s t s' p sk np : At b (p_lex s) p sk np -> is_token b k s = Ok (Some t) s' ->
  exists l', get_token b (Lx p sk np None) = GTok t l' /\ t_kind t = k /\ s' = with_lex l' s.
Proof.
  intros A H. unfold is_token in H. binv H t0 s0 E. destruct (next_token_ok _ _ _ _ _ _ _ A E) as (l' & G & ->).
  destruct (kind_eqbP (t_kind t0) k) as [K|K]; [|discriminate]. injection H as <- <-. exists l'. auto.
Qed.
Lemma is_token_none b k s s' p sk np : At b (p_lex s) p sk np -> is_token b k s = Ok None s' ->
  exists t l', get_token b (Lx p sk np None) = GTok t l' /\ t_kind t <> k /\ s' = with_lex (putback t l') s.
Proof.
  intros A H. unfold is_token in H. binv H t0 s0 E. destruct (next_token_ok _ _ _ _ _ _ _ A E) as (l' & G & ->).
  destruct (kind_eqbP (t_kind t0) k) as [K|K]; [discriminate|]. injection H as <-. exists t0, l'. auto.
Qed.
Lemma require_ok b k s t s' p sk np : At b (p_lex s) p sk np -> require_token b k s = Ok t s' ->
  exists l', get_token b (Lx p sk np None) = GTok t l' /\ t_kind t = k /\ s' = with_lex l' s.
Proof.
  intros A H. unfold require_token in H. binv H t0 s0 E. destruct (next_token_ok _ _ _ _ _ _ _ A E) as (l' & G & ->).
  destruct (kind_eqbP (t_kind t0) k) as [K|K].
  - injection H as <- <-. exists l'. auto.
  - unfold throw in H. binv H t1 s1 E1. discriminate.
Qed.
Lemma require_here b k s t s' p sk np : require_token b k s = Ok t s' -> p_lex s = Lx p sk np None ->
  exists l', get_token b (Lx p sk np None) = GTok t l' /\ t_kind t = k /\ s' = with_lex l' s.
Proof. intros H E. apply (require_ok b k s t s' p sk np); [left; exact E|exact H]. Qed.
Lemma at_putback b t l' p sk np s : get_token b (Lx p sk np None) = GTok t l' -> At b (p_lex (with_lex (putback t l') s)) p sk np.
Proof. intros G. right. exists t, l'. auto. Qed.

(** *** Attributes *)
Lemma reads_pos b p sk np t l' w u : Reads b p sk np t l' w u -> p <= length b.
Proof. intros [? ? ? V | ? ? ? ? ? ? ? ? ? V ?]; apply sits_length in V; lia. Qed.
Lemma get_pos b p sk np t l' : get_token b (Lx p sk np None) = GTok t l' -> p <= length b.
Proof. unfold get_token. cbn. destruct (Nat.ltb_spec (length b) p); [discriminate|intros _; lia]. Qed.
Lemma attributes_pos fuel b acc s acc' s' p sk np : At b (p_lex s) p sk np ->
  attributes fuel b acc s = Ok acc' s' -> p <= length b.
Proof.
  intros A H. destruct fuel as [|fuel]; [discriminate|]. cbn [attributes] in H. binv H n s1 E.
  unfold is_token in E. binv E t s2 E2. destruct (next_token_ok _ _ _ _ _ _ _ A E2) as (l' & G & _). exact (get_pos _ _ _ _ _ _ G).
Qed.

Lemma attributes_sound fuel : forall b acc s acc' s' p v ats0,
  At b (p_lex s) p true true -> sits b p v -> built ats0 acc -> attributes fuel b acc s = Ok acc' s' ->
  exists ats r, v = flat_map attr_bytes ats ++ r /\ Forall attr_ok ats /\ built (ats0 ++ written ats) acc' /\
    exists t l', get_token b (Lx (p + length (flat_map attr_bytes ats)) true true None) = GTok t l' /\
      t_kind t <> KName /\ s' = with_lex (putback t l') s.
Proof.
  induction fuel as [|fuel IH]; intros b acc s acc' s' p v ats0 A V Bd H; [discriminate|].
  cbn [attributes] in H. binv H n s1 E. destruct n as [n|].
  2:{ injection H as <- <-. destruct (is_token_none _ _ _ _ _ _ _ A E) as (t & l' & G & K & ->).
      exists [], v. cbn [flat_map app length written map]. rewrite Nat.add_0_r, app_nil_r.
      split; [reflexivity|]. split; [constructor|]. split; [exact Bd|]. exists t, l'. auto. }
  destruct (is_token_some _ _ _ _ _ _ _ _ A E) as (l1 & G1 & K1 & ->).
  destruct (get_reads _ _ _ _ _ _ _ V G1) as (w & u & R & ->).
  inversion R as [? ? ? ? | ? ? k f l m W1 W2 W3 V1 T]; subst; [discriminate|]. cbn [t_kind] in K1. subst k.
  inversion T as [| | | | | |nm r1 Hn X1 X2| | | | | |]; subst.
  cbn [t_first t_last] in H. rewrite Nat.add_0_r in H.
  binv H eq2 s2 E2.
  destruct (require_here _ _ _ _ _ (p + length w + length nm) true true E2 eq_refl) as (l2 & G2 & K2 & ->).
  pose proof (sits_app _ _ _ _ V1) as V2. pose proof (sits_app _ _ _ _ V2) as V3.
  destruct (get_reads _ _ _ _ _ _ _ V3 G2) as (w1 & u1 & R2 & ->).
  inversion R2 as [? ? ? ? | ? ? k f l m W1' W2' W3' V4 T2]; subst; [discriminate|]. cbn [t_kind] in K2. subst k.
  inversion T2 as [| | | | | | |r2 Hn2 | | | | |]; subst.
  binv H val s3 E3.
  destruct (require_here _ _ _ _ _ (p + length w + length nm + length w1 + 1) true true E3 eq_refl) as (l3 & G3 & K3 & ->).
  pose proof (sits_cons _ _ _ _ (sits_app _ _ _ _ V4)) as V5.
  destruct (get_reads _ _ _ _ _ _ _ V5 G3) as (w2 & u2 & R3 & ->).
  inversion R3 as [? ? ? ? | ? ? k f l m W1'' W2'' W3'' V6 T3]; subst; [discriminate|]. cbn [t_kind] in K3. subst k.
  set (q1 := p + length w + length nm + length w1 + 1 + length w2) in *.
  pose proof (sits_app _ _ _ _ V6) as V7. fold q1 in V7. cbn [t_first t_last] in H.
  inversion T3 as [| | | | | | | |q x r3 Hn3 Q X3 X4|q x Hn3 Q X3 X4| | |]; subst.
  - assert (V8 : sits b (q1 + 1) (x ++ q :: r3)) by exact (sits_cons _ _ _ _ V7).
    pose proof (sits_cons _ _ _ _ (sits_app _ _ _ _ V8)) as V9.
    eapply IH in H; [|left; reflexivity| |apply built_insert; exact Bd].
    2:{ cbn [with_lex p_lex]. replace (q1 + (length x + 2)) with (q1 + 1 + length x + 1) by lia. exact V9. }
    destruct H as (ats & r & -> & F & Bd' & t & l' & G & K & ->).
    exists (Attr w nm w1 w2 q x :: ats), r. split; [|split; [|split]].
    + cbn [flat_map attr_bytes a_before a_name a_w1 a_w2 a_quote a_text].
      unfold attr_bytes. cbn [a_before a_name a_w1 a_w2 a_quote a_text]. apps. reflexivity.
    + constructor; [|exact F]. unfold attr_ok. cbn. tauto.
    + cbn [written map a_name a_text]. unfold written in Bd'. rewrite <- app_assoc in Bd'. cbn [app tr_text] in Bd'.
      replace (sub b (p + length w) (p + length w + length nm)) with nm in Bd' by (symmetry; exact (sub_sits _ _ _ _ V2)).
      replace (sub b (q1 + 1) (q1 + (length x + 1))) with x in Bd'; [exact Bd'|].
      symmetry. replace (q1 + (length x + 1)) with (q1 + 1 + length x) by lia. exact (sub_sits _ _ _ _ V8).
    + exists t, l'. split; [|split; [exact K|reflexivity]]. rewrite <- G. f_equal. f_equal.
      cbn [flat_map]. rewrite app_length. unfold attr_bytes. cbn [a_before a_name a_w1 a_w2 a_quote a_text].
      rewrite !app_length. cbn [length]. rewrite !app_length. cbn [length]. rewrite !app_length. cbn [length]. unfold q1. lia.
  - exfalso. eapply attributes_pos in H; [|left; reflexivity]. cbn [l_pos] in H.
    pose proof (sits_length _ _ _ V7) as L. cbn [length] in L. lia.
Qed.

(** *** The value an element is given *)
Definition step (v : vr) (p : nat) (i : item) : vr :=
  match i with
  | Chars s => extend_chars v (p + length s)
  | Comment _ => v
  | _ => extend v p (p + length (raw i))
  end.
Fixpoint collect (v : vr) (p : nat) (is : list item) : vr :=
  match is with [] => v | i :: is' => collect (step v p i) (p + length (raw i)) is' end.
Definition collect0 (p : nat) (is : list item) : vr :=
  match is with
  | Chars s :: is' => collect (VRng p (p + length s)) (p + length s) is'
  | _ => collect VNull p is
  end.

Lemma drop_while_snoc {A} (p : A -> bool) l x :
  drop_while p (l ++ [x]) = match drop_while p l with [] => if p x then [] else [x] | l' => l' ++ [x] end.
Proof. induction l as [|a l IH]; cbn; [reflexivity|]. destruct (p a); [exact IH|reflexivity]. Qed.
Lemma wl_cons i is : without_last_comments (i :: is) =
  match without_last_comments is with [] => if is_comment_item i then [] else [i] | l => i :: l end.
Proof.
  unfold without_last_comments. cbn [rev]. rewrite drop_while_snoc.
  destruct (drop_while is_comment_item (rev is)) as [|a l]; [destruct (is_comment_item i); reflexivity|].
  rewrite rev_app_distr. cbn [rev app]. destruct (rev l ++ [a]) eqn:E; [destruct (rev l); discriminate|reflexivity].
Qed.
Lemma collect_rng f is : forall l p, collect (VRng f l) p is =
  VRng f (match without_last_comments is with [] => l | is' => p + length (raws is') end).
Proof.
  induction is as [|i is IH]; intros l p; [reflexivity|]. cbn [collect]. rewrite wl_cons.
  assert (S : step (VRng f l) p i = VRng f (if is_comment_item i then l else p + length (raw i))) by (destruct i; reflexivity).
  rewrite S, IH. f_equal. destruct (without_last_comments is) as [|j is'].
  - destruct (is_comment_item i); [reflexivity|]. unfold raws. cbn. rewrite app_nil_r. reflexivity.
  - unfold raws. cbn [flat_map]. rewrite !app_length. lia.
Qed.
Lemma raws_app a b : raws (a ++ b) = raws a ++ raws b.
Proof. unfold raws. apply flat_map_app. Qed.
Lemma wl_prefix is : exists c, is = without_last_comments is ++ c.
Proof.
  induction is as [|i is (c & E)]; [exists []; reflexivity|]. rewrite wl_cons.
  destruct (without_last_comments is) as [|j l].
  - destruct (is_comment_item i); [exists (i :: is); reflexivity|exists is; reflexivity].
  - exists c. cbn. f_equal. exact E.
Qed.
Lemma collect_start b p i is rest : sits b p (raws (i :: is) ++ rest) -> is_comment_item i = false ->
  vr_bytes b (collect (VRng p (p + length (raw i))) (p + length (raw i)) is) = Some (raws (without_last_comments (i :: is))).
Proof.
  intros V C. rewrite collect_rng. cbn [vr_bytes]. f_equal.
  assert (E : (match without_last_comments is with [] => p + length (raw i) | is' => p + length (raw i) + length (raws is') end) =
              p + length (raws (without_last_comments (i :: is)))).
  { rewrite wl_cons, C. destruct (without_last_comments is); unfold raws; cbn [flat_map]; rewrite !app_length; cbn [length]; lia. }
  rewrite E. destruct (wl_prefix (i :: is)) as (c & Ec). rewrite Ec in V at 1. rewrite raws_app, <- app_assoc in V.
  exact (sub_sits _ _ _ _ V).
Qed.
Lemma drop_while_keeps {A} (p : A -> bool) l x l' : drop_while p l = x :: l' -> p x = false.
Proof. induction l as [|a l IH]; cbn; [discriminate|]. destruct (p a) eqn:E; [exact IH|]. intros [= <- <-]. exact E. Qed.
Lemma collect_no_start b is : forall v p rest, (forall f l, v <> VRng f l) -> sits b p (raws is ++ rest) ->
  vr_bytes b (collect v p is) =
  match drop_while (fun i => is_comment_item i || is_chars_item i) is with
  | [] => if existsb is_chars_item is then None else vr_bytes b v
  | is' => Some (raws (without_last_comments is'))
  end.
Proof.
  induction is as [|i is IH]; intros v p rest N V; [reflexivity|]. cbn [collect drop_while existsb].
  pose proof V as V0. unfold raws in V. cbn [flat_map] in V. fold (raws is) in V. rewrite <- app_assoc in V.
  apply sits_app in V.
  destruct i; cbn [is_comment_item is_chars_item orb].
  - assert (S : step v p (Chars s) = VWild (p + length s)) by (destruct v; try reflexivity; destruct (N f l eq_refl)).
    rewrite S, (IH _ _ rest); [|discriminate|exact V].
    destruct (drop_while _ is) as [|j l]; [|reflexivity]. destruct (existsb is_chars_item is); reflexivity.
  - assert (S : step v p (Ref b0) = VRng p (p + length (raw (Ref b0)))) by (destruct v; try reflexivity; destruct (N f l eq_refl)).
    rewrite S. apply (collect_start _ _ _ _ rest); [exact V0|reflexivity].
  - assert (S : step v p (OpenRef b0) = VRng p (p + length (raw (OpenRef b0)))) by (destruct v; try reflexivity; destruct (N f l eq_refl)).
    rewrite S. apply (collect_start _ _ _ _ rest); [exact V0|reflexivity].
  - cbn [step]. rewrite (IH _ _ rest); auto.
  - assert (S : step v p (Empty w0 nm ats w1) = VRng p (p + length (raw (Empty w0 nm ats w1)))) by (destruct v; try reflexivity; destruct (N f l eq_refl)).
    rewrite S. apply (collect_start _ _ _ _ rest); [exact V0|reflexivity].
  - assert (S : step v p (Elem w0 nm ats w1 kids w2 w3) = VRng p (p + length (raw (Elem w0 nm ats w1 kids w2 w3)))) by (destruct v; try reflexivity; destruct (N f l eq_refl)).
    rewrite S. apply (collect_start _ _ _ _ rest); [exact V0|reflexivity].
Qed.
Lemma collect_value b p is rest : sits b p (raws is ++ rest) -> vr_bytes b (collect0 p is) = value_of is.
Proof.
  intros V. destruct is as [|i is]; [reflexivity|].
  assert (K : is_comment_item i = true \/ is_comment_item i = false /\
    vr_bytes b (collect0 p (i :: is)) = Some (raws (without_last_comments (i :: is)))).
  { destruct i; cbn [is_comment_item]; auto; right; (split; [reflexivity|]); unfold collect0; cbn [collect step extend];
      refine (collect_start b p _ is rest V _); reflexivity. }
  destruct K as [K | [K E]].
  - destruct i; try discriminate. unfold collect0. rewrite (collect_no_start b _ _ _ rest); [|discriminate|exact V].
    unfold value_of. reflexivity.
  - rewrite E. unfold value_of, inner_value. cbn [drop_while]. rewrite K. destruct i; try discriminate; reflexivity.
Qed.

(** *** End tags *)
Lemma e_tag_sound b s n c s' p v : At b (p_lex s) p false false -> sits b p v -> is_e_tag b s = Ok (Some (n, c)) s' ->
  exists w2 nm w3 r, v = close_bytes w2 nm w3 ++ r /\ spaces w2 /\ xname nm /\ spaces w3 /\
    t_first n = p + 2 + length w2 /\ t_last n = p + 2 + length w2 + length nm /\
    t_last c = p + length (close_bytes w2 nm w3) /\
    s' = with_lex (Lx (p + length (close_bytes w2 nm w3)) false false None) s.
Proof.
  intros A V H. unfold is_e_tag in H. binv H o s1 E. destruct o as [o|]; [|discriminate].
  destruct (is_token_some _ _ _ _ _ _ _ _ A E) as (l1 & G1 & K1 & ->).
  destruct (get_reads _ _ _ _ _ _ _ V G1) as (w & u & R & ->).
  inversion R as [? ? ? ? | ? ? k f l m W1 W2 W3 V1 T]; subst; [discriminate|]. cbn [t_kind] in K1. subst k.
  rewrite (W2 eq_refl) in *. inversion T; subst. cbn [app length] in *.
  binv H n1 s2 E2. destruct (require_here _ _ _ _ _ (p + 0 + 2) true true E2 eq_refl) as (l2 & G2 & K2 & ->).
  assert (V2 : sits b (p + 0 + 2) r) by (pose proof (sits_cons _ _ _ _ (sits_cons _ _ _ _ V1)) as X; replace (p + 0 + 2) with (p + 1 + 1) by lia; exact X).
  destruct (get_reads _ _ _ _ _ _ _ V2 G2) as (w2 & u2 & R2 & ->).
  inversion R2 as [? ? ? ? | ? ? k f l m W1' W2' W3' V4 T2]; subst; [discriminate|]. cbn [t_kind] in K2. subst k.
  inversion T2 as [| | | | | |nm r1 Hn X1 X2| | | | | |]; subst.
  binv H c1 s3 E3. destruct (require_here _ _ _ _ _ (p + 0 + 2 + length w2 + length nm) true true E3 eq_refl) as (l3 & G3 & K3 & ->).
  pose proof (sits_app _ _ _ _ (sits_app _ _ _ _ V4)) as V5.
  destruct (get_reads _ _ _ _ _ _ _ V5 G3) as (w3 & u3 & R3 & ->).
  inversion R3 as [? ? ? ? | ? ? k f l m W1'' W2'' W3'' V6 T3]; subst; [discriminate|]. cbn [t_kind] in K3. subst k.
  inversion T3; subst. injection H as <- <- <-. exists w2, nm, w3, r. cbn [t_first t_last].
  assert (L : length (close_bytes w2 nm w3) = 2 + length w2 + length nm + length w3 + 1) by (unfold close_bytes; lens; lia).
  split; [unfold close_bytes; apps; reflexivity|]. split; [assumption|]. split; [assumption|]. split; [assumption|].
  split; [lia|]. split; [lia|]. split; [lia|]. unfold with_lex. cbn [p_pre p_out p_calls]. f_equal. cbn [skip_after name_after].
  f_equal. lia.
Qed.
Lemma last2_split w2 : exists a, lt :: slash :: w2 = a ++ last2 (lt :: slash :: w2) /\ length a = length w2.
Proof.
  exists (firstn (length w2) (lt :: slash :: w2)). unfold last2. cbn [length].
  replace (S (S (length w2)) - 2) with (length w2) by lia. split; [symmetry; apply firstn_skipn|].
  rewrite firstn_length. cbn [length]. lia.
Qed.
Lemma echo_bytes b p w2 nm w3 r : sits b p (close_bytes w2 nm w3 ++ r) ->
  sub b (p + 2 + length w2 - 2) (p + 2 + length w2 + length nm + 1) = echoed_close w2 nm w3.
Proof.
  intros V. destruct (last2_split w2) as (a & E & L).
  assert (L2 : length (last2 (lt :: slash :: w2)) = 2).
  { unfold last2. rewrite skipn_length. cbn [length]. lia. }
  assert (F : length (firstn 1 (w3 ++ [gt])) = 1) by (destruct w3; reflexivity).
  assert (X : sits b (p + length w2) (echoed_close w2 nm w3 ++ skipn 1 (w3 ++ [gt]) ++ r)).
  { unfold close_bytes in V. replace ((lt :: slash :: w2 ++ nm ++ w3 ++ [gt]) ++ r) with
      (a ++ (last2 (lt :: slash :: w2) ++ nm ++ (w3 ++ [gt]) ++ r)) in V.
    - apply sits_app in V. rewrite L in V. unfold echoed_close. apps.
      rewrite (app_assoc (firstn 1 _) (skipn 1 _)), firstn_skipn. apps. apps. rewrite <- app_assoc in V. cbn [app] in V. exact V.
    - rewrite app_assoc, <- E. apps. reflexivity. }
  replace (p + 2 + length w2 - 2) with (p + length w2) by lia.
  replace (p + 2 + length w2 + length nm + 1) with (p + length w2 + length (echoed_close w2 nm w3)).
  - exact (sub_sits _ _ _ _ X).
  - unfold echoed_close. rewrite !app_length, L2, F. lia.
Qed.

Lemma item_ok_elem w0 nm ats w1 kids w2 w3 next :
  item_ok (Elem w0 nm ats w1 kids w2 w3) next <->
  tag_ok w0 nm ats w1 /\ spaces w2 /\ spaces w3 /\ items_ok kids (close_bytes w2 nm w3 ++ next).
Proof.
  cbn [item_ok].
  assert (E : forall is, ((fix all (is : list item) : Prop :=
       match is with
       | [] => True
       | i :: is' => item_ok i (raws is' ++ close_bytes w2 nm w3 ++ next) /\ all is'
       end) is) <-> items_ok is (close_bytes w2 nm w3 ++ next)).
  { induction is as [|i is IH]; cbn [items_ok]; [tauto|]. rewrite IH. tauto. }
  rewrite E. tauto.
Qed.

Section Sound.
Variable name_index : list entry.
Variable pred : list call -> bytes -> bool.
Variable cb : list call -> call -> answer.
Notation element := (element name_index pred cb).
Notation content_callback := (content_callback name_index pred cb).
Notation content := (content name_index pred cb).
Notation content_loop := (content_loop name_index pred cb).
Notation parse_content := (parse_content name_index pred cb).
Notation Render := (Render name_index pred cb).
Notation RenderE := (RenderE name_index pred cb).
Notation Parsed := (Parsed name_index pred cb).

Lemma element_eq (fuel : nat) (b : bytes) (s : ps) :
  element (S fuel) b s =
    let* (o, s) := is_token b KOpen s in
    match o with
    | None => Ok None s
    | Some o =>
      let* (n, s) := require_token b KName s in
      let start_tag := sub b (t_first n) (t_last n) in
      let parent := if p_pre s then false else pred (p_calls s) start_tag in
      let s := with_pre (p_pre s || parent) s in
      let* (ats, s) := attributes (S (length b)) b [] s in
      let* (sc, s) := is_token b KSlashClose s in
      match sc with
      | Some c =>
        if p_pre s then content_callback fuel b (t_first o) (t_last c) start_tag ats VNull parent s
        else
          let e := sub b (t_first o) (t_last c) in
          let k := Call e start_tag (texts ats) (Some []) in
          match answer_bytes e (cb (p_calls s) k) with
          | Some x => Ok (Some VNull) (emit x (log k s))
          | None => UB
          end
      | None =>
        let* (c, s) := require_token b KClose s in
        let s := if p_pre s then s else emit (sub b (t_first o) (t_last c)) s in
        let* (v, s) := content fuel b s in
        let* (e, s) := is_e_tag b s in
        match e with
        | None => Exn
        | Some (n', c') =>
          let end_tag := sub b (t_first n') (t_last n') in
          if negb (range_equal start_tag end_tag) then Exn else
          if p_pre s then content_callback fuel b (t_first o) (t_last c') start_tag ats v parent s
          else
            match vr_bytes b v with
            | None => UB
            | Some x => Ok (Some VNull) (emit (sub b (t_first n' - 2) (t_last n' + 1)) (emit x s))
            end
        end
      end
    end.
Proof. reflexivity. Qed.

Lemma content_callback_eq (fuel : nat) (b : bytes) (f l : nat) (start_tag : bytes) (ats : aset) (v : vr)
                      (parent : bool) (s : ps) :
  content_callback (S fuel) b f l start_tag ats v parent s =
    if parent then
      let e := sub b f l in
      let k := Call e start_tag (texts ats) (vr_bytes b v) in
      let a := cb (p_calls s) k in
      let s := log k s in
      match a with
      | Echo => Ok (Some VNull) (with_pre false (emit e s))
      | Text x =>
        let* (u, s) := next_position b s in
        let* (u', s') := parse_content fuel x (Ps (Lx 0 true false None) false (p_out s) (p_calls s)) in
        Ok (Some VNull) (Ps (p_lex s) false (p_out s') (p_calls s'))
      | Wild => UB
      end
    else Ok (Some (VRng f l)) s.
Proof. reflexivity. Qed.

Lemma content_eq (fuel : nat) (b : bytes) (s : ps) :
  content (S fuel) b s =
    let* (c, s) := is_token b KCharData s in
    match c with
    | Some c =>
      if p_pre s then content_loop fuel b (VRng (t_first c) (t_last c)) s
      else content_loop fuel b VNull (emit (sub b (t_first c) (t_last c)) s)
    | None => content_loop fuel b VNull s
    end.
Proof. reflexivity. Qed.

Lemma content_loop_eq (fuel : nat) (b : bytes) (v : vr) (s : ps) :
  content_loop (S fuel) b v s =
    let tail v s :=
      let* (c, s) := is_token b KCharData s in
      match c with
      | Some c =>
        if p_pre s then content_loop fuel b (extend_chars v (t_last c)) s
        else content_loop fuel b v (emit (sub b (t_first c) (t_last c)) s)
      | None => content_loop fuel b v s
      end in
    let* (r, s) := is_token b KReference s in
    match r with
    | Some r =>
      if t_last r - t_first r =? 0 then tail v s
      else if p_pre s then tail (extend v (t_first r) (t_last r)) s
      else tail v (emit (transform_reference name_index (sub b (t_first r) (t_last r))) s)
    | None =>
      let* (e, s) := element fuel b s in
      match e with
      | Some (VRng f l) =>
        if l - f =? 0 then tail v s
        else if p_pre s then tail (extend v f l) s
        else tail v (emit (sub b f l) s)
      | Some VNull => tail v s
      | Some (VWild _) => UB
      | None =>
        let* (c, s) := is_token b KComment s in
        match c with
        | Some _ => tail v s
        | None => Ok v s
        end
      end
    end.
Proof. reflexivity. Qed.

Lemma parse_content_eq (fuel : nat) (b : bytes) (s : ps) :
  parse_content (S fuel) b s =
    let s := with_lex (set_skip false (p_lex s)) s in
    let* (v, s) := content fuel b s in
    match vr_bytes b v with
    | None => UB
    | Some [] => Ok tt s
    | Some e =>
      let k := Call e [] [] (Some e) in
      match answer_bytes e (cb (p_calls s) k) with
      | Some x =>
        let* (u, s) := parse_content fuel b (emit x (log k s)) in Ok tt s
      | None => UB
      end
    end.
Proof. reflexivity. Qed.

Definition not_chars_at (b : bytes) (p : nat) : Prop :=
  forall t l', get_token b (Lx p false false None) = GTok t l' -> t_kind t <> KCharData.

Definition El (f : nat) : Prop := forall b s p sk v r s',
  At b (p_lex s) p sk false -> sits b p v -> element f b s = Ok r s' ->
  match r with
  | None => exists t l', get_token b (Lx p sk false None) = GTok t l' /\ t_kind t <> KOpen /\ s' = with_lex (putback t l') s
  | Some e => exists w i rest, v = w ++ raw i ++ rest /\ spaces w /\ (sk = false -> w = []) /\ tag_of i <> None /\
      item_ok i rest /\ At b (p_lex s') (p + length w + length (raw i)) false false /\ p_pre s' = p_pre s /\
      if p_pre s
      then e = VRng (p + length w) (p + length w + length (raw i)) /\ p_out s' = p_out s /\ p_calls s' = p_calls s
      else e = VNull /\ exists o, RenderE (p_calls s) i o (p_calls s') /\ p_out s' = p_out s ++ o
  end.
Definition CC (f : nat) : Prop := forall b f0 l0 nm ats v parent s r s' p,
  At b (p_lex s) p false false -> content_callback f b f0 l0 nm ats v parent s = Ok r s' ->
  At b (p_lex s') p false false /\
  if parent
  then r = Some VNull /\ p_pre s' = false /\ exists o, p_out s' = p_out s ++ o /\
       let k := Call (sub b f0 l0) nm (texts ats) (vr_bytes b v) in
       (cb (p_calls s) k = Echo /\ o = sub b f0 l0 /\ p_calls s' = p_calls s ++ [k] \/
        exists x, cb (p_calls s) k = Text x /\ Parsed (p_calls s ++ [k]) x o (p_calls s'))
  else r = Some (VRng f0 l0) /\ s' = s.
Definition CL (f : nat) : Prop := forall b s p v v0 v' s',
  At b (p_lex s) p false false -> sits b p v -> not_chars_at b p -> content_loop f b v0 s = Ok v' s' ->
  (p_pre s = false -> v0 = VNull) ->
  exists is rest, v = raws is ++ rest /\ items_ok is rest /\ match is with Chars _ :: _ => False | _ => True end /\
    stops rest /\ At b (p_lex s') (p + length (raws is)) false false /\ p_pre s' = p_pre s /\
    if p_pre s then v' = collect v0 p is /\ p_out s' = p_out s /\ p_calls s' = p_calls s
    else v' = VNull /\ exists o, Render (p_calls s) is o (p_calls s') /\ p_out s' = p_out s ++ o.
Definition CO (f : nat) : Prop := forall b s p v v' s',
  At b (p_lex s) p false false -> sits b p v -> content f b s = Ok v' s' ->
  exists is rest, v = raws is ++ rest /\ items_ok is rest /\ stops rest /\
    At b (p_lex s') (p + length (raws is)) false false /\ p_pre s' = p_pre s /\
    if p_pre s then v' = collect0 p is /\ p_out s' = p_out s /\ p_calls s' = p_calls s
    else v' = VNull /\ exists o, Render (p_calls s) is o (p_calls s') /\ p_out s' = p_out s ++ o.
Definition PC (f : nat) : Prop := forall x s sk s',
  p_lex s = Lx 0 sk false None -> p_pre s = false -> parse_content f x s = Ok tt s' ->
  exists o, Parsed (p_calls s) x o (p_calls s') /\ p_out s' = p_out s ++ o.

Lemma content_sound f : CL f -> CO (S f).
Proof.
  intros IH b s p v v' s' A V H. rewrite content_eq in H. binv H c s1 E. destruct c as [c|].
  - destruct (is_token_some _ _ _ _ _ _ _ _ A E) as (l1 & G1 & K1 & ->).
    destruct (get_reads _ _ _ _ _ _ _ V G1) as (w & u & R & ->).
    inversion R as [? ? ? ? | ? ? k f1 l m W1 W2 W3 V1 T]; subst; [discriminate|]. cbn [t_kind] in K1. subst k.
    rewrite (W2 eq_refl) in *. cbn [app length] in *.
    inversion T as [| | | | | | | | | | | |x r X1 X2 X3 X4 X5 X6]; subst.
    pose proof (sits_app _ _ _ _ V1) as V2.
    assert (NC : not_chars_at b (p + length x)).
    { intros t l' G. destruct (get_reads _ _ _ _ _ _ _ V2 G) as (w' & u' & R' & Er).
      inversion R' as [? ? ? ? | ? ? k f1 l m W1' W2' W3' V1' T']; subst; [cbn; discriminate|]. cbn [t_kind]. intros ->.
      rewrite (W2' eq_refl) in *. inversion T' as [| | | | | | | | | | | |x' r' Y1 Y2 Y3 Y4 Y5 Y6]; subst. cbn [app] in *.
      destruct x' as [|y x']; [contradiction|]. apply X3. cbn [app begins]. inversion Y2; assumption. }
    assert (A1 : At b (Lx (p + 0 + length x) (skip_after KCharData false) (name_after KCharData false) None) (p + length x) false false).
    { left. cbn [skip_after name_after]. f_equal. lia. }
    assert (Z : forall v0 (s0 : ps), p_lex s0 = Lx (p + 0 + length x) (skip_after KCharData false) (name_after KCharData false) None ->
              p_pre s0 = p_pre s -> content_loop f b v0 s0 = Ok v' s' -> (p_pre s = false -> v0 = VNull) ->
              exists is rest, r = raws is ++ rest /\ items_ok (Chars x :: is) rest /\ stops rest /\
                At b (p_lex s') (p + length (raws (Chars x :: is))) false false /\ p_pre s' = p_pre s /\
                if p_pre s then v' = collect v0 (p + length x) is /\ p_out s' = p_out s0 /\ p_calls s' = p_calls s0
                else v' = VNull /\ exists o, Render (p_calls s0) is o (p_calls s') /\ p_out s' = p_out s0 ++ o).
    { intros v0 s0 El0 Ep H0 Hv. rewrite <- Ep in Hv.
      assert (A0 : At b (p_lex s0) (p + length x) false false) by (rewrite El0; exact A1).
      destruct (IH b s0 _ _ _ _ _ A0 V2 NC H0 Hv) as (is & rest & -> & I1 & I2 & I3 & I4 & I5 & I6).
      exists is, rest. split; [reflexivity|]. split.
      { cbn [items_ok item_ok]. split; [|exact I1]. unfold chars_ok. repeat split; auto. }
      split; [exact I3|]. split.
      { unfold raws. cbn [flat_map raw]. rewrite app_length, Nat.add_assoc. exact I4. }
      split; [congruence|]. rewrite Ep in I6. exact I6. }
    cbn [p_pre with_lex t_first t_last] in H. destruct (p_pre s) eqn:Ep.
    + destruct (Z _ (with_lex _ s) eq_refl Ep H) as (is & rest & -> & I1 & I2 & I3 & I4 & I5); [discriminate|].
      exists (Chars x :: is), rest. split; [unfold raws; cbn [flat_map raw]; apps; reflexivity|].
      split; [exact I1|]. split; [exact I2|]. split; [exact I3|]. split; [exact I4|]. cbn [collect0].
      destruct I5 as (-> & I5 & I6). split; [|split; [exact I5|exact I6]]. f_equal. f_equal; lia.
    + destruct (Z _ (emit _ (with_lex _ s)) eq_refl Ep H (fun _ => eq_refl)) as (is & rest & -> & I1 & I2 & I3 & I4 & I5 & o & I6 & I7).
      exists (Chars x :: is), rest. split; [unfold raws; cbn [flat_map raw]; apps; reflexivity|].
      split; [exact I1|]. split; [exact I2|]. split; [exact I3|]. split; [exact I4|]. split; [exact I5|].
      exists (x ++ o). split; [apply R_chars; exact I6|]. rewrite I7. cbn [emit p_out with_lex]. rewrite <- app_assoc. f_equal. f_equal.
      replace (p + 0 + 0) with p by lia. replace (p + 0 + length x) with (p + length x) by lia. exact (sub_sits _ _ _ _ V1).
  - destruct (is_token_none _ _ _ _ _ _ _ A E) as (t & l' & G & K & ->).
    assert (NC : not_chars_at b p) by (intros t1 l1 G1; rewrite G in G1; injection G1 as <- <-; exact K).
    destruct (IH b _ p _ _ _ _ (at_putback _ _ _ _ _ _ s G) V NC H (fun _ => eq_refl)) as (is & rest & -> & I1 & I2 & I3 & I4 & I5 & I6).
    exists is, rest. split; [reflexivity|]. split; [exact I1|]. split; [exact I3|]. split; [exact I4|]. split; [exact I5|].
    replace (collect0 p is) with (collect VNull p is); [exact I6|]. destruct is as [|[] is]; try reflexivity; contradiction.
Qed.

Lemma tail_sound f : CL f -> forall b s p v v0 v' s',
  At b (p_lex s) p false false -> sits b p v ->
  (let* (c, s) := is_token b KCharData s in
   match c with
   | Some c =>
     if p_pre s then content_loop f b (extend_chars v0 (t_last c)) s
     else content_loop f b v0 (emit (sub b (t_first c) (t_last c)) s)
   | None => content_loop f b v0 s
   end) = Ok v' s' -> (p_pre s = false -> v0 = VNull) ->
  exists is rest, v = raws is ++ rest /\ items_ok is rest /\ stops rest /\
    At b (p_lex s') (p + length (raws is)) false false /\ p_pre s' = p_pre s /\
    if p_pre s then v' = collect v0 p is /\ p_out s' = p_out s /\ p_calls s' = p_calls s
    else v' = VNull /\ exists o, Render (p_calls s) is o (p_calls s') /\ p_out s' = p_out s ++ o.
Proof.
  intros IH b s p v v0 v' s' A V H Hv0. binv H c s1 E. destruct c as [c|].
  - destruct (is_token_some _ _ _ _ _ _ _ _ A E) as (l1 & G1 & K1 & ->).
    destruct (get_reads _ _ _ _ _ _ _ V G1) as (w & u & R & ->).
    inversion R as [? ? ? ? | ? ? k f1 l m W1 W2 W3 V1 T]; subst; [discriminate|]. cbn [t_kind] in K1. subst k.
    rewrite (W2 eq_refl) in *. cbn [app length] in *.
    inversion T as [| | | | | | | | | | | |x r X1 X2 X3 X4 X5 X6]; subst.
    pose proof (sits_app _ _ _ _ V1) as V2.
    assert (NC : not_chars_at b (p + length x)).
    { intros t l' G. destruct (get_reads _ _ _ _ _ _ _ V2 G) as (w' & u' & R' & Er).
      inversion R' as [? ? ? ? | ? ? k f1 l m W1' W2' W3' V1' T']; subst; [cbn; discriminate|]. cbn [t_kind]. intros ->.
      rewrite (W2' eq_refl) in *. inversion T' as [| | | | | | | | | | | |x' r' Y1 Y2 Y3 Y4 Y5 Y6]; subst. cbn [app] in *.
      destruct x' as [|y x']; [contradiction|]. apply X3. cbn [app begins]. inversion Y2; assumption. }
    assert (A1 : At b (Lx (p + 0 + length x) (skip_after KCharData false) (name_after KCharData false) None) (p + length x) false false).
    { left. cbn [skip_after name_after]. f_equal. lia. }
    assert (Z : forall v1 (s0 : ps), p_lex s0 = Lx (p + 0 + length x) (skip_after KCharData false) (name_after KCharData false) None ->
              p_pre s0 = p_pre s -> content_loop f b v1 s0 = Ok v' s' -> (p_pre s = false -> v1 = VNull) ->
              exists is rest, r = raws is ++ rest /\ items_ok (Chars x :: is) rest /\ stops rest /\
                At b (p_lex s') (p + length (raws (Chars x :: is))) false false /\ p_pre s' = p_pre s /\
                if p_pre s then v' = collect v1 (p + length x) is /\ p_out s' = p_out s0 /\ p_calls s' = p_calls s0
                else v' = VNull /\ exists o, Render (p_calls s0) is o (p_calls s') /\ p_out s' = p_out s0 ++ o).
    { intros v1 s0 El0 Ep H0 Hv. rewrite <- Ep in Hv.
      assert (A0 : At b (p_lex s0) (p + length x) false false) by (rewrite El0; exact A1).
      destruct (IH b s0 _ _ _ _ _ A0 V2 NC H0 Hv) as (is & rest & -> & I1 & I2 & I3 & I4 & I5 & I6).
      exists is, rest. split; [reflexivity|]. split.
      { cbn [items_ok item_ok]. split; [|exact I1]. unfold chars_ok. repeat split; auto. }
      split; [exact I3|]. split.
      { unfold raws. cbn [flat_map raw]. rewrite app_length, Nat.add_assoc. exact I4. }
      split; [congruence|]. rewrite Ep in I6. exact I6. }
    cbn [p_pre with_lex t_first t_last] in H. destruct (p_pre s) eqn:Ep.
    + destruct (Z _ (with_lex _ s) eq_refl Ep H) as (is & rest & -> & I1 & I2 & I3 & I4 & I5); [discriminate|].
      exists (Chars x :: is), rest. split; [unfold raws; cbn [flat_map raw]; apps; reflexivity|].
      split; [exact I1|]. split; [exact I2|]. split; [exact I3|]. split; [exact I4|]. cbn [collect step raw].
      destruct I5 as (-> & I5 & I6). split; [|split; [exact I5|exact I6]]. f_equal. f_equal; lia.
    + destruct (Z _ (emit _ (with_lex _ s)) eq_refl Ep H Hv0) as (is & rest & -> & I1 & I2 & I3 & I4 & I5 & o & I6 & I7).
      exists (Chars x :: is), rest. split; [unfold raws; cbn [flat_map raw]; apps; reflexivity|].
      split; [exact I1|]. split; [exact I2|]. split; [exact I3|]. split; [exact I4|]. split; [exact I5|].
      exists (x ++ o). split; [apply R_chars; exact I6|]. rewrite I7. cbn [emit p_out with_lex]. rewrite <- app_assoc. f_equal. f_equal.
      replace (p + 0 + 0) with p by lia. replace (p + 0 + length x) with (p + length x) by lia. exact (sub_sits _ _ _ _ V1).
  - destruct (is_token_none _ _ _ _ _ _ _ A E) as (t & l' & G & K & ->).
    assert (NC : not_chars_at b p) by (intros t1 l1 G1; rewrite G in G1; injection G1 as <- <-; exact K).
    destruct (IH b _ p _ _ _ _ (at_putback _ _ _ _ _ _ s G) V NC H Hv0) as (is & rest & -> & I1 & I2 & I3 & I4 & I5 & I6).
    exists is, rest. split; [reflexivity|]. split; [exact I1|]. split; [exact I3|]. split; [exact I4|]. split; [exact I5|].
    exact I6.
Qed.

Lemma parse_content_sound f : CO f -> PC (S f).
Proof.
  intros IH x s sk s' L Pf H. rewrite parse_content_eq in H. binv H v s1 E.
  assert (A : At x (p_lex (with_lex (set_skip false (p_lex s)) s)) 0 false false) by (left; cbn [with_lex p_lex]; rewrite L; reflexivity).
  destruct (IH x _ 0 x v s1 A (sits_0 x) E) as (is & rest & Ex & I1 & I2 & I3 & I4 & I5).
  cbn [with_lex p_pre p_out p_calls] in I5. rewrite Pf in I5. destruct I5 as (-> & o & I5 & I6).
  cbn [vr_bytes] in H. injection H as <-. exists o. split; [|exact I6]. rewrite Ex. eapply P_content; eassumption.
Qed.

Lemma callback_sound f : PC f -> CC (S f).
Proof.
  intros IH b f0 l0 nm ats v parent s r s' p A H. rewrite content_callback_eq in H. destruct parent.
  2:{ injection H as <- <-. split; [exact A|]. split; reflexivity. }
  cbn zeta in H. set (k := Call (sub b f0 l0) nm (texts ats) (vr_bytes b v)) in *.
  destruct (cb (p_calls s) k) as [|x|] eqn:C; [| |discriminate].
  - injection H as <- <-. split; [exact A|]. split; [reflexivity|]. split; [reflexivity|].
    exists (sub b f0 l0). split; [reflexivity|]. left. auto.
  - binv H u s1 E. unfold next_position in E. binv E t s2 E2. injection E as _ <-.
    destruct (next_token_ok b (log k s) t s2 p false false A E2) as (l' & G & ->).
    binv H u' s3 E3. destruct u'. injection H as <- <-.
    destruct (fun a b => IH x _ true s3 a b E3) as (o & I1 & I2); [reflexivity..|]. cbn [p_lex p_pre p_out p_calls with_lex log] in *.
    split; [right; exists t, l'; auto|]. split; [reflexivity|]. split; [reflexivity|]. exists o. split; [exact I2|].
    right. exists x. auto.
Qed.

(** an element handed on, to the callback or to the enclosing element *)
Lemma handed f b q i rest nm ats kids acc v parent h out0 s1 r s' (pre0 : bool) : CC f ->
  tag_of i = Some (nm, ats, kids) -> sits b q (raw i ++ rest) -> built (written ats) acc ->
  vr_bytes b v = value_of kids -> At b (p_lex s1) (q + length (raw i)) false false ->
  p_pre s1 = true -> p_out s1 = out0 -> p_calls s1 = h ->
  parent = (if pre0 then false else pred h nm) -> pre0 || parent = true ->
  content_callback f b q (q + length (raw i)) nm acc v parent s1 = Ok r s' ->
  exists e, r = Some e /\ At b (p_lex s') (q + length (raw i)) false false /\ p_pre s' = pre0 /\
    if pre0 then e = VRng q (q + length (raw i)) /\ p_out s' = out0 /\ p_calls s' = h
    else e = VNull /\ exists o, RenderE h i o (p_calls s') /\ p_out s' = out0 ++ o.
Proof.
  intros C T V Bd Ev A Ep Eo Eh Epar Eor H. destruct (C _ _ _ _ _ _ _ _ _ _ _ A H) as (A' & K). destruct pre0.
  - subst parent. destruct K as (-> & ->). eexists. split; [reflexivity|]. split; [exact A'|]. split; [exact Ep|]. auto.
  - cbn [orb] in Eor. subst parent. rewrite Eor in K. destruct K as (-> & K1 & o & K2 & K3).
    exists VNull. split; [reflexivity|]. split; [exact A'|]. split; [exact K1|]. split; [reflexivity|].
    exists o. split; [|rewrite K2, Eo; reflexivity]. rewrite (sub_sits _ _ _ _ V) in K3. cbn zeta in K3.
    rewrite Ev, Eh in K3. pose proof (built_denotes _ _ Bd) as D.
    destruct K3 as [(K3 & -> & ->) | (x & K3 & K4)].
    + eapply R_echo; eauto.
    + eapply R_text; eauto.
Qed.

Lemma first_attr_space ats r : Forall attr_ok ats -> ~ begins name_byte (flat_map attr_bytes ats ++ r) ->
  match ats with a :: _ => a_before a <> [] | [] => True end.
Proof.
  intros F N. destruct ats as [|a ats]; [exact I|]. intros E. apply N. cbn [flat_map]. unfold attr_bytes.
  inversion F as [|? ? Ha _]; subst. destruct Ha as (_ & Hn & _). rewrite E. unfold xname in Hn.
  destruct (a_name a) as [|c n]; [contradiction|]. cbn [app begins]. left. apply Hn.
Qed.

Lemma element_sound f : CO f -> CC f -> El (S f).
Proof.
  intros IHc IHk b s p sk v r s' A V H. rewrite element_eq in H. binv H o s1 E. destruct o as [o|].
  2:{ injection H as <- <-. destruct (is_token_none _ _ _ _ _ _ _ A E) as (t & l' & G & K & ->). exists t, l'. auto. }
  destruct (is_token_some _ _ _ _ _ _ _ _ A E) as (l1 & G1 & K1 & ->).
  destruct (get_reads _ _ _ _ _ _ _ V G1) as (w & u & R & ->).
  inversion R as [? ? ? ? | ? ? k f1 l m W1 W2 W3 V1 T]; subst; [discriminate|]. cbn [t_kind] in K1. subst k.
  inversion T as [| | |r0 O1 O2 O3| | | | | | | | |]; subst. cbn [t_first t_last skip_after name_after] in *. clear R G1 E A T.
  pose proof (sits_app _ _ _ _ V1) as V2. set (q := p + length w) in *.
  binv H n s2 E2. destruct (require_here _ _ _ _ _ (q + 1) true true E2 eq_refl) as (l2 & G2 & K2 & ->).
  pose proof (sits_cons _ _ _ _ V2) as V3.
  destruct (get_reads _ _ _ _ _ _ _ V3 G2) as (w0 & u0 & R & ->).
  inversion R as [? ? ? ? | ? ? k f1 l m W1' W2' W3' V4 T]; subst; [discriminate|]. cbn [t_kind] in K2. subst k.
  inversion T as [| | | | | |nm r1 Hn X1 X2| | | | | |]; subst. cbn [t_first t_last skip_after name_after] in *. clear R G2 E2 T.
  pose proof (sits_app _ _ _ _ V4) as V5.
  replace (sub b (q + 1 + length w0 + 0) (q + 1 + length w0 + length nm)) with nm in H.
  2:{ symmetry. rewrite Nat.add_0_r. exact (sub_sits _ _ _ _ V5). }
  cbn zeta in H. cbn [with_lex with_pre p_pre p_calls p_lex p_out] in H.
  set (parent := if p_pre s then false else pred (p_calls s) nm) in *.
  binv H acc s3 E3. apply sits_app in V5.
  eapply attributes_sound in E3; [|left; reflexivity|exact V5|exact built_nil].
  destruct E3 as (ats & r2 & -> & Fa & Bd & t3 & l3 & G3 & K3 & ->). cbn [app] in Bd.
  pose proof (first_attr_space _ _ Fa X2) as First. apply sits_app in V5.
  set (q3 := q + 1 + length w0 + length nm + length (flat_map attr_bytes ats)) in *.
  binv H sc s4 E4.
  pose proof (fun s => at_putback _ _ _ _ _ _ s G3) as A3.
  destruct sc as [sc|].
  - (* an empty element *)
    destruct (is_token_some _ _ _ _ _ _ _ _ (A3 _) E4) as (l4 & G4 & K4 & ->).
    destruct (get_reads _ _ _ _ _ _ _ V5 G4) as (w1 & u1 & R & ->).
    inversion R as [? ? ? ? | ? ? k f1 l m W1'' W2'' W3'' V6 T]; subst; [discriminate|]. cbn [t_kind] in K4. subst k.
    inversion T as [| | | | |r3 | | | | | | |]; subst. cbn [t_first t_last skip_after name_after] in *. clear R G4 E4 T.
    set (i := Empty w0 nm ats w1).
    assert (Er : (lt :: w0 ++ nm ++ flat_map attr_bytes ats ++ w1 ++ slash :: gt :: r3) = raw i ++ r3).
    { unfold i. cbn [raw]. unfold tag_bytes. apps. reflexivity. }
    assert (L : q3 + length w1 + 2 = q + length (raw i)).
    { unfold i, q3. cbn [raw]. unfold tag_bytes. lens. lia. }
    rewrite L in *. replace (q + 0) with q in H by lia. rewrite Er in *.
    assert (Tk : tag_ok w0 nm ats w1) by (unfold tag_ok; auto).
    cbn [with_lex p_pre p_out p_calls with_pre p_lex] in H.
    destruct (p_pre s || parent) eqn:Eor.
    + eapply (handed f b q i r3 nm ats [] acc VNull parent (p_calls s) (p_out s) _ r s' (p_pre s) IHk) in H;
        [|reflexivity|exact V2|exact Bd|reflexivity|left; reflexivity|reflexivity|reflexivity|reflexivity|reflexivity|exact Eor].
      destruct H as (e & -> & H). exists w, i, r3. split; [reflexivity|]. split; [exact W1|]. split; [exact W2|].
      split; [discriminate|]. split; [exact Tk|]. fold q. exact H.
    + apply orb_false_iff in Eor. destruct Eor as (Ep & Epar). unfold parent in Epar. rewrite Ep in *.
      rewrite (sub_sits _ _ _ _ V2) in H.
      destruct (answer_bytes (raw i) _) as [x|] eqn:An; [|discriminate]. injection H as <- <-.
      exists w, i, r3. split; [reflexivity|]. split; [exact W1|]. split; [exact W2|].
      split; [discriminate|]. split; [exact Tk|]. fold q. split; [left; reflexivity|].
      split; [reflexivity|]. split; [reflexivity|]. exists x. split; [|reflexivity].
      cbn [emit log p_calls]. eapply R_empty; [exact Epar|apply built_denotes; exact Bd|reflexivity|exact An].
  - destruct (is_token_none _ _ _ _ _ _ _ (A3 _) E4) as (t4 & l4 & G4 & K4 & ->).
    binv H c s5 E5. destruct (require_ok _ _ _ _ _ _ _ _ (at_putback _ _ _ _ _ _ _ G4) E5) as (l5 & G5 & K5 & ->).
    destruct (get_reads _ _ _ _ _ _ _ V5 G5) as (w1 & u1 & R & ->).
    inversion R as [? ? ? ? | ? ? k f1 l m W1'' W2'' W3'' V6 T]; subst; [discriminate|]. cbn [t_kind] in K5. subst k.
    inversion T as [| | | |r3 | | | | | | | |]; subst. cbn [t_first t_last skip_after name_after] in *. clear R G4 E4 G5 E5 T.
    assert (Et : (lt :: w0 ++ nm ++ flat_map attr_bytes ats ++ w1 ++ gt :: r3) = (tag_bytes w0 nm ats w1 ++ [gt]) ++ r3).
    { unfold tag_bytes. apps. reflexivity. }
    assert (Lt : q3 + length w1 + 1 = q + length (tag_bytes w0 nm ats w1 ++ [gt])) by (unfold q3, tag_bytes; lens; lia).
    rewrite Lt in *. rewrite Et in *. replace (q + 0) with q in H by lia. rewrite (sub_sits _ _ _ _ V2) in H.
    cbn [with_lex p_pre p_out p_calls with_pre p_lex] in H.
    pose proof (sits_app _ _ _ _ V2) as V7. set (q7 := q + length (tag_bytes w0 nm ats w1 ++ [gt])) in *.
    binv H vv s6 E6.
    set (sc := if p_pre s || parent then Ps (Lx q7 false false None) (p_pre s || parent) (p_out s) (p_calls s)
               else emit (tag_bytes w0 nm ats w1 ++ [gt]) (Ps (Lx q7 false false None) (p_pre s || parent) (p_out s) (p_calls s))).
    assert (As : At b (p_lex sc) q7 false false) by (left; unfold sc; destruct (p_pre s || parent); reflexivity).
    assert (Ps' : p_pre sc = p_pre s || parent) by (unfold sc; destruct (p_pre s || parent) eqn:EE; cbn; exact EE || reflexivity).
    assert (Cs : p_calls sc = p_calls s) by (unfold sc; destruct (p_pre s || parent); reflexivity).
    destruct (IHc b sc q7 r3 vv s6 As V7 E6) as (kids & rest & -> & J1 & J2 & J3 & J4 & J5). rewrite Ps', Cs in *.
    binv H et s7 E7. destruct et as [(n', c')|]; [|discriminate].
    pose proof (sits_app _ _ _ _ V7) as V8. set (q8 := q7 + length (raws kids)) in *.
    destruct (e_tag_sound b s6 n' c' s7 q8 rest J3 V8 E7) as (w2 & nm' & w3 & r4 & -> & Y1 & Y2 & Y3 & Y4 & Y5 & Y6 & ->).
    cbn zeta in H. rewrite Y4, Y5 in H.
    assert (Esub : sub b (q8 + 2 + length w2) (q8 + 2 + length w2 + length nm') = nm').
    { eapply (sub_sits b (q8 + 2 + length w2) nm' (w3 ++ gt :: r4)). unfold close_bytes in V8.
      replace ((lt :: slash :: w2 ++ nm' ++ w3 ++ [gt]) ++ r4) with ((lt :: slash :: w2) ++ nm' ++ w3 ++ gt :: r4) in V8 by (apps; reflexivity).
      apply sits_app in V8. cbn [length] in V8. replace (q8 + 2 + length w2) with (q8 + S (S (length w2))) by lia. exact V8. }
    rewrite Esub in H. destruct (range_equalP nm nm') as [En|]; [|discriminate]. subst nm'. cbn [negb] in H. rewrite Y6 in H.
    set (i := Elem w0 nm ats w1 kids w2 w3).
    assert (Er : (tag_bytes w0 nm ats w1 ++ [gt]) ++ raws kids ++ close_bytes w2 nm w3 ++ r4 = raw i ++ r4).
    { unfold i. cbn [raw]. fold (raws kids). apps. reflexivity. }
    assert (L : q8 + length (close_bytes w2 nm w3) = q + length (raw i)).
    { unfold i, q8, q7. cbn [raw]. fold (raws kids). lens. lia. }
    rewrite L in *. rewrite Er in *.
    assert (Ik : item_ok i r4).
    { unfold i. apply item_ok_elem. split; [unfold tag_ok; auto|]. auto. }
    cbn [with_lex p_pre p_out p_calls with_pre p_lex] in H. rewrite J4 in H.
    destruct (p_pre s || parent) eqn:Eor.
    + destruct J5 as (-> & J5 & J6).
      eapply (handed f b q i r4 nm ats kids acc _ parent (p_calls s) (p_out s) _ r s' (p_pre s) IHk) in H;
        [|reflexivity|exact V2|exact Bd| |left; reflexivity| | | |reflexivity|exact Eor].
      * destruct H as (e & -> & H). exists w, i, r4. split; [reflexivity|]. split; [exact W1|]. split; [exact W2|].
        split; [discriminate|]. split; [exact Ik|]. fold q. exact H.
      * exact (collect_value b q7 kids _ V7).
      * exact J4.
      * exact J5.
      * exact J6.
    + apply orb_false_iff in Eor. destruct Eor as (Ep & Epar). unfold parent in Epar. rewrite Ep in *.
      destruct J5 as (-> & o1 & J5 & J6). cbn [vr_bytes] in H. injection H as <- <-.
      exists w, i, r4. split; [reflexivity|]. split; [exact W1|]. split; [exact W2|].
      split; [discriminate|]. split; [exact Ik|]. fold q. split; [left; reflexivity|].
      split; [exact J4|]. split; [reflexivity|]. eexists. split.
      * cbn [emit with_lex p_calls]. eapply R_inside; [exact Epar|exact J5].
      * cbn [emit with_lex p_out]. rewrite J6. rewrite (echo_bytes b q8 w2 nm w3 r4).
        -- unfold sc. cbn [orb emit p_out].
           rewrite !app_nil_r. apps. reflexivity.
        -- exact V8.
Qed.

Lemma loop_sound f : El f -> CL f -> CL (S f).
Proof.
  intros IHe IHl b s p v v0 v' s' A V NC H Hv0. rewrite content_loop_eq in H. cbn zeta in H.
  pose proof (tail_sound f IHl) as Tl.
  binv H rf s1 E. destruct rf as [rf|].
  - destruct (is_token_some _ _ _ _ _ _ _ _ A E) as (l1 & G1 & K1 & ->).
    destruct (get_reads _ _ _ _ _ _ _ V G1) as (w & u & R & ->).
    inversion R as [? ? ? ? | ? ? k f1 l m W1 W2 W3 V1 T]; subst; [discriminate|]. cbn [t_kind] in K1. subst k.
    rewrite (W2 eq_refl) in *. cbn [app length] in *. cbn [t_first t_last skip_after name_after] in *. clear R G1 E A W1 W2 W3.
    assert (Hi : exists i r, (exists x, i = Ref x \/ i = OpenRef x) /\ u = raw i ++ r /\ item_ok i r /\ length (raw i) <> 0 /\ f1 = 0 /\ l = length (raw i) /\ m = length (raw i) /\
               forall h is o h', Render h is o h' -> Render h (i :: is) (transform_reference name_index (raw i) ++ o) h').
    { inversion T as [| | | | | | | | | |x r3 N1|x N1|]; subst.
      - exists (Ref x), r3. split; [eauto|]. cbn [raw item_ok length]. rewrite app_length. cbn [length]. 
        split; [apps; reflexivity|]. split; [exact N1|]. split; [lia|]. split; [reflexivity|]. split; [lia|]. split; [lia|].
        intros h is o h' Hr. apply (R_ref name_index pred cb _ x) in Hr. replace (transform_reference name_index (amp :: x ++ [semi])) with (reference_text name_index x); [exact Hr|].
        unfold reference_text, transform_reference. change (amp =? 38)%N with true. cbn match.
        rewrite removelast_last. destruct (x ++ [semi]) eqn:EE; [destruct x; discriminate|]. reflexivity.
      - exists (OpenRef x), []. split; [eauto|]. cbn [raw item_ok length].
        split; [rewrite app_nil_r; reflexivity|]. split; [auto|]. split; [lia|]. split; [reflexivity|]. split; [lia|]. split; [lia|].
        intros h is o h' Hr. apply (R_open_ref name_index pred cb _ x) in Hr.
        replace (transform_reference name_index (amp :: x)) with (open_reference_text name_index x); [exact Hr|].
        unfold open_reference_text, reference_text, transform_reference. change (amp =? 38)%N with true. cbn match.
        destruct x; reflexivity. }
    destruct Hi as (i & r & Hk & -> & Hi1 & Hi2 & -> & -> & -> & Hi3). rewrite !Nat.add_0_r in *.
    replace (p + length (raw i) - p =? 0) with false in H by (symmetry; apply Nat.eqb_neq; lia).
    pose proof (sits_app _ _ _ _ V) as V2. cbn [with_lex p_pre] in H.
    assert (St : forall vv, step vv p i = extend vv p (p + length (raw i))) by (intros vv; destruct Hk as (x & [-> | ->]); reflexivity).
    assert (Nch : match i with Chars _ => False | _ => True end) by (destruct Hk as (x & [-> | ->]); exact I).
    destruct (p_pre s) eqn:Ep.
    + refine (match Tl b _ (p + length (raw i)) r _ _ _ _ V2 H _ with ex_intro _ is Q => _ end).
      { left. reflexivity. }
      { cbn. congruence. }
      destruct Q as (rest & -> & I1 & I2 & I3 & I4 & I5). cbn [with_lex p_pre p_out p_calls] in *. rewrite Ep in *.
      destruct I5 as (-> & I5 & I6).
      exists (i :: is), rest. unfold raws. cbn [flat_map]. fold (raws is). rewrite app_assoc.
      split; [reflexivity|]. split; [split; assumption|]. split; [destruct i; auto|]. split; [exact I2|].
      rewrite app_length, Nat.add_assoc. split; [exact I3|]. split; [exact I4|]. cbn [collect]. rewrite St. auto.
    + rewrite (sub_sits _ _ _ _ V) in H.
      refine (match Tl b _ (p + length (raw i)) r _ _ _ _ V2 H _ with ex_intro _ is Q => _ end).
      { left. reflexivity. }
      { intros _. exact (Hv0 eq_refl). }
      destruct Q as (rest & -> & I1 & I2 & I3 & I4 & I5). cbn [with_lex emit p_pre p_out p_calls] in *. rewrite Ep in *.
      destruct I5 as (-> & o & I5 & I6).
      exists (i :: is), rest. unfold raws. cbn [flat_map]. fold (raws is). rewrite app_assoc.
      split; [reflexivity|]. split; [split; assumption|]. split; [destruct i; auto|]. split; [exact I2|].
      rewrite app_length, Nat.add_assoc. split; [exact I3|]. split; [exact I4|]. split; [reflexivity|].
      eexists. split; [apply Hi3; exact I5|]. rewrite I6, <- app_assoc. reflexivity.
  - destruct (is_token_none _ _ _ _ _ _ _ A E) as (t1 & l1 & G1 & K1 & ->).
    binv H e s2 E2. pose proof (IHe b _ p false v e s2 (at_putback _ _ _ _ _ _ _ G1) V E2) as He.
    destruct e as [e|].
    + destruct He as (w & i & r & -> & X1 & X2 & X3 & X4 & X5 & X6 & X7). rewrite (X2 eq_refl) in *. cbn [app length] in *.
      rewrite !Nat.add_0_r in *. pose proof (sits_app _ _ _ _ V) as V2. cbn [with_lex p_pre p_calls p_out] in *.
      assert (Hl : length (raw i) <> 0) by (destruct i; try (destruct X3; reflexivity); cbn [raw]; unfold tag_bytes; cbn [app length]; lia).
      assert (St : forall vv, step vv p i = extend vv p (p + length (raw i))) by (intros vv; destruct i; try reflexivity; destruct X3; reflexivity).
      assert (Nch : match i with Chars _ => False | _ => True end) by (destruct i; try exact I; apply X3; reflexivity).
      destruct (p_pre s) eqn:Ep.
      * destruct X7 as (-> & X7 & X8).
        replace (p + length (raw i) - p =? 0) with false in H by (symmetry; apply Nat.eqb_neq; lia).
        rewrite X6 in H.
        refine (match Tl b _ (p + length (raw i)) r _ _ _ X5 V2 H _ with ex_intro _ is Q => _ end).
        { congruence. }
        destruct Q as (rest & -> & I1 & I2 & I3 & I4 & I5). rewrite X6 in *. destruct I5 as (-> & I5 & I6).
        exists (i :: is), rest. unfold raws. cbn [flat_map]. fold (raws is). rewrite app_assoc.
        split; [reflexivity|]. split; [split; assumption|]. split; [destruct i; auto|]. split; [exact I2|].
        rewrite app_length, Nat.add_assoc. split; [exact I3|]. split; [exact I4|]. cbn [collect]. rewrite St.
        split; [reflexivity|]. split; congruence.
      * destruct X7 as (-> & o1 & X7 & X8).
        refine (match Tl b _ (p + length (raw i)) r _ _ _ X5 V2 H _ with ex_intro _ is Q => _ end).
        { intros _. exact (Hv0 eq_refl). }
        destruct Q as (rest & -> & I1 & I2 & I3 & I4 & I5). rewrite X6 in *. destruct I5 as (-> & o & I5 & I6).
        exists (i :: is), rest. unfold raws. cbn [flat_map]. fold (raws is). rewrite app_assoc.
        split; [reflexivity|]. split; [split; assumption|]. split; [destruct i; auto|]. split; [exact I2|].
        rewrite app_length, Nat.add_assoc. split; [exact I3|]. split; [exact I4|]. split; [reflexivity|].
        exists (o1 ++ o). split; [eapply R_element; eassumption|]. rewrite I6, X8, <- app_assoc. reflexivity.
    + destruct He as (t2 & l2 & G2 & K2 & ->). binv H c s3 E3.
      pose proof (at_putback _ _ _ _ _ _ (with_lex (putback t1 l1) s) G2) as A2.
      destruct c as [c|].
      * destruct (is_token_some _ _ _ _ _ _ _ _ A2 E3) as (l3 & G3 & K3 & ->).
        destruct (get_reads _ _ _ _ _ _ _ V G3) as (w & u & R & ->).
        inversion R as [? ? ? ? | ? ? k f1 l m W1 W2 W3 V1 T]; subst; [discriminate|]. cbn [t_kind] in K3. subst k.
        rewrite (W2 eq_refl) in *. cbn [app length] in *. inversion T as [|x r N1| | | | | | | | | | |]; subst.
        cbn [skip_after name_after] in *. rewrite !Nat.add_0_r in *.
        set (i := Comment x).
        assert (Er : lt :: bang :: dash :: dash :: x ++ dash :: dash :: gt :: r = raw i ++ r) by (unfold i; cbn [raw]; apps; reflexivity).
        assert (Lr : length x + 7 = length (raw i)) by (unfold i; cbn [raw]; lens; lia).
        rewrite Er, Lr in *. pose proof (sits_app _ _ _ _ V) as V2.
        refine (match Tl b _ (p + length (raw i)) r _ _ _ _ V2 H _ with ex_intro _ is Q => _ end).
        { left. reflexivity. }
        { exact Hv0. }
        destruct Q as (rest & -> & I1 & I2 & I3 & I4 & I5). cbn [with_lex p_pre p_out p_calls] in *.
        exists (i :: is), rest. unfold raws. cbn [flat_map]. fold (raws is). rewrite app_assoc.
        split; [reflexivity|]. split; [split; [exact N1|exact I1]|]. split; [exact I|]. split; [exact I2|].
        rewrite app_length, Nat.add_assoc. split; [exact I3|]. split; [exact I4|].
        destruct (p_pre s).
        -- exact I5.
        -- destruct I5 as (-> & o & I5 & I6). split; [reflexivity|]. exists o. split; [apply R_comment; exact I5|exact I6].
      * destruct (is_token_none _ _ _ _ _ _ _ A2 E3) as (t3 & l3 & G3 & K3 & ->). injection H as <- <-.
        rewrite G1 in G2. injection G2 as <- <-. rewrite G1 in G3. injection G3 as <- <-.
        exists [], v. cbn [raws flat_map app length items_ok collect]. rewrite Nat.add_0_r.
        split; [reflexivity|]. split; [exact I|]. split; [exact I|]. split.
        { pose proof (NC _ _ G1) as K4. destruct (get_reads _ _ _ _ _ _ _ V G1) as (w & u & R & ->).
          inversion R as [? ? W2 V1 | ? ? k f1 l m W1 W2 W3 V1 T]; subst; rewrite (W2 eq_refl) in *.
          - left. reflexivity.
          - cbn [t_kind app] in *. unfold stops. inversion T; subst; try congruence; eauto 7.
            right. right. left. reflexivity. }
        split; [right; exists t1, l1; auto|]. split; [reflexivity|].
        cbn [with_lex p_pre p_out p_calls]. destruct (p_pre s); [auto|]. split; [exact (Hv0 eq_refl)|].
        exists []. split; [apply R_nil|]. rewrite app_nil_r. reflexivity.
Qed.

Lemma all_sound f : El f /\ CC f /\ CL f /\ CO f /\ PC f.
Proof.
  induction f as [|f (I1 & I2 & I3 & I4 & I5)].
  - unfold El, CC, CL, CO, PC. split; [|split; [|split; [|split]]]; intros; discriminate.
  - split; [apply element_sound; assumption|]. split; [apply callback_sound; assumption|].
    split; [apply loop_sound; assumption|]. split; [apply content_sound; assumption|apply parse_content_sound; assumption].
Qed.
End Sound.
