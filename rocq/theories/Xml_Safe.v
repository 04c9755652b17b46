(** When the parser reads outside of the buffer, and how much fuel it needs. *)
From Verif Require Import Prelude Entity_Model Xml_Model Xml_Spec Xml_Lex Xml_Attr Xml_Sound Xml_Complete.
Local Open Scope nat_scope.
Ltac Zify.zify_post_hook ::= idtac.

(** Where reading the tokens of the buffer [b] one after the other gets: [Reach b np u] when the lexer may be
    at the rest [u] of [b], with names possible ([np]) or not. White space may be skipped anywhere. *)
Inductive Reach (b : bytes) : bool -> bytes -> Prop :=
| At_start : Reach b false b
| At_space : forall np w u, Reach b np (w ++ u) -> spaces w -> Reach b np u
| At_token : forall np u k f l n v r, Reach b np u -> Token np u k f l n -> u = v ++ r -> length v = n -> Reach b (name_after k np) r.
(** No attribute value is without its closing quote: wherever a name is possible, a quote is followed by
    another one, or by a '<' or '&' *)
Definition Safe (b : bytes) : Prop :=
  forall q v, Reach b true (q :: v) -> quote q -> Forall plain v -> In q v.

Lemma sits_at b p : p <= length b -> sits b p (skipn p b).
Proof. intros H. exists (firstn p b). split; [symmetry; apply firstn_skipn|]. rewrite firstn_length. lia. Qed.
Lemma token_length np u k f l n : Token np u k f l n ->
  0 < n /\ (n <= length u \/ np = true /\ exists q v, u = q :: v /\ quote q /\ Forall plain v /\ ~ In q v).
Proof.
  intros H. destruct H; lens; try (split; [lia|left; lens; lia]).
  - destruct n as [|c n]; [contradiction|]. cbn [length]. split; [lia|left; lia].
  - split; [lia|]. right. split; [assumption|]. exists q, v. auto.
  - destruct c as [|y c]; [contradiction|]. cbn [length]. split; [lia|left; lia].
Qed.
(** the invariant of the lexer *)
Definition Inv (b : bytes) (l : lx) : Prop := l_pos l <= length b /\ Reach b (l_name l) (skipn (l_pos l) b).
Lemma inv_start b sk : Inv b (Lx 0 sk false None).
Proof. split; cbn [l_pos l_name]; [lia|]. apply At_start. Qed.
Lemma get_inv b l : Safe b -> Inv b l -> get_token b l <> GUB /\ forall t l', get_token b l = GTok t l' -> Inv b l'.
Proof.
  intros Sf (Hp & Hr). destruct l as [p sk np [t0|]]; cbn [l_pos l_name] in *.
  - cbn. split; [discriminate|]. intros t l' [= <- <-]. split; assumption.
  - split.
    + unfold get_token. cbn [l_back l_pos l_skip l_name]. destruct (Nat.ltb_spec (length b) p); [lia|]. cbn zeta.
      destruct (_ =? length b); [discriminate|]. destruct (parse_token _ _); discriminate.
    + intros t l' G. pose proof (sits_at b p Hp) as V. destruct (get_reads _ _ _ _ _ _ _ V G) as (w & u & R & E).
      rewrite E in Hr. assert (W : spaces w) by (inversion R; assumption). pose proof (At_space b np w u Hr W) as Hu.
      assert (Vu : sits b (p + length w) u) by (apply sits_app; rewrite <- E; exact V). pose proof (sits_length _ _ _ Vu) as L.
      inversion R as [? W1 W2 V1 | ? ? k f l n W1 W2 W3 V1 T]; subst.
      * unfold Inv. cbn [l_pos l_name]. rewrite (sits_skipn _ _ _ Vu). split; [lia|exact Hu].
      * unfold Inv. cbn [l_pos l_name].
        destruct (token_length _ _ _ _ _ _ T) as (N1 & [N2 | (-> & q & v & -> & Q1 & Q2 & Q3)]).
        -- split; [lia|]. eapply At_token; [exact Hu|exact T| |].
           ++ instantiate (1 := firstn n u). replace (p + length w + n) with (n + (p + length w)) by lia.
              rewrite <- (skipn_skipn n (p + length w) b), (sits_skipn _ _ _ Vu). symmetry. apply firstn_skipn.
           ++ rewrite firstn_length. lia.
        -- exfalso. exact (Q3 (Sf q v Hu Q1 Q2)).
Qed.
Lemma get_at_inv b l p sk np t l' : Safe b -> Inv b l -> At b l p sk np -> get_token b (Lx p sk np None) = GTok t l' ->
  Inv b l' /\ exists p', l' = Lx p' (skip_after (t_kind t) sk) (name_after (t_kind t) np) None /\ p <= p' <= length b /\ (t_kind t <> KEof -> p < p').
Proof.
  intros Sf I A G. assert (I' : Inv b l') by (apply (proj2 (get_inv b l Sf I) t); rewrite (get_at _ _ _ _ _ A); exact G).
  split; [exact I'|]. pose proof (get_pos _ _ _ _ _ _ G) as Hp.
  destruct (get_reads _ _ _ _ _ _ _ (sits_at b p Hp) G) as (w & u & R & E). destruct I' as (H' & _).
  inversion R as [? W1 W2 V1 | ? ? k f l0 n W1 W2 W3 V1 T]; subst; cbn [l_pos t_kind] in *.
  - exists (p + length w). split; [reflexivity|]. split; [lia|congruence].
  - exists (p + length w + n). split; [reflexivity|]. destruct (token_length _ _ _ _ _ _ T) as (N1 & _). split; [lia|intros _; lia].
Qed.
Lemma at_bound b l p sk np : Inv b l -> At b l p sk np -> p <= length b.
Proof. intros (H & _) [-> | (t & l' & G & _)]; [exact H|exact (get_pos _ _ _ _ _ _ G)]. Qed.

(** neither outside the buffer, nor out of fuel when there is [E]nough *)
Definition fine {A} (E : Prop) (r : res A) : Prop := r <> UB /\ (E -> r <> NoFuel).
Lemma fine_bind {A B} (E : Prop) (r : res A) (k : A -> ps -> res B) :
  fine E r -> (forall a s, r = Ok a s -> fine E (k a s)) -> fine E (bind r k).
Proof.
  intros (H1 & H2) H. destruct r as [a s| | |]; cbn [bind]; [apply H; reflexivity|split; [discriminate|intros _; discriminate]|contradiction|].
  split; [discriminate|]. intros He. destruct (H2 He eq_refl).
Qed.
Lemma fine_ok {A} E (a : A) s : fine E (Ok a s).
Proof. split; [discriminate|intros _; discriminate]. Qed.
Lemma fine_exn {A} E : @fine A E Exn.
Proof. split; [discriminate|intros _; discriminate]. Qed.
Lemma fine_mono {A} (E E' : Prop) (r : res A) : (E' -> E) -> fine E r -> fine E' r.
Proof. intros H (H1 & H2). split; auto. Qed.

Lemma next_fine E b s : Safe b -> Inv b (p_lex s) -> fine E (next_token b s).
Proof.
  intros Sf I. unfold next_token. destruct (get_inv b (p_lex s) Sf I) as (H & _).
  destruct (get_token b (p_lex s)); [apply fine_ok|apply fine_exn|contradiction].
Qed.
Lemma next_inv b s t s' : Safe b -> Inv b (p_lex s) -> next_token b s = Ok t s' -> Inv b (p_lex s').
Proof.
  intros Sf I H. unfold next_token in H. destruct (get_inv b (p_lex s) Sf I) as (_ & I').
  destruct (get_token b (p_lex s)) as [t1 l1| |]; [|discriminate..]. injection H as <- <-. exact (I' _ _ eq_refl).
Qed.
Lemma is_token_fine E b k s : Safe b -> Inv b (p_lex s) -> fine E (is_token b k s).
Proof.
  intros Sf I. unfold is_token. apply fine_bind; [exact (next_fine E b s Sf I)|].
  intros t s' _. destruct (kind_eqb (t_kind t) k); apply fine_ok.
Qed.
Lemma is_token_inv b k s r s' : Safe b -> Inv b (p_lex s) -> is_token b k s = Ok r s' -> Inv b (p_lex s').
Proof.
  intros Sf I H. unfold is_token in H. binv H t s1 E1. pose proof (next_inv _ _ _ _ Sf I E1) as I1.
  destruct (kind_eqb (t_kind t) k); injection H as <- <-; exact I1.
Qed.
Lemma require_fine E b k s : Safe b -> Inv b (p_lex s) -> fine E (require_token b k s).
Proof.
  intros Sf I. unfold require_token. apply fine_bind; [exact (next_fine E b s Sf I)|].
  intros t s' H. destruct (kind_eqb (t_kind t) k); [apply fine_ok|]. unfold throw.
  apply fine_bind; [|intros; apply fine_exn]. apply next_fine; [exact Sf|exact (next_inv _ _ _ _ Sf I H)].
Qed.
Lemma require_inv b k s r s' : Safe b -> Inv b (p_lex s) -> require_token b k s = Ok r s' -> Inv b (p_lex s').
Proof.
  intros Sf I H. unfold require_token in H. binv H t s1 E1. pose proof (next_inv _ _ _ _ Sf I E1) as I1.
  destruct (kind_eqb (t_kind t) k); [injection H as <- <-; exact I1|]. unfold throw in H. binv H t2 s2 E2. discriminate.
Qed.
(** where a token that was there leaves the lexer *)
Lemma is_token_at b k s t s' p sk np : Safe b -> At b (p_lex s) p sk np -> Inv b (p_lex s) -> k <> KEof ->
  is_token b k s = Ok (Some t) s' ->
  exists p', s' = with_lex (Lx p' (skip_after k sk) (name_after k np) None) s /\ p < p' <= length b /\ Inv b (Lx p' (skip_after k sk) (name_after k np) None).
Proof.
  intros Sf A I Hk H. destruct (is_token_some _ _ _ _ _ _ _ _ A H) as (l' & G & <- & ->).
  destruct (get_at_inv _ _ _ _ _ _ _ Sf I A G) as (I' & p' & -> & Hp' & N). specialize (N Hk). exists p'. split; [reflexivity|]. split; [lia|exact I'].
Qed.
Lemma require_at b k s t s' p sk np : Safe b -> At b (p_lex s) p sk np -> Inv b (p_lex s) -> k <> KEof ->
  require_token b k s = Ok t s' ->
  exists p', s' = with_lex (Lx p' (skip_after k sk) (name_after k np) None) s /\ p < p' <= length b /\ Inv b (Lx p' (skip_after k sk) (name_after k np) None).
Proof.
  intros Sf A I Hk H. destruct (require_ok _ _ _ _ _ _ _ _ A H) as (l' & G & <- & ->).
  destruct (get_at_inv _ _ _ _ _ _ _ Sf I A G) as (I' & p' & -> & Hp' & N). specialize (N Hk). exists p'. split; [reflexivity|]. split; [lia|exact I'].
Qed.
Lemma is_token_back b k s s' p sk np : At b (p_lex s) p sk np -> is_token b k s = Ok None s' ->
  At b (p_lex s') p sk np /\ p_pre s' = p_pre s /\ p_calls s' = p_calls s /\ p_out s' = p_out s.
Proof.
  intros A H. destruct (is_token_none _ _ _ _ _ _ _ A H) as (t & l' & G & _ & ->). split; [exact (at_putback _ _ _ _ _ _ _ G)|auto].
Qed.

Lemma attributes_inv fuel b acc s acc' s' : Safe b -> Inv b (p_lex s) -> attributes fuel b acc s = Ok acc' s' -> Inv b (p_lex s').
Proof.
  intros Sf. revert acc s. induction fuel as [|fuel IH]; intros acc s I H; [discriminate|]. cbn [attributes] in H.
  binv H n s1 E1. pose proof (is_token_inv _ _ _ _ _ Sf I E1) as I1. destruct n as [n|]; [|injection H as <- <-; exact I1].
  binv H e s2 E2. pose proof (require_inv _ _ _ _ _ Sf I1 E2) as I2. binv H v s3 E3. pose proof (require_inv _ _ _ _ _ Sf I2 E3) as I3.
  exact (IH _ _ I3 H).
Qed.
Lemma attributes_fine E fuel : forall b acc s p, Safe b -> At b (p_lex s) p true true -> Inv b (p_lex s) -> length b - p < fuel ->
  fine E (attributes fuel b acc s).
Proof.
  induction fuel as [|fuel IH]; intros b acc s p Sf A I L; [lia|]. cbn [attributes].
  apply fine_bind; [exact (is_token_fine E b KName s Sf I)|]. intros n s1 E1.
  destruct n as [n|]; [|apply fine_ok].
  destruct (is_token_at b KName s n s1 p true true Sf A I ltac:(discriminate) E1) as (p1 & -> & H1 & I1).
  apply fine_bind; [apply require_fine; [exact Sf|exact I1]|]. intros e s2 E2.
  eapply require_at in E2; [|exact Sf|left; reflexivity|exact I1|discriminate]. destruct E2 as (p2 & -> & H2 & I2).
  apply fine_bind; [apply require_fine; [exact Sf|exact I2]|]. intros v s3 E3.
  eapply require_at in E3; [|exact Sf|left; reflexivity|exact I2|discriminate]. destruct E3 as (p3 & -> & H3 & I3).
  apply (IH b _ _ p3 Sf); [left; reflexivity|exact I3|lia].
Qed.
Lemma attributes_at fuel b acc s acc' s' p : Safe b -> At b (p_lex s) p true true -> Inv b (p_lex s) ->
  attributes fuel b acc s = Ok acc' s' ->
  exists p', At b (p_lex s') p' true true /\ p <= p' <= length b /\ p_pre s' = p_pre s /\ p_calls s' = p_calls s.
Proof.
  revert acc s p. induction fuel as [|fuel IH]; intros acc s p Sf A I H; [discriminate|]. cbn [attributes] in H.
  binv H n s1 E1. destruct n as [n|].
  - destruct (is_token_at b KName s n s1 p true true Sf A I ltac:(discriminate) E1) as (p1 & -> & H1 & I1).
    binv H e s2 E2. eapply require_at in E2; [|exact Sf|left; reflexivity|exact I1|discriminate]. destruct E2 as (p2 & -> & H2 & I2).
    binv H v s3 E3. eapply require_at in E3; [|exact Sf|left; reflexivity|exact I2|discriminate]. destruct E3 as (p3 & -> & H3 & I3).
    eapply IH in H; [|exact Sf|left; reflexivity|exact I3]. destruct H as (p' & A' & Hp' & Q1 & Q2). exists p'. split; [exact A'|].
    split; [lia|]. auto.
  - injection H as <- <-. destruct (is_token_back _ _ _ _ _ _ _ A E1) as (A' & Q1 & Q2 & _). exists p. pose proof (at_bound _ _ _ _ _ I A). auto.
Qed.
Lemma e_tag_fine E b s : Safe b -> Inv b (p_lex s) -> fine E (is_e_tag b s).
Proof.
  intros Sf I. unfold is_e_tag. apply fine_bind; [exact (is_token_fine E b KOpenSlash s Sf I)|]. intros o s1 E1.
  pose proof (is_token_inv _ _ _ _ _ Sf I E1) as I1. destruct o as [o|]; [|apply fine_ok].
  apply fine_bind; [exact (require_fine E b KName _ Sf I1)|]. intros n s2 E2. pose proof (require_inv _ _ _ _ _ Sf I1 E2) as I2.
  apply fine_bind; [exact (require_fine E b KClose _ Sf I2)|]. intros c s3 E3. apply fine_ok.
Qed.
Lemma e_tag_inv b s r s' : Safe b -> Inv b (p_lex s) -> is_e_tag b s = Ok r s' -> Inv b (p_lex s').
Proof.
  intros Sf I H. unfold is_e_tag in H. binv H o s1 E1.
  pose proof (is_token_inv _ _ _ _ _ Sf I E1) as I1. destruct o as [o|]; [|injection H as <- <-; exact I1].
  binv H n s2 E2. pose proof (require_inv _ _ _ _ _ Sf I1 E2) as I2.
  binv H c s3 E3. pose proof (require_inv _ _ _ _ _ Sf I2 E3) as I3. injection H as <- <-. exact I3.
Qed.

Section Safety.
Variable name_index : list entry.
Variable pred : list call -> bytes -> bool.
Variable cb : list call -> call -> answer.
Notation element := (element name_index pred cb).
Notation content_callback := (content_callback name_index pred cb).
Notation content := (content name_index pred cb).
Notation content_loop := (content_loop name_index pred cb).
Notation parse_content := (parse_content name_index pred cb).
Notation tail := (tail name_index pred cb).
(** the callback answers with ranges that are ranges, and with texts that are safe to parse *)
Definition answers_ok : Prop := forall h k, match cb h k with Wild => False | Text x => Safe x | Echo => True end.
(** no element it is handed as a whole is answered with a text to be parsed *)
Definition echoes : Prop := forall h k, pred h (c_name k) = true -> forall x, cb h k <> Text x.
Hypothesis ok : answers_ok.

(** the parser's functions keep the lexer's invariant *)
Definition keeps {A} (b : bytes) (r : res A) : Prop := forall a s', r = Ok a s' -> Inv b (p_lex s').
Definition KAll (f : nat) : Prop := forall b, Safe b ->
  (forall s, Inv b (p_lex s) -> keeps b (element f b s)) /\
  (forall f0 l0 nm ats v parent s, Inv b (p_lex s) -> keeps b (content_callback f b f0 l0 nm ats v parent s)) /\
  (forall s, Inv b (p_lex s) -> keeps b (content f b s)) /\
  (forall v s, Inv b (p_lex s) -> keeps b (content_loop f b v s)).
Lemma keeps_all f : KAll f.
Proof.
  induction f as [|f IH]; intros b Sf.
  - split; [|split; [|split]]; intros; intros a0 s0 H0; discriminate.
  - destruct (IH b Sf) as (IE & IK & IC & IL).
    assert (IT : forall v s, Inv b (p_lex s) -> keeps b (tail f b v s)).
    { intros v s I a s' H. unfold Xml_Complete.tail in H. binv H c s1 E1. pose proof (is_token_inv _ _ _ _ _ Sf I E1) as I1.
      destruct c as [c|]; [|exact (IL _ _ I1 _ _ H)]. destruct (p_pre s1); [exact (IL _ _ I1 _ _ H)|]. refine (IL _ _ _ _ _ H). exact I1. }
    split; [|split; [|split]].
    + intros s I a s' H. rewrite element_eq in H. binv H o s1 E1. pose proof (is_token_inv _ _ _ _ _ Sf I E1) as I1.
      destruct o as [o|]; [|injection H as <- <-; exact I1].
      binv H n s2 E2. pose proof (require_inv _ _ _ _ _ Sf I1 E2) as I2. cbn zeta in H.
      binv H ats s4 E4. assert (I4 : Inv b (p_lex s4)) by (refine (attributes_inv _ _ _ _ _ _ Sf _ E4); exact I2).
      binv H sc s5 E5. pose proof (is_token_inv _ _ _ _ _ Sf I4 E5) as I5.
      destruct sc as [c|].
      * destruct (p_pre s5); [exact (IK _ _ _ _ _ _ _ I5 _ _ H)|].
        destruct (answer_bytes _ _); [|discriminate]. injection H as <- <-. exact I5.
      * binv H c s6 E6. pose proof (require_inv _ _ _ _ _ Sf I5 E6) as I6.
        binv H v s8 E8. assert (I8 : Inv b (p_lex s8)) by (refine (IC _ _ _ _ E8); destruct (p_pre s6); exact I6).
        binv H et s9 E9. pose proof (e_tag_inv _ _ _ _ Sf I8 E9) as I9.
        destruct et as [(n', c')|]; [|discriminate]. destruct (negb _); [discriminate|].
        destruct (p_pre s9); [exact (IK _ _ _ _ _ _ _ I9 _ _ H)|]. destruct (vr_bytes b v); [|discriminate]. injection H as <- <-. exact I9.
    + intros f0 l0 nm ats v parent s I a s' H. rewrite content_callback_eq in H. destruct parent; [|injection H as <- <-; exact I].
      cbn zeta in H. destruct (cb _ _) as [|x|]; [injection H as <- <-; exact I| |discriminate].
      binv H u s1 E1. assert (I1 : Inv b (p_lex s1)).
      { unfold next_position in E1. binv E1 t s2 E2. injection E1 as _ <-. refine (next_inv b (log _ s) t s2 Sf _ E2). exact I. }
      binv H u' s2 E2. injection H as <- <-. exact I1.
    + intros s I a s' H. rewrite content_eq in H. binv H c s1 E1. pose proof (is_token_inv _ _ _ _ _ Sf I E1) as I1.
      destruct c as [c|]; [|exact (IL _ _ I1 _ _ H)]. destruct (p_pre s1); [exact (IL _ _ I1 _ _ H)|]. refine (IL _ _ _ _ _ H). exact I1.
    + intros v s I a s' H. rewrite loop_eq in H. binv H r s1 E1. pose proof (is_token_inv _ _ _ _ _ Sf I E1) as I1. destruct r as [r|].
      * destruct (_ =? 0); [exact (IT _ _ I1 _ _ H)|]. destruct (p_pre s1); [exact (IT _ _ I1 _ _ H)|]. refine (IT _ _ _ _ _ H). exact I1.
      * binv H e s2 E2. pose proof (IE _ I1 _ _ E2) as I2. destruct e as [[|f0 l0|l0]|].
        -- exact (IT _ _ I2 _ _ H).
        -- destruct (_ =? 0); [exact (IT _ _ I2 _ _ H)|]. destruct (p_pre s2); [exact (IT _ _ I2 _ _ H)|]. refine (IT _ _ _ _ _ H). exact I2.
        -- discriminate.
        -- binv H c s3 E3. pose proof (is_token_inv _ _ _ _ _ Sf I2 E3) as I3. destruct c as [c|]; [exact (IT _ _ I3 _ _ H)|]. injection H as <- <-. exact I3.
Qed.

Definition FE (f : nat) : Prop := forall b s p sk, Safe b -> At b (p_lex s) p sk false -> Inv b (p_lex s) ->
  fine (echoes /\ 3 * (length b - p) + 1 <= f) (element f b s).
Definition FK (f : nat) : Prop := forall b f0 l0 nm ats v (parent : bool) s, Safe b -> Inv b (p_lex s) ->
  (parent = true -> pred (p_calls s) nm = true) -> fine (echoes /\ 1 <= f) (content_callback f b f0 l0 nm ats v parent s).
Definition FL (f : nat) : Prop := forall b v s p, Safe b -> At b (p_lex s) p false false -> Inv b (p_lex s) -> not_chars_at b p ->
  (p_pre s = false -> v = VNull) -> fine (echoes /\ 3 * (length b - p) + 2 <= f) (content_loop f b v s).
Definition FC (f : nat) : Prop := forall b s p, Safe b -> At b (p_lex s) p false false -> Inv b (p_lex s) ->
  fine (echoes /\ 3 * (length b - p) + 3 <= f) (content f b s).
Definition FP (f : nat) : Prop := forall x s sk, Safe x -> p_lex s = Lx 0 sk false None -> p_pre s = false ->
  fine (echoes /\ 3 * length x + 4 <= f) (parse_content f x s).

Lemma chars_then b s t s' p : At b (p_lex s) p false false -> Inv b (p_lex s) -> is_token b KCharData s = Ok (Some t) s' -> Safe b ->
  exists p', s' = with_lex (Lx p' false false None) s /\ p < p' <= length b /\ not_chars_at b p' /\ Inv b (Lx p' false false None).
Proof.
  intros A I H Sf. destruct (is_token_at b KCharData s t s' p false false Sf A I ltac:(discriminate) H) as (p' & E & H' & I').
  exists p'. split; [exact E|]. split; [exact H'|]. split; [|exact I']. pose proof (at_bound _ _ _ _ _ I A) as Hp.
  destruct (is_token_some _ _ _ _ _ _ _ _ A H) as (l' & G & K & E2). rewrite E2 in E.
  assert (l' = Lx p' false false None) as -> by (pose proof (f_equal p_lex E) as X; exact X). clear E E2.
  assert (exists v, sits b p v) as (v & V) by (eexists; exact (sits_at b p Hp)).
  destruct (get_reads _ _ _ _ _ _ _ V G) as (w & u & R & E).
  inversion R as [? W1 W2 V1 | ? ? k f l n W1 W2 W3 V1 T]; subst; [discriminate|]. cbn [t_kind] in K. subst k.
  rewrite (W2 eq_refl) in *. cbn [app length] in *. inversion T as [| | | | | | | | | | | |x r X1 X2 X3 X4 X5 X6]; subst.
  rewrite Nat.add_0_r in *. pose proof (sits_app _ _ _ _ V1) as V2.
  intros t' l2 G2. destruct (get_reads _ _ _ _ _ _ _ V2 G2) as (w' & u' & R' & Er).
  inversion R' as [? ? ? ? | ? ? k f1 l m W1' W2' W3' V1' T']; subst; [cbn; discriminate|]. cbn [t_kind]. intros ->.
  rewrite (W2' eq_refl) in *. inversion T' as [| | | | | | | | | | | |x' r' Y1 Y2 Y3 Y4 Y5 Y6]; subst. cbn [app] in *.
  destruct x' as [|y x']; [contradiction|]. apply X3. cbn [app begins]. inversion Y2; assumption.
Qed.
Lemma not_chars_then b s s' p : At b (p_lex s) p false false -> is_token b KCharData s = Ok None s' -> not_chars_at b p.
Proof.
  intros A H t l' G. destruct (is_token_none _ _ _ _ _ _ _ A H) as (t1 & l1 & G1 & K1 & _). congruence.
Qed.

Lemma tail_fine f b v s p : FL f -> Safe b -> At b (p_lex s) p false false -> Inv b (p_lex s) -> (p_pre s = false -> v = VNull) ->
  fine (echoes /\ 3 * (length b - p) + 2 <= f) (tail f b v s).
Proof.
  intros IH Sf A I Hv. unfold Xml_Complete.tail. apply fine_bind; [exact (is_token_fine _ b KCharData s Sf I)|]. pose proof (at_bound _ _ _ _ _ I A) as Hp.
  intros c s1 E. destruct c as [c|].
  - destruct (chars_then b s c s1 p A I E Sf) as (p1 & -> & H1 & N1 & I1). cbn [with_lex p_pre].
    destruct (p_pre s) eqn:Ep.
    + eapply fine_mono; [|apply (IH b _ _ p1 Sf); [left; reflexivity|exact I1|exact N1|cbn [with_lex p_pre]; congruence]]. intros (? & ?); split; [assumption|lia].
    + eapply fine_mono; [|apply (IH b _ _ p1 Sf); [left; reflexivity|exact I1|exact N1|intros _; apply Hv; reflexivity]]. intros (? & ?); split; [assumption|lia].
  - destruct (is_token_back _ _ _ _ _ _ _ A E) as (A1 & Q1 & _). apply (IH b _ _ p Sf A1 (is_token_inv _ _ _ _ _ Sf I E) (not_chars_then b s s1 p A E)).
    rewrite Q1. exact Hv.
Qed.

Lemma content_fine f : FL f -> FC (S f).
Proof.
  intros IH b s p Sf A I. rewrite content_eq. apply fine_bind; [exact (is_token_fine _ b KCharData s Sf I)|]. pose proof (at_bound _ _ _ _ _ I A) as Hp.
  intros c s1 E. destruct c as [c|].
  - destruct (chars_then b s c s1 p A I E Sf) as (p1 & -> & H1 & N1 & I1). cbn [with_lex p_pre].
    destruct (p_pre s) eqn:Ep.
    + eapply fine_mono; [|apply (IH b _ _ p1 Sf); [left; reflexivity|exact I1|exact N1|cbn [with_lex p_pre]; congruence]]. intros (? & ?); split; [assumption|lia].
    + eapply fine_mono; [|apply (IH b _ _ p1 Sf); [left; reflexivity|exact I1|exact N1|intros _; reflexivity]]. intros (? & ?); split; [assumption|lia].
  - destruct (is_token_back _ _ _ _ _ _ _ A E) as (A1 & Q1 & _).
    eapply fine_mono; [|apply (IH b _ _ p Sf A1 (is_token_inv _ _ _ _ _ Sf I E) (not_chars_then b s s1 p A E)); intros _; reflexivity]. intros (? & ?); split; [assumption|lia].
Qed.

Lemma content_result f b s p v s' : At b (p_lex s) p false false -> p <= length b -> content f b s = Ok v s' ->
  exists p', At b (p_lex s') p' false false /\ p <= p' <= length b /\ p_pre s' = p_pre s /\ (p_pre s = false -> v = VNull) /\
    (p_pre s = true -> p_calls s' = p_calls s).
Proof.
  intros A Hp H. destruct (all_sound name_index pred cb f) as (_ & _ & _ & C & _).
  destruct (C b s p _ v s' A (sits_at b p Hp) H) as (is & rest & E & _ & _ & A' & Q1 & Q2).
  exists (p + length (raws is)). split; [exact A'|]. split.
  { pose proof (sits_at b p Hp) as V. apply sits_length in V. rewrite E, app_length in V. lia. }
  split; [exact Q1|]. split; intros Ep; rewrite Ep in Q2; apply Q2.
Qed.
Lemma element_result f b s p sk e s' : At b (p_lex s) p sk false -> p <= length b -> element f b s = Ok (Some e) s' ->
  exists p', At b (p_lex s') p' false false /\ p < p' <= length b /\ p_pre s' = p_pre s /\
    if p_pre s then exists f0 l0, e = VRng f0 l0 else e = VNull.
Proof.
  intros A Hp H. destruct (all_sound name_index pred cb f) as (C & _).
  destruct (C b s p sk _ (Some e) s' A (sits_at b p Hp) H) as (w & i & rest & E & _ & _ & T & _ & A' & Q1 & Q2).
  exists (p + length w + length (raw i)). split; [exact A'|]. split.
  { pose proof (sits_at b p Hp) as V. apply sits_length in V. rewrite E, !app_length in V.
    assert (length (raw i) <> 0) by (destruct i; try (destruct T; reflexivity); cbn [raw]; unfold tag_bytes; cbn [app length]; lia). lia. }
  split; [exact Q1|]. destruct (p_pre s); [|apply Q2]. destruct Q2 as (-> & _). eauto.
Qed.
Lemma element_none f b s p sk s' : At b (p_lex s) p sk false -> p <= length b -> element f b s = Ok None s' ->
  At b (p_lex s') p sk false /\ p_pre s' = p_pre s.
Proof.
  intros A Hp H. destruct (all_sound name_index pred cb f) as (C & _).
  destruct (C b s p sk _ None s' A (sits_at b p Hp) H) as (t & l' & G & _ & ->). split; [exact (at_putback _ _ _ _ _ _ _ G)|reflexivity].
Qed.

Lemma parse_content_fine f : FC f -> FP (S f).
Proof.
  intros IH x s sk Sf El Ep. rewrite parse_content_eq. cbn zeta.
  assert (A : At x (p_lex (with_lex (set_skip false (p_lex s)) s)) 0 false false) by (left; cbn [with_lex p_lex]; rewrite El; reflexivity).
  apply fine_bind.
  - eapply fine_mono; [|refine (IH x _ 0 Sf A _); cbn [with_lex p_lex]; rewrite El; apply inv_start]. intros (? & ?); split; [assumption|lia].
  - intros v s' H. destruct (content_result _ _ _ _ _ _ A (Nat.le_0_l _) H) as (p' & _ & _ & _ & Hv & _). rewrite (Hv Ep). apply fine_ok.
Qed.
Lemma callback_fine f : FP f -> FK (S f).
Proof.
  intros IH b f0 l0 nm ats v parent s Sf I Hpar. rewrite content_callback_eq. destruct parent; [|apply fine_ok].
  cbn zeta. set (k := Call (sub b f0 l0) nm (texts ats) (vr_bytes b v)). pose proof (ok (p_calls s) k) as Ok0.
  destruct (cb (p_calls s) k) as [|x|] eqn:C; [apply fine_ok| |contradiction].
  apply fine_bind.
  - unfold next_position. apply fine_bind; [exact (next_fine _ b (log k s) Sf I)|]. intros; apply fine_ok.
  - intros u s1 _. apply fine_bind; [|intros; apply fine_ok]. eapply fine_mono; [|apply (IH x _ true Ok0); reflexivity].
    intros (Q & _). exfalso. exact (Q _ k (Hpar eq_refl) x C).
Qed.

Lemma element_fine f : FC f -> FK f -> FE (S f).
Proof.
  intros IHc IHk b s p sk Sf A I. rewrite element_eq. pose proof (at_bound _ _ _ _ _ I A) as Hp.
  apply fine_bind; [exact (is_token_fine _ b KOpen s Sf I)|]. intros o s1 E1. destruct o as [o|]; [|apply fine_ok].
  destruct (is_token_at b KOpen s o s1 p sk false Sf A I ltac:(discriminate) E1) as (p1 & -> & H1 & I1). clear E1.
  apply fine_bind; [apply require_fine; [exact Sf|exact I1]|]. intros n s2 E2.
  eapply require_at in E2; [|exact Sf|left; reflexivity|exact I1|discriminate]. destruct E2 as (p2 & -> & H2 & I2).
  cbn zeta. cbn [with_lex p_pre p_calls p_out with_pre p_lex skip_after name_after].
  set (nm := sub b (t_first n) (t_last n)). set (parent := if p_pre s then false else pred (p_calls s) nm).
  assert (Hpar : parent = true -> pred (p_calls s) nm = true) by (unfold parent; destruct (p_pre s); [discriminate|auto]).
  match goal with |- fine _ (let* (ats, s) := attributes _ _ _ ?st in _) => set (s3 := st) end.
  assert (A3 : At b (p_lex s3) p2 true true) by (left; reflexivity).
  assert (I3 : Inv b (p_lex s3)) by exact I2.
  apply fine_bind; [apply (attributes_fine _ _ b [] s3 p2 Sf A3 I3); lia|]. intros ats s4 E4.
  destruct (attributes_at _ _ _ _ _ _ _ Sf A3 I3 E4) as (p4 & A4 & H4 & Q4 & C4).
  apply fine_bind; [exact (is_token_fine _ b KSlashClose s4 Sf (attributes_inv _ _ _ _ _ _ Sf I3 E4))|]. intros sc s5 E5. pose proof (attributes_inv _ _ _ _ _ _ Sf I3 E4) as I4.
  destruct sc as [c|].
  - destruct (is_token_at b KSlashClose s4 c s5 p4 true true Sf A4 I4 ltac:(discriminate) E5) as (p5 & -> & H5 & I5).
    cbn [with_lex p_pre]. destruct (p_pre s4).
    + eapply fine_mono; [|apply (IHk b _ _ nm ats VNull parent _ Sf); [exact I5|cbn [with_lex p_calls]; rewrite C4; exact Hpar]].
      intros (? & ?); split; [assumption|lia].
    + cbn [with_lex p_calls]. pose proof (ok (p_calls s4) (Call (sub b (t_first o) (t_last c)) nm (texts ats) (Some []))) as Ok0.
      destruct (cb _ _); [apply fine_ok|apply fine_ok|contradiction].
  - destruct (is_token_back _ _ _ _ _ _ _ A4 E5) as (A5 & Q5 & C5 & _).
    apply fine_bind; [exact (require_fine _ b KClose s5 Sf (is_token_inv _ _ _ _ _ Sf I4 E5))|]. intros c s6 E6.
    destruct (require_at b KClose s5 c s6 p4 true true Sf A5 (is_token_inv _ _ _ _ _ Sf I4 E5) ltac:(discriminate) E6) as (p6 & -> & H6 & I6).
    cbn [skip_after name_after].
    match goal with |- fine _ (let* (v, s) := content _ _ ?st in _) => set (s7 := st) end.
    assert (A7 : At b (p_lex s7) p6 false false) by (left; unfold s7; cbn [with_lex p_pre]; destruct (p_pre s5); reflexivity).
    assert (I7 : Inv b (p_lex s7)) by (unfold s7; cbn [with_lex p_pre]; destruct (p_pre s5); exact I6).
    assert (C7 : p_calls s7 = p_calls s) by (unfold s7; cbn [with_lex p_pre]; destruct (p_pre s5); cbn [emit with_lex p_calls]; rewrite C5, C4; reflexivity).
    assert (Q7 : p_pre s7 = p_pre s || parent) by (transitivity (p_pre s5); [unfold s7; cbn [with_lex p_pre]; destruct (p_pre s5) eqn:E7; cbn [emit with_lex p_pre]; exact E7|rewrite Q5, Q4; reflexivity]).
    apply fine_bind.
    { eapply fine_mono; [|exact (IHc b s7 p6 Sf A7 I7)]. intros (? & ?); split; [assumption|lia]. }
    intros v s8 E8. destruct (content_result _ _ _ _ _ _ A7 ltac:(lia) E8) as (p8 & A8 & H8 & Q8 & V8 & C8).
    apply fine_bind; [exact (e_tag_fine _ b s8 Sf (proj1 (proj2 (proj2 (keeps_all f b Sf))) _ I7 _ _ E8))|]. intros et s9 E9.
    pose proof (e_tag_inv _ _ _ _ Sf (proj1 (proj2 (proj2 (keeps_all f b Sf))) _ I7 _ _ E8) E9) as I9. destruct et as [(n', c')|]; [|apply fine_exn].
    destruct (e_tag_sound b s8 n' c' s9 p8 _ A8 (sits_at b p8 (proj2 H8)) E9) as (w2 & nm' & w3 & r & Er & _ & _ & _ & _ & _ & _ & ->).
    pose proof (sits_length _ _ _ (sits_at b p8 (proj2 H8))) as L8. rewrite Er, app_length in L8.
    cbn zeta. destruct (negb _); [apply fine_exn|]. cbn [with_lex p_pre]. destruct (p_pre s8) eqn:Ep8.
    + eapply fine_mono; [|apply (IHk b _ _ nm ats v parent _ Sf); [exact I9|]].
      * intros (? & ?); split; [assumption|lia].
      * cbn [with_lex p_calls]. rewrite C8 by congruence. rewrite C7. exact Hpar.
    + rewrite V8 by congruence. apply fine_ok.
Qed.

Lemma loop_fine f : FE f -> FL f -> FL (S f).
Proof.
  intros IHe IHl b v s p Sf A I NC Hv. rewrite loop_eq. pose proof (at_bound _ _ _ _ _ I A) as Hp.
  assert (Tl : forall v s p', At b (p_lex s) p' false false -> p < p' <= length b -> Inv b (p_lex s) -> (p_pre s = false -> v = VNull) ->
     fine (echoes /\ 3 * (length b - p) + 2 <= S f) (tail f b v s)).
  { intros v1 s1 p1 A1 H1 I1 Hv1. eapply fine_mono; [|exact (tail_fine f b v1 s1 p1 IHl Sf A1 I1 Hv1)]. intros (? & ?); split; [assumption|lia]. }
  apply fine_bind; [exact (is_token_fine _ b KReference s Sf I)|]. intros r s1 E1. pose proof (is_token_inv _ _ _ _ _ Sf I E1) as I0. destruct r as [r|].
  - destruct (is_token_at b KReference s r s1 p false false Sf A I ltac:(discriminate) E1) as (p1 & -> & H1 & I1).
    destruct (_ =? 0); [apply (Tl _ _ p1); [left; reflexivity|exact H1|exact I1|exact Hv]|].
    cbn [with_lex p_pre]. destruct (p_pre s) eqn:Ep.
    + apply (Tl _ _ p1); [left; reflexivity|exact H1|exact I1|cbn [with_lex p_pre]; congruence].
    + apply (Tl _ _ p1); [left; reflexivity|exact H1|exact I1|intros _; apply Hv; reflexivity].
  - destruct (is_token_back _ _ _ _ _ _ _ A E1) as (A1 & Q1 & _).
    apply fine_bind.
    { eapply fine_mono; [|exact (IHe b s1 p false Sf A1 I0)]. intros (? & ?); split; [assumption|lia]. }
    intros e s2 E2. pose proof (proj1 (keeps_all f b Sf) _ I0 _ _ E2) as I2. destruct e as [e|].
    + destruct (element_result _ _ _ _ _ _ _ A1 Hp E2) as (p2 & A2 & H2 & Q2 & R2). rewrite Q1 in *.
      destruct (p_pre s) eqn:Ep.
      * destruct R2 as (f0 & l0 & ->). rewrite Q2. destruct (_ =? 0); apply (Tl _ _ p2 A2 H2 I2); congruence.
      * subst e. apply (Tl _ _ p2 A2 H2 I2). intros _. apply Hv. reflexivity.
    + destruct (element_none _ _ _ _ _ _ A1 Hp E2) as (A2 & Q2).
      apply fine_bind; [exact (is_token_fine _ b KComment s2 Sf I2)|]. intros c s3 E3.
      destruct c as [c|]; [|apply fine_ok].
      destruct (is_token_at b KComment s2 c s3 p false false Sf A2 I2 ltac:(discriminate) E3) as (p3 & -> & H3 & I3).
      apply (Tl _ _ p3); [left; reflexivity|exact H3|exact I3|]. cbn [with_lex p_pre]. rewrite Q2, Q1. exact Hv.
Qed.

Lemma all_fine f : FE f /\ FK f /\ FL f /\ FC f /\ FP f.
Proof.
  induction f as [|f (I1 & I2 & I3 & I4 & I5)].
  - unfold FE, FK, FL, FC, FP. split; [|split; [|split; [|split]]]; intros; (split; [discriminate|intros (_ & ?); lia]).
  - split; [apply element_fine; assumption|]. split; [apply callback_fine; assumption|].
    split; [apply loop_fine; assumption|]. split; [apply content_fine; assumption|apply parse_content_fine; assumption].
Qed.
End Safety.
