(** Properties C35, C36 and C37: names and string pools. *)
From Coq Require Import Ascii String.
From Verif Require Import Prelude Name_Model Name_Proofs.
Local Open Scope nat_scope.
Local Open Scope list_scope.
Ltac Zify.zify_post_hook ::= idtac.

(** *** Specification *)
(** A C string: bytes, none of them NUL. *)
Definition C_string (s : list N) : Prop := Forall (fun c => (0 < c < 256)%N) s.
(** The memory of [a], a string of [n] characters and a terminator, does not overlap that of [b].
    (The empty string is never stored, it is one literal.) *)
Definition no_overlap (a : ptr) (n : nat) (b : ptr) (m : nat) : Prop :=
  match a, b with
  | Pool b1 o1, Pool b2 o2 =>
      forall i j, i <= n -> j <= m -> ~ (b1 = b2 /\ o1 + i = o2 + j)
  | _, _ => True
  end.
(** Lexicographic order of byte strings. *)
Inductive lex : list N -> list N -> Prop :=
| lex_nil b y : lex [] (b :: y)
| lex_lt a b x y : (a < b)%N -> lex (a :: x) (b :: y)
| lex_eq a x y : lex x y -> lex (a :: x) (a :: y).

(** *** C37 *)
(** Whatever strings are added, in whatever order and for whatever pool size: every add succeeds
    (no byte outside an allocation is written), each returned pointer reads back its string at the
    end of the history, equal strings share a pointer, distinct ones do not and do not overlap. *)
Theorem C37_pool_history size l : Forall C_string l ->
  exists ps u, unique_adds size empty_pool l = Some (ps, u) /\ List.length ps = List.length l /\
    (forall i a s, nth_error ps i = Some a -> nth_error l i = Some s -> c_str (pool_m u) a = Some s) /\
    (forall i j a s b t, nth_error ps i = Some a -> nth_error l i = Some s ->
       nth_error ps j = Some b -> nth_error l j = Some t ->
       (a = b <-> s = t) /\ (s <> t -> no_overlap a (List.length s) b (List.length t))).
Proof.
  intros HF. destruct (unique_adds_spec size l empty_pool [] UInv_empty HF) as (ps & u & E & H1 & HU & HD & _).
  exists ps, u. split; [exact H1|]. split; [now apply F2_length in HD|].
  assert (Hd : forall i a s, nth_error ps i = Some a -> nth_error l i = Some s -> den u E a s).
  { intros i a s Ha Hs. destruct (Forall2_nth _ _ _ HD _ _ Ha) as (t & Et & Ht). congruence. }
  split.
  - intros i a s Ha Hs. eapply den_read; eauto.
  - intros i j a s b t Ha Hs Hb Ht. split; [eapply den_inj; eauto|].
    intros Hne. unfold no_overlap. destruct a as [|b1 o1]; [exact I|]. destruct b as [|b2 o2]; [exact I|].
    intros p q Hp Hq [-> He].
    destruct (den_disjoint u E b2 o1 s b2 o2 t HU (Hd _ _ _ Ha Hs) (Hd _ _ _ Hb Ht) Hne) as [H|[H|H]]; lia.
Qed.

Lemma unique_adds_app size l1 : forall l2 u,
  unique_adds size u (l1 ++ l2) =
  match unique_adds size u l1 with
  | None => None
  | Some (ps1, u1) => match unique_adds size u1 l2 with
                      | None => None
                      | Some (ps2, u2) => Some (ps1 ++ ps2, u2)
                      end
  end.
Proof.
  induction l1 as [|s l1 IH]; intros l2 u; cbn [app unique_adds].
  - destruct (unique_adds size u l2) as [[? ?]|]; reflexivity.
  - destruct (unique_add size u s) as [[a u1]|]; [|reflexivity]. rewrite IH.
    destruct (unique_adds size u1 l1) as [[ps1 u2]|]; [|reflexivity].
    destruct (unique_adds size u2 l2) as [[ps2 u3]|]; reflexivity.
Qed.

(** Later adds never move or change a string handed out before. *)
Theorem C37_pool_strings_are_stable size l1 l2 : Forall C_string (l1 ++ l2) ->
  exists ps1 u1 ps2 u2,
    unique_adds size empty_pool l1 = Some (ps1, u1) /\
    unique_adds size u1 l2 = Some (ps2, u2) /\
    unique_adds size empty_pool (l1 ++ l2) = Some (ps1 ++ ps2, u2) /\
    forall i a s, nth_error ps1 i = Some a -> nth_error l1 i = Some s ->
      c_str (pool_m u1) a = Some s /\ c_str (pool_m u2) a = Some s.
Proof.
  intros HF. apply Forall_app in HF as [HF1 HF2].
  destruct (unique_adds_spec size l1 empty_pool [] UInv_empty HF1) as (ps1 & u1 & E1 & H1 & HU1 & HD1 & _).
  destruct (unique_adds_spec size l2 u1 E1 HU1 HF2) as (ps2 & u2 & E2 & H2 & HU2 & HD2 & HX).
  exists ps1, u1, ps2, u2. split; [exact H1|]. split; [exact H2|].
  split; [rewrite unique_adds_app, H1, H2; reflexivity|].
  intros i a s Ha Hs. destruct (Forall2_nth _ _ _ HD1 _ _ Ha) as (t & Et & Ht).
  rewrite Hs in Et. injection Et as <-. split; eapply den_read; eauto. eapply den_extend; eauto.
Qed.

Fixpoint bytes (s : string) : list N :=
  match s with String.EmptyString => [] | String.String c s => N_of_ascii c :: bytes s end.

(** Pools of 4 bytes: "ab" and "c" share no block with "long string"; "ab" is found again. *)
Example C37_nonvacuous :
  option_map fst (unique_adds 4 empty_pool [bytes "ab"; bytes "long string"; bytes "c"; bytes ""; bytes "ab"]) =
  Some [Pool 0 0; Pool 1 0; Pool 2 0; Name_Model.EmptyString; Pool 0 0].
Proof. reflexivity. Qed.

(** *** C36 *)
(** The name made from a literal and the name made from the same run-time string are the same
    pointer, in every state of the table and in whichever order they are made, even when the
    hash collides with another string's. *)
Lemma find_fst_cons h a m : find (fun e : N * ptr => (fst e =? h)%N) ((h, a) :: m) = Some (h, a).
Proof. cbn [find fst]. now rewrite N.eqb_refl. Qed.

Lemma make_twice n r1 r2 a n1 : text r1 = text r2 -> make n r1 = Some (a, n1) -> make n1 r2 = Some (a, n1).
Proof.
  intros E. rewrite !make_spec, <- E. unfold map_string_hash.
  destruct (find _ (map_s n)) as [[h b]|] eqn:Ef.
  - intros H. injection H as <- <-. rewrite Ef. reflexivity.
  - destruct (unique_add _ _ _) as [[b u]|]; [|discriminate].
    intros H. injection H as <- <-. cbn [map_s]. rewrite find_fst_cons. reflexivity.
Qed.

Lemma make_find n r a n1 : make n r = Some (a, n1) ->
  find (fun e => (fst e =? name_hash (text r))%N) (map_s n1) = Some (name_hash (text r), a).
Proof.
  rewrite make_spec. unfold map_string_hash.
  destruct (find _ (map_s n)) as [[h b]|] eqn:Ef.
  - intros H. injection H as <- <-. rewrite Ef. apply find_some in Ef as [_ He]. apply N.eqb_eq in He. cbn in He. now subst.
  - destruct (unique_add _ _ _) as [[b u]|]; [|discriminate].
    intros H. injection H as <- <-. cbn [map_s]. apply find_fst_cons.
Qed.

Lemma make_keeps n r a n1 h b : make n r = Some (a, n1) ->
  find (fun e => (fst e =? h)%N) (map_s n) = Some (h, b) -> find (fun e => (fst e =? h)%N) (map_s n1) = Some (h, b).
Proof.
  rewrite make_spec. unfold map_string_hash.
  destruct (find _ (map_s n)) as [[h' b']|] eqn:Ef.
  - intros H. now injection H as <- <-.
  - destruct (unique_add _ _ _) as [[b' u]|]; [|discriminate].
    intros H Hb. injection H as <- <-. cbn [map_s find fst].
    destruct (N.eqb_spec (name_hash (text r)) h) as [He|Hne]; [rewrite He in Ef; congruence|exact Hb].
Qed.

Lemma makes_keeps rs : forall n l n1 h b, makes n rs = Some (l, n1) ->
  find (fun e => (fst e =? h)%N) (map_s n) = Some (h, b) -> find (fun e => (fst e =? h)%N) (map_s n1) = Some (h, b).
Proof.
  induction rs as [|r rs IH]; intros n l n1 h b; cbn [makes].
  - intros H. now injection H as <- <-.
  - destruct (make n r) as [[a n0]|] eqn:Em; [|discriminate].
    destruct (makes n0 rs) as [[l0 n2]|] eqn:Es; [|discriminate].
    intros H Hb. injection H as <- <-. eapply IH; [exact Es|]. eapply make_keeps; eauto.
Qed.

Lemma makes_find rs : forall n l n1 i r a, makes n rs = Some (l, n1) -> nth_error rs i = Some r -> nth_error l i = Some a ->
  find (fun e => (fst e =? name_hash (text r))%N) (map_s n1) = Some (name_hash (text r), a).
Proof.
  induction rs as [|r0 rs IH]; intros n l n1 i r a; cbn [makes].
  - intros _ H. destruct i; discriminate.
  - destruct (make n r0) as [[a0 n0]|] eqn:Em; [|discriminate].
    destruct (makes n0 rs) as [[l0 n2]|] eqn:Es; [|discriminate].
    intros H Hr Ha. injection H as <- <-. destruct i as [|i]; cbn in Hr, Ha.
    + injection Hr as <-. injection Ha as <-. eapply makes_keeps; [exact Es|]. eapply make_find; eauto.
    + eapply IH; eauto.
Qed.

(** In any history of name constructions from any strings, every name made of a string [s], from a
    literal or from a run-time string, is the same name; so is one made afterwards. *)
Theorem C36_literal_and_dynamic_names_agree rs l n : makes no_names rs = Some (l, n) ->
  forall i s a, (nth_error rs i = Some (Literal s) \/ nth_error rs i = Some (Dynamic s)) -> nth_error l i = Some a ->
    (forall j b, (nth_error rs j = Some (Literal s) \/ nth_error rs j = Some (Dynamic s)) -> nth_error l j = Some b ->
       ptr_eqb a b = true) /\
    make n (Literal s) = Some (a, n) /\ make n (Dynamic s) = Some (a, n).
Proof.
  intros H i s a Hi Ha.
  assert (F : forall j b, (nth_error rs j = Some (Literal s) \/ nth_error rs j = Some (Dynamic s)) -> nth_error l j = Some b ->
    find (fun e => (fst e =? name_hash s)%N) (map_s n) = Some (name_hash s, b)).
  { intros j b [Hj|Hj] Hb; exact (makes_find rs no_names l n j _ b H Hj Hb). }
  pose proof (F i a Hi Ha) as Fa. split; [|].
  - intros j b Hj Hb. pose proof (F j b Hj Hb) as Fb. apply ptr_eqb_spec. congruence.
  - rewrite !make_spec. unfold map_string_hash. cbn [text]. rewrite Fa. auto.
Qed.
(** Equality of static_name_t (hash comparison, done without the table) and equality of the names
    they convert to always agree, collisions or not. *)
Definition MInv (n : names) (E : list (list N)) : Prop :=
  UInv (pool_s n) E /\ forall h a, In (h, a) (map_s n) -> exists s, den (pool_s n) E a s /\ name_hash s = h.

Lemma make_minv n E r : MInv n E -> C_string (text r) ->
  exists a n' E', make n r = Some (a, n') /\ MInv n' E'.
Proof.
  intros [HU HM] Hf. rewrite make_spec. unfold map_string_hash. set (s := text r) in *. clearbody s.
  destruct (find (fun e => (fst e =? name_hash s)%N) (map_s n)) as [[h a]|] eqn:Ef.
  - exists a, n, E. split; [reflexivity|]. split; assumption.
  - destruct (unique_add_den default_pool_size (pool_s n) E s HU Hf) as (a & u1 & E1 & -> & HU1 & HD1 & HX1).
    eexists a, _, E1. split; [reflexivity|]. split; cbn [pool_s map_s]; [exact HU1|].
    intros h0 a0 [H|H].
    + injection H as <- <-. eauto.
    + destruct (HM _ _ H) as (s' & HD & Hh). exists s'. split; [|exact Hh]. eapply den_extend; eauto.
Qed.

Lemma makes_minv rs : forall n E, MInv n E -> Forall (fun r => C_string (text r)) rs ->
  exists l n' E', makes n rs = Some (l, n') /\ List.length l = List.length rs /\ MInv n' E'.
Proof.
  induction rs as [|r rs IH]; intros n E HN HF; cbn [makes].
  - exists [], n, E. auto.
  - inversion HF as [|? ? Hr HF']; subst.
    destruct (make_minv n E r HN Hr) as (a & n1 & E1 & -> & HN1).
    destruct (IH n1 E1 HN1 HF') as (l & n2 & E2 & -> & Hl & HN2).
    exists (a :: l), n2, E2. split; [reflexivity|]. split; [cbn; now rewrite Hl|exact HN2].
Qed.

Theorem C36_static_equality_is_name_equality rs : Forall (fun r => C_string (text r)) rs ->
  exists l n, makes no_names rs = Some (l, n) /\ List.length l = List.length rs /\
    forall i j ri rj a b, nth_error rs i = Some ri -> nth_error l i = Some a ->
      nth_error rs j = Some rj -> nth_error l j = Some b ->
      ptr_eqb a b = static_eq (literal_name (text ri)) (literal_name (text rj)).
Proof.
  intros HF. destruct (makes_minv rs no_names []) as (l & n & E & H1 & Hl & [HU HM]); [split|exact HF|].
  { exact UInv_empty. } { intros h a []. }
  exists l, n. split; [exact H1|]. split; [exact Hl|].
  intros i j ri rj a b Hri Ha Hrj Hb.
  pose proof (makes_find rs _ _ _ _ _ _ H1 Hri Ha) as Fa. pose proof (makes_find rs _ _ _ _ _ _ H1 Hrj Hb) as Fb.
  unfold static_eq, literal_name. cbn [hash_m].
  destruct (N.eqb_spec (name_hash (text ri)) (name_hash (text rj))) as [He|Hne].
  - rewrite He in Fa. apply ptr_eqb_spec. congruence.
  - destruct (ptr_eqb a b) eqn:Ep; [|reflexivity]. exfalso. apply ptr_eqb_spec in Ep. subst b.
    apply find_some in Fa as [Fa _]. apply find_some in Fb as [Fb _].
    destruct (HM _ _ Fa) as (s & Ds & Hs). destruct (HM _ _ Fb) as (t & Dt & Ht).
    assert (s = t) by (eapply den_inj; eauto). congruence.
Qed.

Example C36_nonvacuous :
  option_map fst (makes no_names [Literal (bytes "abc"); Dynamic (bytes "x"); Dynamic (bytes "abc"); Literal (bytes "x")]) =
  Some [Pool 0 0; Pool 0 4; Pool 0 0; Pool 0 4].
Proof. vm_compute. reflexivity. Qed.

(** *** C35 *)
(** As long as the 64-bit hash separates the strings used, names behave as strings: construction
    always succeeds, c_str() gives back the string, == is string equality, a name is false exactly
    when empty, and < is the lexicographic order. MISSING from the full property: the hypothesis
    that no two strings used collide; the next theorem shows that it cannot be dropped. *)
Lemma strcmp_lt_spec x : forall y, strcmp_lt x y = true <-> lex x y.
Proof.
  induction x as [|a x IH]; intros [|b y]; cbn [strcmp_lt].
  - split; [discriminate|intros H; inversion H].
  - split; [constructor|reflexivity].
  - split; [discriminate|intros H; inversion H].
  - destruct (N.eqb_spec a b) as [->|Hne].
    + rewrite IH. split; [now constructor|]. intros H. inversion H; subst; [lia|assumption].
    + rewrite N.ltb_lt. split; [now constructor|]. intros H. inversion H; subst; [assumption|contradiction].
Qed.

Theorem C35_names_are_strings_partial rs :
  Forall (fun r => C_string (text r)) rs ->
  (forall s t, In s (map text rs) -> In t (map text rs) -> name_hash s = name_hash t -> s = t) ->
  exists l n, makes no_names rs = Some (l, n) /\ List.length l = List.length rs /\
    forall i j a b ra rb, nth_error l i = Some a -> nth_error rs i = Some ra ->
      nth_error l j = Some b -> nth_error rs j = Some rb ->
      c_str (pool_m (pool_s n)) a = Some (text ra) /\
      (ptr_eqb a b = true <-> text ra = text rb) /\
      (name_bool a = true <-> text ra <> []) /\
      exists less, name_less n a b = Some less /\ (less = true <-> lex (text ra) (text rb)).
Proof.
  intros HF Hnc.
  destruct (makes_spec (map text rs) Hnc rs no_names []) as (l & n & E & H1 & HN & HD & _).
  { constructor; [exact UInv_empty|]. intros h a []. }
  { intros r Hr. split; [now apply in_map|]. exact (proj1 (Forall_forall _ _) HF r Hr). }
  exists l, n. split; [exact H1|]. split; [apply F2_length in HD; now rewrite map_length in HD|].
  assert (Hd : forall i a r, nth_error l i = Some a -> nth_error rs i = Some r -> den (pool_s n) E a (text r)).
  { intros i a r Ha Hr. destruct (Forall2_nth _ _ _ HD _ _ Ha) as (t & Et & Ht).
    rewrite nth_error_map, Hr in Et. cbn in Et. injection Et as <-. exact Ht. }
  pose proof (N_u _ _ _ HN) as HU.
  intros i j a b ra rb Ha Hra Hb Hrb. pose proof (Hd _ _ _ Ha Hra) as D1. pose proof (Hd _ _ _ Hb Hrb) as D2.
  pose proof (den_read _ _ _ _ HU D1) as R1. pose proof (den_read _ _ _ _ HU D2) as R2.
  split; [exact R1|]. split; [rewrite ptr_eqb_spec; eapply den_inj; eauto|]. split.
  - unfold name_bool. rewrite negb_true_iff. destruct (ptr_eqb a Name_Model.EmptyString) eqn:Ee.
    + apply ptr_eqb_spec in Ee. subst a. cbn in R1. injection R1 as R1. split; [discriminate|congruence].
    + split; [|reflexivity]. intros _ Hnil. rewrite Hnil in D1.
      destruct D1 as [[_ ->]|[H _]]; [discriminate|now apply H].
  - unfold name_less. rewrite R1, R2. eexists. split; [reflexivity|]. apply strcmp_lt_spec.
Qed.

Example C35_nonvacuous :
  let rs := [Dynamic (bytes "b"); Literal (bytes ""); Dynamic (bytes "abc"); Literal (bytes "b")] in
  Forall (fun r => C_string (text r)) rs /\
  (forall s t, In s (map text rs) -> In t (map text rs) -> name_hash s = name_hash t -> s = t).
Proof.
  cbv zeta. split.
  - repeat constructor.
  - intros s t Hs Ht. cbn [map text In] in Hs, Ht.
    destruct Hs as [<-|[<-|[<-|[<-|[]]]]]; destruct Ht as [<-|[<-|[<-|[<-|[]]]]]; intros H;
      try reflexivity; vm_compute in H; discriminate.
Qed.

(** Two different strings with the same 64-bit hash become one name: they compare equal, and the
    second one reads back the first one's characters. *)
Theorem C35_colliding_strings_refuted :
  exists s t a n, C_string s /\ C_string t /\ s <> t /\
    makes no_names [Dynamic s; Dynamic t] = Some ([a; a], n) /\
    c_str (pool_m (pool_s n)) a = Some s.
Proof.
  exists (bytes "8yn0iYCKYHlIj4-BwPqk"), (bytes "GReLUrM4wMqfg9yzV3KQ"), (Pool 0 0).
  eexists. split; [repeat constructor|]. split; [repeat constructor|]. split; [vm_compute; discriminate|].
  split; [vm_compute; reflexivity|]. vm_compute. reflexivity.
Qed.

Print Assumptions C37_pool_history.
Print Assumptions C37_pool_strings_are_stable.
Print Assumptions C36_literal_and_dynamic_names_agree.
Print Assumptions C36_static_equality_is_name_equality.
Print Assumptions C35_names_are_strings_partial.
Print Assumptions C35_colliding_strings_refuted.
