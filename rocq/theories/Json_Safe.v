(** The parser never leaves its input, except after a literal at the very end of it (for C26). *)
From Verif Require Import Prelude Json_Model.
Ltac Zify.zify_post_hook ::= idtac.
Local Open Scope N_scope.

Definition sfx (r l : list N) : Prop := exists pre, l = pre ++ r.
Lemma sfx_refl l : sfx l l. Proof. now exists []. Qed.
Lemma sfx_trans a b c : sfx a b -> sfx b c -> sfx a c.
Proof. intros [p ->] [q ->]. exists (q ++ p). now rewrite app_assoc. Qed.
Lemma sfx_cons c l : sfx l (c :: l). Proof. now exists [c]. Qed.
Lemma sfx_len r l : sfx r l -> (length r <= length l)%nat.
Proof. intros [p ->]. rewrite app_length. lia. Qed.

(** the text ends with one of the literals *)
Definition bad (l : list N) : Prop := exists t, In t [lit_true; lit_false; lit_null] /\ sfx t l.
Lemma bad_sfx r l : sfx r l -> bad r -> bad l.
Proof. intros H [t [A B]]. exists t. split; auto. eapply sfx_trans; eauto. Qed.

Definition post {A} (l : list N) (m : res (A * cursor)) : Prop :=
  match m with
  | Ok (_, At r) => sfx r l
  | Ok (_, Past) => False
  | Throw => True
  | UB => bad l
  | Fuel => False
  end.
Lemma post_bind {A B} l (m : res (A * cursor)) (f : A * cursor -> res (B * cursor)) :
  post l m -> (forall a r, m = Ok (a, At r) -> sfx r l -> post r (f (a, At r))) -> post l (bind m f).
Proof.
  destruct m as [[a [r|]]| | |]; cbn; try tauto. intros H K. specialize (K a r eq_refl H).
  destruct (f (a, At r)) as [[b [r'|]]| | |]; cbn in *; auto.
  - eapply sfx_trans; eauto.
  - eapply bad_sfx; eauto.
Qed.
Lemma post_sfx {A} r l (m : res (A * cursor)) : sfx r l -> post r m -> post l m.
Proof.
  intros H. destruct m as [[b [r'|]]| | |]; cbn in *; auto.
  - intros; eapply sfx_trans; eauto.
  - eapply bad_sfx; eauto.
Qed.
Lemma post_ok {A} l (a : A) r : sfx r l -> post l (Ok (a, At r)).
Proof. auto. Qed.
Lemma post_require {A} l b (f : unit -> res (A * cursor)) :
  (b = true -> post l (f tt)) -> post l (bind (require b) f).
Proof. destruct b; cbn; auto. Qed.

Lemma is_char_cases x l : x <> 0 ->
  (exists r, l = x :: r /\ is_char x (At l) = Ok (true, At r)) \/
  (is_char x (At l) = Ok (false, At l) /\ forall r, l <> x :: r).
Proof.
  intros Hx. unfold is_char. destruct l as [|c l]; cbn [rd bind].
  - destruct (N.eqb_spec 0 x); [lia|]. right. split; auto. discriminate.
  - destruct (N.eqb_spec c x) as [->|Hn].
    + left. exists l. auto.
    + right. split; auto. intros r E. congruence.
Qed.
Lemma is_char_hit x r : is_char x (At (x :: r)) = Ok (true, At r).
Proof. unfold is_char. cbn [rd bind]. now rewrite N.eqb_refl. Qed.
Lemma is_char_miss x c r : c <> x -> is_char x (At (c :: r)) = Ok (false, At (c :: r)).
Proof. intros H. unfold is_char. cbn [rd bind]. now destruct (N.eqb_spec c x). Qed.
Lemma post_is_char x l : x <> 0 -> post l (is_char x (At l)).
Proof.
  intros H. destruct (is_char_cases x l H) as [[r [-> ->]]|[-> _]]; cbn.
  - apply sfx_cons.
  - apply sfx_refl.
Qed.
Lemma is_char_true x l r : x <> 0 -> is_char x (At l) = Ok (true, At r) -> l = x :: r.
Proof.
  intros H E. destruct (is_char_cases x l H) as [[r' [-> E']]|[E' _]]; rewrite E' in E; congruence.
Qed.
Lemma skip_ws_sfx l : sfx (skip_ws_list l) l.
Proof.
  induction l as [|c l IH]; cbn [skip_ws_list]; [apply sfx_refl|].
  destruct (ws c); [|apply sfx_refl]. eapply sfx_trans; [exact IH|apply sfx_cons].
Qed.
Lemma post_structural x l : x <> 0 -> post l (is_structural_char x (At l)).
Proof.
  intros H. unfold is_structural_char. cbn [skip_white_space bind].
  apply (post_sfx (skip_ws_list l)); [apply skip_ws_sfx|].
  apply post_bind; [now apply post_is_char|]. intros [] r E S; cbn [skip_white_space bind].
  - apply post_ok. apply skip_ws_sfx.
  - apply post_ok, sfx_refl.
Qed.
Lemma structural_true_len x l r : x <> 0 -> is_structural_char x (At l) = Ok (true, At r) ->
  (length r < length l)%nat.
Proof.
  intros H. unfold is_structural_char. cbn [skip_white_space bind].
  pose proof (sfx_len _ _ (skip_ws_sfx l)) as L1.
  destruct (is_char_cases x (skip_ws_list l) H) as [[r' [E ->]]|[-> _]]; cbn [bind skip_white_space].
  - intros Q. injection Q as <-. pose proof (sfx_len _ _ (skip_ws_sfx r')) as L2.
    rewrite E in L1. cbn in L1. lia.
  - discriminate.
Qed.
Lemma plain_run_eq l : forall a r, plain_run l = (a, r) -> l = a ++ r.
Proof.
  induction l as [|c l IH]; intros a r H; cbn [plain_run] in H.
  - injection H as <- <-. reflexivity.
  - destruct (_ && _ && _).
    + destruct (plain_run l) as [a' r'] eqn:E. injection H as <- <-. cbn. f_equal. now apply IH.
    + injection H as <- <-. reflexivity.
Qed.

Lemma one_digit_post l : post l (one_digit (At l)).
Proof.
  unfold one_digit. destruct l as [|c l]; cbn [rd bind].
  - cbn. exact I.
  - destruct (hex_digit c); cbn; auto. apply sfx_cons.
Qed.
Lemma four_post l : post l (get_four_digits (At l)).
Proof.
  unfold get_four_digits. do 4 (apply post_bind; [apply one_digit_post|]; intros ? ? _ _).
  apply post_ok, sfx_refl.
Qed.

Lemma string_loop_post : forall fuel s l, (length l < fuel)%nat -> post l (string_loop fuel s (At l)).
Proof.
  induction fuel as [|fuel IH]; intros s l HF; [lia|]. cbn [string_loop].
  destruct (is_char_cases 0x22 l ltac:(lia)) as [[r [-> E]]|[E N1]]; rewrite E; cbn [bind].
  { apply post_ok, sfx_cons. }
  destruct (plain_run l) as [run r] eqn:ER. pose proof (plain_run_eq _ _ _ ER) as EL.
  assert (SR : sfx r l) by (now exists run).
  apply (post_sfx r l); auto. pose proof (sfx_len _ _ SR) as LR.
  destruct r as [|c r]; cbn [rd bind].
  { cbn. exact I. }
  apply post_require. intros HC.
  destruct (is_char_cases 0x5C (c :: r) ltac:(lia)) as [[r1 [E1 E2]]|[E1 N2]].
  2:{ rewrite E1. cbn [bind negb]. apply IH.
      (* progress: the run is not empty, else the character is a quote, a backslash or a control *)
      destruct run as [|x run].
      - exfalso. cbn in EL. subst l. cbn [plain_run] in ER. unfold control in *.
        destruct (c <? 32); [discriminate|]. destruct (N.eqb_spec c 0x22) as [->|?]; [now apply (N1 r)|].
        destruct (N.eqb_spec c 0x5C) as [->|?]; [now apply (N2 r)|]. cbn [negb andb] in ER.
        destruct (plain_run r) as [a' b']. discriminate.
      - rewrite EL in HF. cbn in HF. rewrite app_length in HF. cbn in *. lia. }
  rewrite E2. cbn [bind negb]. injection E1 as -> <-.
  assert (LR' : (length r < fuel)%nat) by (cbn in LR; lia).
  eapply post_sfx; [apply sfx_cons|].
  destruct r as [|c r]; cbn [rd bind adv].
  { cbn. exact I. }
  apply (post_sfx r); [apply sfx_cons|].
  apply post_require. intros HE. cbn in LR'.
  destruct (N.eqb_spec (escape c) 0x75) as [Eu|Eu].
  - apply post_bind; [apply four_post|]. intros utf r2 _ S2. pose proof (sfx_len _ _ S2).
    apply post_bind.
    + destruct (_ && _); [|apply post_ok, sfx_refl].
      apply post_bind; [apply post_is_char; lia|]. intros b r3 _ S3.
      apply post_require. intros _. apply post_bind; [apply four_post|]. intros tr r4 _ S4.
      apply post_require. intros _. apply post_ok, sfx_refl.
    + intros u r5 _ S5. pose proof (sfx_len _ _ S5).
      destruct (json_utf8 u) as [buf| | |] eqn:EU; cbn [bind].
      * apply IH. lia.
      * exact I.
      * exfalso. unfold json_utf8 in EU. repeat (destruct (_ <? _) in EU; [discriminate|]). discriminate.
      * exfalso. unfold json_utf8 in EU. repeat (destruct (_ <? _) in EU; [discriminate|]). discriminate.
  - apply IH. lia.
Qed.
Lemma string_to_post s l : post l (is_string_to s (At l)).
Proof.
  unfold is_string_to. apply post_bind; [apply post_is_char; lia|]. intros [] r _ S.
  - apply post_bind; [apply string_loop_post; cbn [plen]; lia|]. intros a r' _ S'. apply post_ok, sfx_refl.
  - apply post_ok, sfx_refl.
Qed.

Lemma skip_digits_sfx l : sfx (skip_digits_list l) l.
Proof.
  induction l as [|c l IH]; cbn [skip_digits_list]; [apply sfx_refl|].
  destruct (digit c); [|apply sfx_refl]. eapply sfx_trans; [exact IH|apply sfx_cons].
Qed.
Lemma is_digit_post l : post l (is_digit (At l)).
Proof.
  unfold is_digit. destruct l as [|c l]; cbn [rd bind].
  - unfold digit. cbn. apply sfx_refl.
  - destruct (digit c); cbn; [apply sfx_cons|apply sfx_refl].
Qed.
Lemma is_int_post l : post l (is_int (At l)).
Proof.
  unfold is_int. apply post_bind; [apply post_is_char; lia|]. intros [] r _ S.
  - apply post_ok, sfx_refl.
  - apply post_bind; [apply is_digit_post|]. intros [] r2 _ S2; cbn [negb skip_digits bind].
    + apply post_ok, skip_digits_sfx.
    + apply post_ok, sfx_refl.
Qed.
Definition postc (l : list N) (m : res cursor) : Prop :=
  match m with Ok (At r) => sfx r l | Ok Past => False | Throw => True | UB => bad l | Fuel => False end.
Lemma postc_bind {A} l (m : res (A * cursor)) (f : A * cursor -> res cursor) :
  post l m -> (forall a r, sfx r l -> postc r (f (a, At r))) -> postc l (bind m f).
Proof.
  destruct m as [[a [r|]]| | |]; cbn; try tauto. intros H K. specialize (K a r H).
  destruct (f (a, At r)) as [[r'|]| | |]; cbn in *; auto.
  - eapply sfx_trans; eauto.
  - eapply bad_sfx; eauto.
Qed.
Lemma post_bindc {B} l (m : res cursor) (f : cursor -> res (B * cursor)) :
  postc l m -> (forall r, sfx r l -> post r (f (At r))) -> post l (bind m f).
Proof.
  destruct m as [[r|]| | |]; cbn; try tauto. intros H K. specialize (K r H). eapply post_sfx; eauto.
Qed.
Lemma frac_post l : postc l (frac (At l)).
Proof.
  unfold frac. apply postc_bind; [apply post_is_char; lia|]. intros [] r S; cbn [negb].
  - apply postc_bind; [apply is_digit_post|]. intros [] r2 S2; cbn; [apply skip_digits_sfx|exact I].
  - apply sfx_refl.
Qed.
Lemma exp_post l : postc l (exp (At l)).
Proof.
  unfold exp. apply postc_bind; [apply post_is_char; lia|]. intros b r S.
  apply postc_bind. { destruct b; [apply post_ok, sfx_refl|apply post_is_char; lia]. }
  intros [] r2 S2; cbn [negb]; [|apply sfx_refl].
  apply postc_bind; [apply post_is_char; lia|]. intros b3 r3 S3.
  apply postc_bind. { destruct b3; [apply post_ok, sfx_refl|apply post_is_char; lia]. }
  intros b4 r4 S4. apply postc_bind; [apply is_digit_post|].
  intros [] r5 S5; cbn; [apply skip_digits_sfx|exact I].
Qed.

(** literals *)
Definition nz (l : list N) : Prop := Forall (fun c => c <> 0) l.
Lemma nz_sfx r l : sfx r l -> nz l -> nz r.
Proof. intros [p ->] H. unfold nz in *. apply Forall_app in H. tauto. Qed.
Lemma sequence_loop_post : forall lit l, nz lit -> nz l ->
  match sequence_loop lit (At l) with
  | Ok (_, At r) => sfx r l | Ok (_, Past) => False | Throw => True | UB => l = lit | Fuel => False
  end.
Proof.
  induction lit as [|x lit IH]; intros l H HL; cbn [sequence_loop].
  - unfold is_char. destruct l as [|c l]; cbn [rd bind]; [reflexivity|].
    pose proof (Forall_inv HL) as Hx. cbn beta in Hx.
    destruct (N.eqb_spec c 0) as [->|Hc]; cbn [bind]; [lia|]. apply sfx_refl.
  - pose proof (Forall_inv H) as Hx. pose proof (Forall_inv_tail H) as Ht. cbn beta in Hx.
    destruct (is_char_cases x l Hx) as [[r [-> E]]|[E _]]; rewrite E; cbn [bind].
    + specialize (IH r Ht (Forall_inv_tail HL)).
      destruct (sequence_loop lit (At r)) as [[b [q|]]| | |]; auto.
      * eapply sfx_trans; [exact IH|apply sfx_cons].
      * now rewrite IH.
    + destruct (N.eqb_spec x 0); [lia|]. exact I.
Qed.
Lemma sequence_post lit l : nz lit -> nz l -> In lit [lit_true; lit_false; lit_null] ->
  post l (is_sequence lit (At l)).
Proof.
  intros H HL HI. destruct lit as [|x lit]; cbn [is_sequence]; [apply sfx_refl|].
  pose proof (Forall_inv H) as Hx. pose proof (Forall_inv_tail H) as Ht. cbn beta in Hx.
  destruct (is_char_cases x l Hx) as [[r [-> E]]|[E _]]; rewrite E; cbn [bind].
  - pose proof (sequence_loop_post lit r Ht (Forall_inv_tail HL)) as Q.
    destruct (sequence_loop lit (At r)) as [[b [q|]]| | |]; cbn; auto.
    + eapply sfx_trans; [exact Q|apply sfx_cons].
    + subst r. exists (x :: lit). split; auto. apply sfx_refl.
  - apply sfx_refl.
Qed.
Lemma nz_true : nz lit_true. Proof. repeat constructor; discriminate. Qed.
Lemma nz_false : nz lit_false. Proof. repeat constructor; discriminate. Qed.
Lemma nz_null : nz lit_null. Proof. repeat constructor; discriminate. Qed.

Section V.
Context {num : Type} (strtod : list N -> option num).
Notation value := (value num).
Notation is_number := (is_number strtod).
Notation is_value := (is_value strtod).

Lemma or_else_post a b l :
  post l (a (At l)) -> (forall r, sfx r l -> post r (b (At r))) -> post l (@or_else num a b (At l)).
Proof.
  intros H K. unfold or_else. apply post_bind; auto. intros [v|] r _ S; auto. apply post_ok, sfx_refl.
Qed.
Lemma number_post l : post l (is_number (At l)).
Proof.
  unfold Json_Model.is_number. apply post_bind; [apply post_is_char; lia|]. intros neg r _ S.
  apply post_bind; [apply is_int_post|]. intros [] r2 _ S2; cbn [negb].
  - apply post_bindc; [apply frac_post|]. intros r3 S3.
    apply post_bindc; [apply exp_post|]. intros r4 S4.
    destruct (strtod _); cbn; auto. apply sfx_refl.
  - apply post_require. intros _. apply post_ok, sfx_refl.
Qed.
Lemma string_post l : post l (@is_string num (At l)).
Proof.
  unfold is_string. pose proof (string_to_post [] l) as H.
  destruct (is_string_to [] (At l)) as [[[b s] p]| | |]; cbn in *; auto.
Qed.
Lemma bool_post l : nz l -> post l (@is_bool num (At l)).
Proof.
  intros Z. unfold is_bool. apply post_bind; [apply sequence_post; auto using nz_true; now left|].
  intros [] r _ S; [apply post_ok, sfx_refl|].
  apply post_bind; [apply sequence_post; eauto using nz_false, nz_sfx; right; now left|].
  intros [] r2 _ S2; apply post_ok, sfx_refl.
Qed.
Lemma null_post l : nz l -> post l (@is_null num (At l)).
Proof.
  intros Z. unfold is_null. apply post_bind; [apply sequence_post; auto using nz_null; right; right; now left|].
  intros [] r _ S; apply post_ok, sfx_refl.
Qed.

Section Rec.
Context (val : cursor -> res (option value * cursor)) (K : nat).
Context (Hval : forall l, nz l -> (length l < K)%nat -> post l (val (At l))).

Lemma required_post l m : post l m -> post l (@required num m).
Proof.
  intros H. unfold required. apply post_bind; auto. intros [v|] r _ S; cbn; auto. apply sfx_refl.
Qed.
Lemma member_value_post l : nz l -> (length l <= K)%nat -> post l (member_value val (At l)).
Proof.
  intros Z L. unfold member_value. apply post_bind; [apply post_structural; lia|].
  intros [] r E S; cbn [require bind]; [|exact I].
  apply required_post, Hval; [eapply nz_sfx; eauto|].
  apply structural_true_len in E; lia.
Qed.
Lemma members_post : forall fuel o l, nz l -> (length l <= K)%nat -> (length l < fuel)%nat ->
  post l (members_loop val fuel o (At l)).
Proof.
  induction fuel as [|fuel IH]; intros o l Z L HF; [lia|]. cbn [members_loop].
  apply post_bind; [apply post_structural; lia|]. intros [] r E S; cbn [negb]; [|apply post_ok, sfx_refl].
  apply structural_true_len in E; [|lia].
  pose proof (string_to_post [] r) as HS.
  destruct (is_string_to [] (At r)) as [[[b k] p]| | |]; cbn [bind]; cbn in HS; auto.
  destruct p as [r1|]; [|easy]. apply (post_sfx r1); auto. apply post_require. intros _.
  pose proof (sfx_len _ _ HS) as L1.
  assert (Z1 : nz r1) by (eapply nz_sfx; [exact HS|]; eapply nz_sfx; eauto).
  apply post_bind; [apply member_value_post; auto; lia|]. intros v r2 _ S2.
  pose proof (sfx_len _ _ S2). apply IH; try lia. eapply nz_sfx; eauto.
Qed.
Lemma object_post l : nz l -> (length l <= K)%nat -> post l (is_object val (At l)).
Proof.
  intros Z L. unfold is_object. apply post_bind; [apply post_structural; lia|].
  intros [] r E S; cbn [negb]; [|apply post_ok, sfx_refl].
  apply structural_true_len in E; [|lia].
  assert (Zr : nz r) by (eapply nz_sfx; eauto).
  pose proof (string_to_post [] r) as HS.
  destruct (is_string_to [] (At r)) as [[[b k] p]| | |]; cbn [bind]; cbn in HS; auto.
  destruct p as [r1|]; [|easy]. apply (post_sfx r1); auto. pose proof (sfx_len _ _ HS) as L1.
  assert (Z1 : nz r1) by (eapply nz_sfx; eauto).
  apply post_bind.
  - destruct b; [|apply post_ok, sfx_refl].
    apply post_bind; [apply member_value_post; auto; lia|]. intros v r2 _ S2.
    pose proof (sfx_len _ _ S2). apply members_post; cbn [plen]; try lia. eapply nz_sfx; eauto.
  - intros o r2 _ S2. apply post_bind; [apply post_structural; lia|]. intros b3 r3 _ S3.
    apply post_require. intros _. apply post_ok, sfx_refl.
Qed.
Lemma elements_post : forall fuel a l, nz l -> (length l <= K)%nat -> (length l < fuel)%nat ->
  post l (elements_loop val fuel a (At l)).
Proof.
  induction fuel as [|fuel IH]; intros a l Z L HF; [lia|]. cbn [elements_loop].
  apply post_bind; [apply post_structural; lia|]. intros [] r E S; cbn [negb]; [|apply post_ok, sfx_refl].
  apply structural_true_len in E; [|lia].
  assert (Zr : nz r) by (eapply nz_sfx; eauto).
  apply post_bind; [apply required_post, Hval; auto; lia|]. intros v r2 _ S2.
  pose proof (sfx_len _ _ S2). apply IH; try lia. eapply nz_sfx; eauto.
Qed.
Lemma array_post l : nz l -> (length l <= K)%nat -> post l (is_array val (At l)).
Proof.
  intros Z L. unfold is_array. apply post_bind; [apply post_structural; lia|].
  intros [] r E S; cbn [negb]; [|apply post_ok, sfx_refl].
  apply structural_true_len in E; [|lia].
  assert (Zr : nz r) by (eapply nz_sfx; eauto).
  apply post_bind; [apply Hval; auto; lia|]. intros o r1 _ S1. pose proof (sfx_len _ _ S1).
  assert (Z1 : nz r1) by (eapply nz_sfx; eauto).
  apply post_bind.
  - destruct o; [|apply post_ok, sfx_refl]. apply elements_post; cbn [plen]; try lia. exact Z1.
  - intros a r2 _ S2. apply post_bind; [apply post_structural; lia|]. intros b3 r3 _ S3.
    apply post_require. intros _. apply post_ok, sfx_refl.
Qed.
End Rec.

Lemma value_post : forall fuel l, nz l -> (length l < fuel)%nat -> post l (is_value fuel (At l)).
Proof.
  induction fuel as [|fuel IH]; intros l Z HF; [lia|]. cbn [Json_Model.is_value].
  apply or_else_post; [apply string_post|]. intros r1 S1. pose proof (sfx_len _ _ S1).
  apply or_else_post; [apply number_post|]. intros r2 S2. pose proof (sfx_len _ _ S2).
  assert (Z2 : nz r2) by (eapply nz_sfx; [exact S2|]; eapply nz_sfx; eauto).
  apply or_else_post; [apply (object_post _ fuel); auto; lia|]. intros r3 S3. pose proof (sfx_len _ _ S3).
  assert (Z3 : nz r3) by (eapply nz_sfx; eauto).
  apply or_else_post; [apply (array_post _ fuel); auto; lia|]. intros r4 S4.
  assert (Z4 : nz r4) by (eapply nz_sfx; eauto).
  apply or_else_post; [now apply bool_post|]. intros r5 S5. apply null_post. eapply nz_sfx; eauto.
Qed.
Lemma parse_post text : nz text ->
  match json_parse strtod text with Ok _ | Throw => True | UB => bad text | Fuel => False end.
Proof.
  intros Z. unfold json_parse.
  assert (H : post text (required (or_else (is_object (is_value (S (length text))))
     (is_array (is_value (S (length text)))) (At text)))).
  { apply required_post. apply or_else_post.
    - apply (object_post _ (S (length text))); [|exact Z|lia]. intros; now apply value_post.
    - intros r S. pose proof (sfx_len _ _ S). apply (array_post _ (Datatypes.S (length text))); [|eapply nz_sfx; eauto|lia].
      intros; now apply value_post. }
  destruct (required _) as [[v p]| | |]; cbn [bind]; auto.
Qed.
End V.
