(** Whatever the parser accepts is a text of the library's dialect of JSON, followed by anything
    (for C27, C51). *)
From Verif Require Import Prelude Unicode_Spec Json_Model Json_Spec Json_Safe Json_Utf8 Json_Complete.
Ltac Zify.zify_post_hook ::= idtac.
Local Open Scope N_scope.

Definition sat {A} (m : res (A * cursor)) (Q : A -> list N -> Prop) : Prop :=
  match m with Ok (a, At r) => Q a r | Ok (_, Past) => False | _ => True end.
Lemma sat_bind {A B} (m : res (A * cursor)) (f : A * cursor -> res (B * cursor)) (Q : A -> list N -> Prop) R :
  sat m Q -> (forall a r, Q a r -> sat (f (a, At r)) R) -> sat (bind m f) R.
Proof. destruct m as [[a [r|]]| | |]; cbn; auto; try tauto. Qed.
Lemma sat_weak {A} (m : res (A * cursor)) (Q R : A -> list N -> Prop) :
  sat m Q -> (forall a r, Q a r -> R a r) -> sat m R.
Proof. destruct m as [[a [r|]]| | |]; cbn; auto. Qed.
Lemma sat_require {A} b (f : unit -> res (A * cursor)) Q : (b = true -> sat (f tt) Q) -> sat (bind (require b) f) Q.
Proof. destruct b; cbn; auto. Qed.

Lemma sat_char x l : x <> 0 -> sat (is_char x (At l)) (fun b r => if b : bool then l = x :: r else r = l).
Proof.
  intros H. destruct (is_char_cases x l H) as [[r [-> ->]]|[-> _]]; reflexivity.
Qed.
Lemma skip_split l : exists w, blank w /\ l = w ++ skip_ws_list l.
Proof.
  induction l as [|c l [w [HB E]]]; cbn [skip_ws_list].
  - exists []. split; [constructor|reflexivity].
  - destruct (ws c) eqn:EW.
    + exists (c :: w). split; [constructor; auto; now apply ws_iff|]. cbn. now f_equal.
    + exists []. split; [constructor|reflexivity].
Qed.
Lemma sat_structural x l : x <> 0 -> sat (is_structural_char x (At l)) (fun b r =>
  if b : bool then exists w1 w2, blank w1 /\ blank w2 /\ l = w1 ++ x :: w2 ++ r
  else exists w, blank w /\ l = w ++ r).
Proof.
  intros H. unfold is_structural_char. cbn [skip_white_space bind].
  destruct (skip_split l) as [w [HB E]].
  eapply sat_bind; [apply (sat_char x); exact H|]. intros [] r HR; cbn [skip_white_space bind sat].
  - destruct (skip_split r) as [w2 [HB2 E2]]. exists w, w2. rewrite <- E2. split; auto. split; auto. congruence.
  - subst r. eauto.
Qed.

Lemma blank_app a b : blank a -> blank b -> blank (a ++ b).
Proof. intros. apply Forall_app; auto. Qed.

(** ** strings *)
Lemma hex_digit_inv c d : hex_digit c = Some d -> hex c d.
Proof.
  unfold hex, hex_digit.
  destruct (N.leb_spec 0x30 c), (N.leb_spec c 0x39), (N.leb_spec 0x41 c), (N.leb_spec c 0x46),
    (N.leb_spec 0x61 c), (N.leb_spec c 0x66); cbn [andb]; intros E; try discriminate E; injection E as <-; lia.
Qed.
Lemma sat_one l : sat (one_digit (At l)) (fun d r => exists c, hex c d /\ l = c :: r).
Proof.
  unfold one_digit. destruct l as [|c l]; cbn [rd bind]; [exact I|].
  destruct (hex_digit c) as [d|] eqn:E; [|exact I]. cbn. exists c. split; auto. now apply hex_digit_inv.
Qed.
Lemma sat_four l : sat (get_four_digits (At l)) (fun u r => exists h, hex4 h u /\ l = h ++ r).
Proof.
  unfold get_four_digits.
  eapply sat_bind; [apply sat_one|]. intros d1 r1 [c1 [H1 E1]].
  eapply sat_bind; [apply sat_one|]. intros d2 r2 [c2 [H2 E2]].
  eapply sat_bind; [apply sat_one|]. intros d3 r3 [c3 [H3 E3]].
  eapply sat_bind; [apply sat_one|]. intros d4 r4 [c4 [H4 E4]].
  cbn. exists [c1; c2; c3; c4]. split; [|cbn; congruence].
  exists c1, c2, c3, c4, d1, d2, d3, d4. split; auto. split; auto. split; auto. split; auto. split; auto. lia.
Qed.
Lemma plain_chars D l : forall run r, plain_run l = (run, r) -> forall raw s, chars D raw s ->
  chars D (run ++ raw) (run ++ s).
Proof.
  induction l as [|c l IH]; intros run r H raw s HC; cbn [plain_run] in H.
  - injection H as <- <-. exact HC.
  - unfold control in H.
    destruct (N.ltb_spec c 0x20), (N.eqb_spec c 0x22), (N.eqb_spec c 0x5C); cbn [negb andb] in H;
      try (injection H as <- <-; exact HC).
    destruct (plain_run l) as [run' r'] eqn:E. injection H as <- <-. cbn [app].
    apply ch_plain; auto. eapply IH; eauto.
Qed.
Lemma escape_inv c : escape c <> 0 -> escape c <> 0x75 -> simple_escape c (escape c).
Proof.
  unfold escape, simple_escape.
  repeat match goal with |- context [?a =? ?b] => destruct (N.eqb_spec a b) as [->|?] end; intros H1 H2;
    cbn [In]; auto 12; congruence.
Qed.
Lemma escape_u c : escape c = 0x75 -> c = 0x75.
Proof.
  unfold escape. repeat match goal with |- context [?a =? ?b] => destruct (N.eqb_spec a b) as [->|?] end; congruence.
Qed.

Lemma sat_string_loop : forall fuel acc l, sat (string_loop fuel acc (At l)) (fun s' r =>
  exists raw s, chars ASL raw s /\ s' = acc ++ s /\ l = raw ++ 0x22 :: r).
Proof.
  induction fuel as [|fuel IH]; intros acc l; [exact I|]. cbn [string_loop].
  eapply sat_bind; [apply sat_char; lia|]. intros b l0 Hl. destruct b.
  { cbn. exists [], []. split; [constructor|]. split; [now rewrite app_nil_r|exact Hl]. }
  subst l0. destruct (plain_run l) as [run r] eqn:ER. pose proof (plain_run_eq _ _ _ ER) as EL.
  assert (Step : forall acc', sat (string_loop fuel acc' (At r)) (fun s' q =>
    exists raw s, chars ASL raw s /\ s' = acc' ++ s /\ r = raw ++ 0x22 :: q)) by (intros; apply IH).
  destruct (rd (At r)) as [c| | |] eqn:Erd; cbn [bind]; try exact I.
  apply sat_require. intros HC.
  eapply sat_bind; [apply sat_char; lia|]. intros b r1 Hr1. destruct b; cbn [negb].
  2:{ subst r1. eapply sat_weak; [apply Step|]. intros s' q [raw [s [H1 [H2 H3]]]].
      exists (run ++ raw), (run ++ s). split; [eapply plain_chars; eauto|].
      rewrite H2, EL, H3, !app_assoc. split; auto. }
  destruct r1 as [|e r1]; cbn [rd bind adv]; [exact I|].
  apply sat_require. intros HE. apply negb_true_iff, N.eqb_neq in HE.
  destruct (N.eqb_spec (escape e) 0x75) as [Eu|Eu].
  - apply escape_u in Eu. subst e.
    eapply sat_bind; [apply sat_four|]. intros u r2 [h [Hh E2]].
    pose proof (hex4_lt _ _ Hh) as Lu.
    set (m := if (0xD800 <=? u) && (u <=? 0xDBFF) then _ else _).
    assert (M : sat m (fun u' r3 =>
      u' < 0x10FFFF /\ exists h2, r2 = h2 ++ r3 /\ forall raw s, chars ASL raw s ->
        chars ASL (0x5C :: 0x75 :: h ++ h2 ++ raw) (utf8 u' ++ s))).
    { unfold m. destruct (N.leb_spec 0xD800 u); cbn [andb].
      2:{ cbn. split; [lia|]. exists []. split; auto. intros raw s Hc. cbn [app].
          apply ch_unicode; auto; unfold lead_surrogate, trail_surrogate; lia. }
      destruct (N.leb_spec u 0xDBFF).
      2:{ cbn. split; [lia|]. exists []. split; auto. intros raw s Hc. cbn [app].
          destruct (N.leb_spec 0xDC00 u); [|lia]. destruct (N.leb_spec u 0xDFFF).
          - apply ch_asl_trail; auto. unfold trail_surrogate; lia.
          - apply ch_unicode; auto; unfold lead_surrogate, trail_surrogate; lia. }
      eapply sat_bind; [apply sat_char; lia|]. intros b r3 Hb.
      apply sat_require. intros ->.
      eapply sat_bind; [apply sat_four|]. intros u2 r4 [h2 [Hh2 E4]].
      apply sat_require. intros HT. apply andb_true_iff in HT. rewrite !N.leb_le in HT.
      cbn. rewrite N.shiftl_mul_pow2. change (2 ^ 10) with 0x400. split; [lia|].
      exists (0x75 :: h2). split; [cbn; congruence|]. intros raw s Hc.
      cbn [app]. apply ch_asl_pair; auto. unfold lead_surrogate; lia. }
    eapply sat_bind; [exact M|]. intros u' r3 [Lu' [h2 [E3 HC2]]].
    rewrite json_utf8_ok by exact Lu'. cbn [bind].
    eapply sat_weak; [apply IH|]. intros s' q [raw [s [H1 [H2 H3]]]].
    exists (run ++ 0x5C :: 0x75 :: h ++ h2 ++ raw), (run ++ utf8 u' ++ s).
    split; [eapply plain_chars; eauto|]. split.
    + rewrite H2. rewrite <- ?app_assoc; reflexivity.
    + rewrite EL, Hr1, E2, E3, H3. rewrite <- app_assoc. cbn [app]. rewrite <- ?app_assoc; reflexivity.
  - eapply sat_weak; [apply IH|]. intros s' q [raw [s [H1 [H2 H3]]]].
    exists (run ++ 0x5C :: e :: raw), (run ++ escape e :: s).
    split; [eapply plain_chars; eauto; apply ch_simple; auto; now apply escape_inv|]. split.
    + rewrite H2. rewrite <- !app_assoc. reflexivity.
    + rewrite EL, Hr1, H3. rewrite <- app_assoc. reflexivity.
Qed.
Lemma sat_string_to l :
  match is_string_to [] (At l) with
  | Ok (true, s, At r) => exists t, quoted ASL t s /\ l = t ++ r
  | Ok (false, s, At r) => r = l
  | Ok (_, _, Past) => False
  | _ => True
  end.
Proof.
  unfold is_string_to. pose proof (sat_char 0x22 l ltac:(lia)) as H.
  destruct (is_char 0x22 (At l)) as [[[] [r|]]| | |]; cbn [bind]; auto; try easy.
  cbn in H. pose proof (sat_string_loop (S (plen (At r))) [] r) as G.
  destruct (string_loop (S (plen (At r))) [] (At r)) as [[s [q|]]| | |]; cbn [bind]; auto.
  cbn in G. destruct G as [raw [s0 [H1 [H2 H3]]]]. subst s. exists ([0x22] ++ raw ++ [0x22]).
  split; [exists raw; auto|]. rewrite H, H3. cbn. now rewrite <- app_assoc.
Qed.

(** ** numbers *)
Lemma skip_digits_split l : exists ds, Forall is_dig ds /\ l = ds ++ skip_digits_list l.
Proof.
  induction l as [|c l [ds [HB E]]]; cbn [skip_digits_list].
  - exists []. split; [constructor|reflexivity].
  - destruct (digit c) eqn:EW.
    + exists (c :: ds). split; [constructor; auto; now apply digit_iff|]. cbn. now f_equal.
    + exists []. split; [constructor|reflexivity].
Qed.
Lemma sat_digit l : sat (is_digit (At l)) (fun b r =>
  if b : bool then exists d, is_dig d /\ l = d :: r else r = l).
Proof.
  unfold is_digit. destruct l as [|c l]; cbn [rd bind]; [reflexivity|].
  destruct (digit c) eqn:E; cbn; auto. exists c. split; auto. now apply digit_iff.
Qed.
Lemma sat_int l : sat (is_int (At l)) (fun b r =>
  if b : bool then exists i, int_part i /\ l = i ++ r else r = l).
Proof.
  unfold is_int. destruct (is_char_cases 0x30 l ltac:(lia)) as [[r [-> ->]]|[-> HN]]; cbn [bind].
  { cbn. exists [0x30]. split; [now left|reflexivity]. }
  eapply sat_bind; [apply sat_digit|]. intros b r Hb. destruct b; cbn [negb]; [|exact Hb].
  destruct Hb as [d [Hd ->]]. cbn [skip_digits bind sat].
  destruct (skip_digits_split r) as [ds [H1 H2]]. exists (d :: ds). split.
  - right. exists d, ds. split; auto. split; auto. unfold is_dig in Hd.
    destruct (N.eq_dec d 0x30) as [->|?]; [now elim (HN r)|lia].
  - cbn. congruence.
Qed.
Definition satc (m : res cursor) (Q : list N -> Prop) : Prop :=
  match m with Ok (At r) => Q r | Ok Past => False | _ => True end.
Lemma satc_bind {A} (m : res (A * cursor)) (f : A * cursor -> res cursor) (Q : A -> list N -> Prop) R :
  sat m Q -> (forall a r, Q a r -> satc (f (a, At r)) R) -> satc (bind m f) R.
Proof. destruct m as [[a [r|]]| | |]; cbn; auto; try tauto. Qed.
Lemma sat_bindc {B} (m : res cursor) (f : cursor -> res (B * cursor)) (Q : list N -> Prop) R :
  satc m Q -> (forall r, Q r -> sat (f (At r)) R) -> sat (bind m f) R.
Proof. destruct m as [[r|]| | |]; cbn; auto; try tauto. Qed.
Lemma satc_digits l : satc ('(b, p) <- is_digit (At l) ;; _ <- require b ;; skip_digits p)
  (fun r => exists ds, digits1 ds /\ l = ds ++ r).
Proof.
  eapply satc_bind; [apply sat_digit|]. intros b r Hb. destruct b; cbn [require bind]; [|exact I].
  destruct Hb as [d [Hd ->]]. cbn [skip_digits satc].
  destruct (skip_digits_split r) as [ds [H1 H2]]. exists (d :: ds). split.
  - split; [discriminate|constructor; auto].
  - cbn. congruence.
Qed.
Lemma satc_frac l : satc (frac (At l)) (fun r => exists f, frac_part f /\ l = f ++ r).
Proof.
  unfold frac. eapply satc_bind; [apply sat_char; lia|]. intros b r Hb. destruct b; cbn [negb].
  - pose proof (satc_digits r) as H. destruct (_ <- is_digit (At r);; _) as [[q|]| | |]; auto.
    cbn in *. destruct H as [ds [H1 H2]]. exists (0x2E :: ds). split; [right; eauto|]. cbn. congruence.
  - cbn. exists []. split; [now left|exact (eq_sym Hb)].
Qed.
Lemma satc_exp l : satc (exp (At l)) (fun r => exists e, exp_part e /\ l = e ++ r).
Proof.
  unfold exp.
  eapply satc_bind; [apply sat_char; lia|]. intros b1 r1 Hb1.
  apply (satc_bind _ _ (fun b r => if b : bool then exists e, (e = 0x65 \/ e = 0x45) /\ l = e :: r else r = l)).
  { destruct b1; [cbn; eauto|]. subst r1. eapply sat_weak; [apply sat_char; lia|].
    intros [] r; cbn; eauto. }
  intros b2 r2 H2. destruct b2; cbn [negb]; [|cbn; exists []; split; [now left|exact (eq_sym H2)]].
  destruct H2 as [e [He ->]].
  eapply satc_bind; [apply sat_char; lia|]. intros b3 r3 Hb3.
  apply (satc_bind _ _ (fun _ r => exists sg, (sg = [] \/ sg = [0x2D] \/ sg = [0x2B]) /\ r2 = sg ++ r)).
  { destruct b3; [cbn; exists [0x2D]; split; [auto|exact Hb3]|]. subst r3.
    eapply sat_weak; [apply sat_char; lia|].
    intros [] r; cbn; [intros ->; exists [0x2B]; auto|intros ->; exists []; auto]. }
  intros _ r4 [sg [Hsg ->]]. pose proof (satc_digits r4) as H.
  destruct (_ <- is_digit (At r4);; _) as [[q|]| | |]; auto.
  cbn in *. destruct H as [ds [H1 ->]]. exists (e :: sg ++ ds). split.
  - right. exists e, sg, ds. auto.
  - cbn. now rewrite <- app_assoc.
Qed.

Section V.
Context {num : Type} (strtod : list N -> option num).
Notation value := (value num).
Notation is_value := (is_value strtod).
Notation jvalue := (jvalue strtod ASL).
Notation jelements := (jelements strtod ASL).
Notation jmembers := (jmembers strtod ASL).

(** what a recogniser of values leaves behind *)
Definition found (l : list N) (o : option value) (r : list N) : Prop :=
  match o with
  | Some v => exists w t w', blank w /\ blank w' /\ jvalue t v /\ l = w ++ t ++ w' ++ r
  | None => exists w, blank w /\ l = w ++ r
  end.
Lemma found_same l : found l None l.
Proof. exists []. split; [constructor|reflexivity]. Qed.
Lemma found_exact t v r : jvalue t v -> found (t ++ r) (Some v) r.
Proof. intros H. exists [], t, []. split; [constructor|]. split; [constructor|]. auto. Qed.
Lemma found_pre w l o r : blank w -> found l o r -> found (w ++ l) o r.
Proof.
  intros HW. destruct o as [v|]; cbn.
  - intros [w1 [t [w2 [H1 [H2 [H3 ->]]]]]]. exists (w ++ w1), t, w2. rewrite <- app_assoc.
    split; [now apply blank_app|auto].
  - intros [w1 [H1 ->]]. exists (w ++ w1). rewrite <- app_assoc. split; [now apply blank_app|auto].
Qed.

Lemma sat_is_string l : sat (@is_string num (At l)) (found l).
Proof.
  unfold is_string. pose proof (sat_string_to l) as H.
  destruct (is_string_to [] (At l)) as [[[[] s] [r|]]| | |]; cbn [bind sat]; auto.
  - destruct H as [t [H ->]]. apply found_exact. now constructor.
  - subst r. apply found_same.
Qed.
Lemma sat_number l : sat (is_number strtod (At l)) (found l).
Proof.
  unfold is_number. eapply sat_bind; [apply sat_char; lia|]. intros neg r1 H1.
  assert (exists sg, (sg = [] \/ sg = [0x2D]) /\ l = sg ++ r1 /\ (neg = false -> r1 = l)) as [sg [Hsg [El Hneg]]].
  { destruct neg; [exists [0x2D]|exists []]; subst; auto. split; auto. split; auto. discriminate. }
  eapply sat_bind; [apply sat_int|]. intros b r2 H2. destruct b; cbn [negb].
  2:{ apply sat_require. intros HN. apply negb_true_iff in HN. subst r2. cbn. rewrite Hneg by exact HN.
      exists []. split; [constructor|reflexivity]. }
  destruct H2 as [i [Hi E2]].
  eapply sat_bindc; [apply satc_frac|]. intros r3 [f [Hf E3]].
  eapply sat_bindc; [apply satc_exp|]. intros r4 [e [He E4]].
  assert (E : l = (sg ++ i ++ f ++ e) ++ r4) by (rewrite El, E2, E3, E4, <- !app_assoc; reflexivity).
  assert (B : between (At l) (At r4) = sg ++ i ++ f ++ e).
  { cbn [between]. rewrite E. rewrite (app_length _ r4).
    replace (length (sg ++ i ++ f ++ e) + length r4 - length r4)%nat with (length (sg ++ i ++ f ++ e)) by lia.
    now rewrite firstn_app, Nat.sub_diag, firstn_all, firstn_O, app_nil_r. }
  rewrite B. destruct (strtod (sg ++ i ++ f ++ e)) as [x|] eqn:EX; [|exact I].
  rewrite E. cbn [sat]. apply found_exact. constructor; auto.
  exists sg, i, f, e. auto.
Qed.
Lemma sat_sequence_loop : forall lit l, nz lit -> sat (sequence_loop lit (At l)) (fun b r => b = true /\ l = lit ++ r).
Proof. clear.
  induction lit as [|x lit IH]; intros l H; cbn [sequence_loop].
  - unfold is_char. destruct l as [|c l]; cbn [rd bind]; [exact I|].
    destruct (N.eqb_spec c 0) as [->|Hc]; cbn [bind]; [exact I|]. cbn. auto.
  - pose proof (Forall_inv H) as Hx. cbn beta in Hx.
    eapply sat_bind; [apply sat_char; exact Hx|]. intros b r Hb. destruct b.
    + eapply sat_weak; [apply IH; exact (Forall_inv_tail H)|]. intros b r' [-> ->]. split; auto.
    + destruct (N.eqb_spec x 0); [contradiction|]. exact I.
Qed.
Lemma sat_sequence lit l : nz lit -> sat (is_sequence lit (At l)) (fun b r =>
  if b : bool then l = lit ++ r else r = l).
Proof. clear.
  intros H. destruct lit as [|x lit]; cbn [is_sequence]; [reflexivity|].
  pose proof (Forall_inv H) as Hx. cbn beta in Hx.
  eapply sat_bind; [apply sat_char; exact Hx|]. intros b r Hb. destruct b; [|exact Hb].
  eapply sat_weak; [apply sat_sequence_loop; exact (Forall_inv_tail H)|]. intros b r' [-> ->]. exact Hb.
Qed.
Lemma sat_bool l : sat (@is_bool num (At l)) (found l).
Proof.
  unfold is_bool. eapply sat_bind; [apply sat_sequence, nz_true|]. intros b r Hb. destruct b.
  { rewrite Hb. apply found_exact. constructor. }
  subst r. eapply sat_bind; [apply sat_sequence, nz_false|]. intros b r Hb. destruct b.
  { rewrite Hb. apply found_exact. constructor. }
  subst r. apply found_same.
Qed.
Lemma sat_null l : sat (@is_null num (At l)) (found l).
Proof.
  unfold is_null. eapply sat_bind; [apply sat_sequence, nz_null|]. intros b r Hb. destruct b.
  { rewrite Hb. apply found_exact. constructor. }
  subst r. apply found_same.
Qed.
Lemma sat_or a b l : sat (a (At l)) (found l) -> (forall r, sat (b (At r)) (found r)) ->
  sat (@or_else num a b (At l)) (found l).
Proof.
  intros HA HB. unfold or_else. eapply sat_bind; [exact HA|]. intros o r H. destruct o as [v|]; [exact H|].
  destruct H as [w [HW ->]]. eapply sat_weak; [apply HB|]. intros o r'. now apply found_pre.
Qed.

Section Rec.
Context (val : cursor -> res (option value * cursor)).
Context (Hval : forall l, sat (val (At l)) (found l)).

Definition some_found (l : list N) (v : value) (r : list N) : Prop := found l (Some v) r.
Lemma sat_required l : sat (required (val (At l))) (some_found l).
Proof.
  unfold required. eapply sat_bind; [apply Hval|]. intros o r H. destruct o as [v|]; [exact H|exact I].
Qed.
Lemma sat_elements : forall k acc l, sat (elements_loop val k acc (At l)) (fun a r =>
  exists l', a = acc ++ l' /\ forall t v w, jvalue t v -> blank w ->
    exists e, jelements e (v :: l') /\ t ++ w ++ l = e ++ r).
Proof.
  induction k as [|k IH]; intros acc l; [exact I|]. cbn [elements_loop].
  eapply sat_bind; [apply sat_structural; discriminate|]. intros b r Hb. destruct b; cbn [negb].
  2:{ destruct Hb as [w0 [H0 ->]]. cbn. exists []. split; [now rewrite app_nil_r|].
      intros t v w HV HW. exists (t ++ w ++ w0). split; [apply je_one; auto; now apply blank_app|].
      rewrite <- ?app_assoc; reflexivity. }
  destruct Hb as [w1 [w2 [H1 [H2 ->]]]].
  eapply sat_bind; [apply sat_required|]. intros v1 r1 [wa [t1 [wb [Ha [Hb [Ht ->]]]]]].
  eapply sat_weak; [apply IH|]. cbn beta. intros a r2 [l' [-> HE]].
  exists (v1 :: l'). split; [now rewrite <- app_assoc|]. intros t v w HV HW.
  destruct (HE t1 v1 wb Ht Hb) as [e [He Ee]].
  exists (t ++ (w ++ w1) ++ [0x2C] ++ (w2 ++ wa) ++ e). split.
  - apply je_cons; auto using blank_app.
  - rewrite Ee. rewrite <- !app_assoc. cbn [app]. rewrite <- ?app_assoc; reflexivity.
Qed.
Lemma sat_member l : sat (member_value val (At l)) (fun v r =>
  exists w1 w2 t w, blank w1 /\ blank w2 /\ jvalue t v /\ blank w /\ l = w1 ++ [0x3A] ++ w2 ++ t ++ w ++ r).
Proof.
  unfold member_value. eapply sat_bind; [apply sat_structural; discriminate|]. intros b r Hb.
  apply sat_require. intros ->. destruct Hb as [w1 [w2 [H1 [H2 ->]]]].
  eapply sat_weak; [apply sat_required|]. intros v r1 [wa [t1 [wb [Ha [Hb [Ht ->]]]]]].
  exists w1, (w2 ++ wa), t1, wb. split; auto. split; [now apply blank_app|]. split; auto. split; auto.
  rewrite <- !app_assoc. reflexivity.
Qed.
Definition add_all (l : list (list N * value)) (o : list (list N * value)) :=
  fold_left (fun o kv => move_append_obj o (fst kv) (snd kv)) l o.
Lemma sat_members : forall n o l, sat (members_loop val n o (At l)) (fun o' r =>
  exists l', o' = add_all l' o /\ forall k s w1 w2 t v w,
    quoted ASL k s -> blank w1 -> blank w2 -> jvalue t v -> blank w ->
    exists e, jmembers e ((s, v) :: l') /\ k ++ w1 ++ [0x3A] ++ w2 ++ t ++ w ++ l = e ++ r).
Proof.
  induction n as [|n IH]; intros o l; [exact I|]. cbn [members_loop].
  eapply sat_bind; [apply sat_structural; discriminate|]. intros b r Hb. destruct b; cbn [negb].
  2:{ destruct Hb as [w0 [H0 ->]]. cbn [sat]. exists []. split; [reflexivity|].
      intros k s w1 w2 t v w HQ H1 H2 HV HW. exists (k ++ w1 ++ [0x3A] ++ w2 ++ t ++ w ++ w0).
      split; [apply jm_one; auto; now apply blank_app|]. rewrite <- ?app_assoc; reflexivity. }
  destruct Hb as [w3 [w4 [H3 [H4 ->]]]].
  pose proof (sat_string_to r) as HS.
  destruct (is_string_to [] (At r)) as [[[b k0] p]| | |]; cbn [bind]; try exact I.
  apply sat_require. intros ->. destruct p as [r1|]; [|easy].
  destruct HS as [k [HQ ->]].
  eapply sat_bind; [apply sat_member|]. intros v r2 [w1 [w2 [t [w [H1 [H2 [HV [HW ->]]]]]]]].
  eapply sat_weak; [apply IH|]. cbn beta. intros o' r3 [l' [-> HE]].
  exists ((k0, v) :: l'). split; [reflexivity|]. intros k' s' w1' w2' t' v' w' HQ' H1' H2' HV' HW'.
  destruct (HE k k0 w1 w2 t v w HQ H1 H2 HV HW) as [e [He Ee]].
  exists (k' ++ w1' ++ [0x3A] ++ w2' ++ t' ++ (w' ++ w3) ++ [0x2C] ++ w4 ++ e). split.
  - apply jm_cons; auto using blank_app.
  - rewrite Ee. rewrite <- !app_assoc. cbn [app]. rewrite <- ?app_assoc; reflexivity.
Qed.
(** as [found], but the value is a container *)
Definition cfound (l : list N) (o : option value) (r : list N) : Prop :=
  found l o r /\ match o with Some v => container v | None => True end.
Lemma sat_array l : sat (is_array val (At l)) (cfound l).
Proof.
  unfold is_array. eapply sat_bind; [apply sat_structural; discriminate|]. intros b r Hb. destruct b; cbn [negb].
  2:{ destruct Hb as [w [HW ->]]. split; [|exact I]. exists w. auto. }
  destruct Hb as [w1 [w2 [H1 [H2 ->]]]].
  eapply sat_bind; [apply Hval|]. intros o r1 Ho.
  apply (sat_bind _ _ (fun (a : list value) r2 => exists t, jvalue ([0x5B] ++ w2 ++ t ++ [0x5D]) (VArr a) /\
      (forall w, blank w -> jvalue ([0x5B] ++ w2 ++ t ++ w ++ [0x5D]) (VArr a)) /\ r = t ++ r2)).
  - destruct o as [v|].
    + destruct Ho as [wa [t1 [wb [Ha [Hb [Ht ->]]]]]].
      eapply sat_weak; [apply sat_elements|]. cbn beta. intros a r2 [l' [-> HE]].
      destruct (HE t1 v wb Ht Hb) as [e [He Ee]]. exists (wa ++ e).
      assert (G : forall x, jelements x (v :: l') -> jvalue ([0x5B] ++ w2 ++ (wa ++ x) ++ [0x5D]) (VArr ([v] ++ l'))).
      { intros x Hx. replace (w2 ++ (wa ++ x) ++ [0x5D]) with ((w2 ++ wa) ++ x ++ [0x5D]) by (now rewrite <- !app_assoc).
        apply j_arr; auto using blank_app. }
      split; [now apply G|]. split; [|rewrite Ee; now rewrite <- app_assoc].
      intros w HW. replace ((wa ++ e) ++ w ++ [0x5D]) with ((wa ++ (e ++ w)) ++ [0x5D]) by (now rewrite <- !app_assoc).
      apply G. clear - He HW.
      remember (v :: l') as vl. revert v l' Heqvl. induction He as [t v w0 HV H0|t v wa wb r l HV Ha Hb He IH]; intros.
      * rewrite <- app_assoc. apply je_one; auto using blank_app.
      * rewrite <- !app_assoc. apply je_cons; auto. destruct l; [|eapply IH; eauto].
        exfalso. clear -He. remember [] as z. destruct He; discriminate.
    + destruct Ho as [w3 [H3 ->]]. cbn. exists w3. split.
      * rewrite (app_assoc w2). apply (j_arr0 _ _ (w2 ++ w3)). auto using blank_app.
      * split; auto. intros w HW. rewrite (app_assoc w3), (app_assoc w2). apply (j_arr0 _ _ (w2 ++ w3 ++ w)); auto using blank_app.
  - intros a r2 [t [J1 [J2 ->]]].
    eapply sat_bind; [apply sat_structural; discriminate|]. intros b r3 Hb. apply sat_require. intros ->.
    destruct Hb as [w4 [w5 [H4 [H5 ->]]]]. cbn. split; [|exact I].
    exists w1, ([0x5B] ++ w2 ++ t ++ w4 ++ [0x5D]), w5. split; auto. split; auto. split; [now apply J2|].
    cbn. rewrite <- !app_assoc. cbn [app]. rewrite <- ?app_assoc; reflexivity.
Qed.
Lemma jmembers_pad e l w : jmembers e l -> blank w -> jmembers (e ++ w) l.
Proof.
  intros H HW. induction H.
  - repeat (rewrite <- app_assoc; cbn [app]). apply jm_one; auto using blank_app.
  - repeat (rewrite <- app_assoc; cbn [app]). apply jm_cons; auto.
Qed.
Lemma sat_object l : sat (is_object val (At l)) (cfound l).
Proof.
  unfold is_object. eapply sat_bind; [apply sat_structural; discriminate|]. intros b r Hb. destruct b; cbn [negb].
  2:{ destruct Hb as [w [HW ->]]. split; [|exact I]. exists w. auto. }
  destruct Hb as [w1 [w2 [H1 [H2 ->]]]].
  pose proof (sat_string_to r) as HS.
  destruct (is_string_to [] (At r)) as [[[b k0] p]| | |]; cbn [bind]; try exact I.
  destruct p as [r1|]; [|destruct b; easy].
  apply (sat_bind _ _ (fun (a : list (list N * value)) r2 => exists t,
      (forall w, blank w -> jvalue ([0x7B] ++ w2 ++ t ++ w ++ [0x7D]) (VObj a)) /\ r = t ++ r2)).
  - destruct b.
    + destruct HS as [k [HQ ->]].
      eapply sat_bind; [apply sat_member|]. intros v r2 [wa [wb [t [w [Ha [Hb [HV [HW ->]]]]]]]].
      eapply sat_weak; [apply sat_members|]. cbn beta. intros o' r3 [l' [-> HE]].
      destruct (HE k k0 wa wb t v w HQ Ha Hb HV HW) as [e [He Ee]]. exists e. split; [|exact Ee].
      intros w' HW'. rewrite (app_assoc e). apply (j_obj strtod ASL w2 (e ++ w') ((k0, v) :: l')); auto.
      now apply jmembers_pad.
    + subst r1. cbn. exists []. split; auto. intros w HW. cbn [app]. rewrite app_assoc.
      apply (j_obj0 _ _ (w2 ++ w)). auto using blank_app.
  - intros a r2 [t [J1 ->]].
    eapply sat_bind; [apply sat_structural; discriminate|]. intros b' r3 Hb. apply sat_require. intros ->.
    destruct Hb as [w4 [w5 [H4 [H5 ->]]]]. cbn. split; [|exact I].
    exists w1, ([0x7B] ++ w2 ++ t ++ w4 ++ [0x7D]), w5. split; auto. split; auto. split; [now apply J1|].
    cbn. rewrite <- !app_assoc. cbn [app]. rewrite <- ?app_assoc; reflexivity.
Qed.
End Rec.

Lemma sat_value : forall fuel l, sat (is_value fuel (At l)) (found l).
Proof.
  induction fuel as [|fuel IH]; intros l; [exact I|]. cbn [Json_Model.is_value].
  apply sat_or; [apply sat_is_string|]. intros r1.
  apply sat_or; [apply sat_number|]. intros r2.
  apply sat_or; [eapply sat_weak; [apply sat_object; exact IH|now intros ? ? []]|]. intros r3.
  apply sat_or; [eapply sat_weak; [apply sat_array; exact IH|now intros ? ? []]|]. intros r4.
  apply sat_or; [apply sat_bool|]. intros r5. apply sat_null.
Qed.
Theorem parse_sound text v : json_parse strtod text = Ok v ->
  exists w u junk, text = w ++ u ++ junk /\ blank w /\ jvalue u v /\ container v.
Proof.
  unfold json_parse. set (val := is_value _). intros H.
  assert (G : sat (or_else (is_object val) (is_array val) (At text)) (cfound text)).
  { unfold or_else. eapply sat_bind; [apply sat_object, sat_value|].
    intros o r [H1 H2]. destruct o as [x|]; [now split|].
    destruct H1 as [w [HW ->]]. eapply sat_weak; [apply sat_array, sat_value|].
    intros o r' [K1 K2]. split; auto. now apply found_pre. }
  unfold required in H. destruct (or_else _ _ _) as [[[x|] [r|]]| | |]; cbn in H, G; try discriminate; try easy.
  injection H as <-. destruct G as [[w [t [w' [H1 [H2 [H3 ->]]]]]] HC].
  exists w, t, (w' ++ r). auto.
Qed.
End V.
