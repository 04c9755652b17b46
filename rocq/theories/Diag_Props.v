(** Properties C116 (messages of exceptions) and C117 (lines of text). *)
From Coq Require Import String Ascii ZArith Lia DecimalString.
From Verif Require Import Prelude Cel_Model XmlOut_Model Diag_Model Diag_Spec.
From Coq Require Import List.
Import ListNotations.
Local Open Scope nat_scope.

Lemma blank_untab c : blank c <-> untab c = SP.
Proof. unfold blank, untab. destruct (Ascii.eqb_spec c "009") as [-> | N]; unfold SP; split; intros H; auto; try (destruct H; congruence). Qed.
Lemma untab_nul c : untab c = NUL <-> c = NUL.
Proof. unfold untab. destruct (Ascii.eqb_spec c "009") as [-> | N]; unfold NUL; split; intros H; congruence. Qed.

Lemma first_not_of_some c t n : first_not_of c t = Some n -> exists pre d t', t = pre ++ d :: t' /\ Forall (eq c) pre /\ length pre = n /\ d <> c.
Proof.
  revert n. induction t as [|x t IH]; intros n; cbn [first_not_of]; [discriminate|].
  destruct (Ascii.eqb_spec x c) as [-> | N].
  - destruct (first_not_of c t) as [m|]; [|discriminate]. intros [= <-]. destruct (IH m eq_refl) as (pre & d & t' & -> & F & L & D).
    exists (c :: pre), d, t'. split; [reflexivity|]. split; [now constructor|]. cbn [length]. split; [lia|exact D].
  - intros [= <-]. exists [], x, t. now repeat split.
Qed.
Lemma first_not_of_none c t : first_not_of c t = None -> Forall (eq c) t.
Proof.
  induction t as [|x t IH]; cbn [first_not_of]; [constructor|]. destruct (Ascii.eqb_spec x c) as [-> | N]; [|discriminate].
  destruct (first_not_of c t); [discriminate|]. intros _. constructor; auto.
Qed.
Lemma last_not_of_some c t n : last_not_of c t = Some n -> exists t' d post, t = t' ++ d :: post /\ Forall (eq c) post /\ length t' = n /\ d <> c.
Proof.
  unfold last_not_of. destruct (first_not_of c (rev t)) as [m|] eqn:E; [|discriminate]. intros [= <-].
  destruct (first_not_of_some _ _ _ E) as (pre & d & t' & R & F & L & D). exists (rev t'), d, (rev pre).
  assert (T : t = rev t' ++ d :: rev pre) by (rewrite <- (rev_involutive t), R, rev_app_distr; cbn [rev]; now rewrite <- app_assoc).
  split; [exact T|]. split; [now apply Forall_rev|]. split; [|exact D]. rewrite T, app_length. cbn [length]. rewrite !rev_length. lia.
Qed.
Lemma last_not_of_none c t : last_not_of c t = None -> Forall (eq c) t.
Proof. unfold last_not_of. destruct (first_not_of c (rev t)) eqn:E; [discriminate|]. intros _. apply first_not_of_none in E. apply Forall_rev in E. now rewrite rev_involutive in E. Qed.

Lemma to_int_small z : (- 2 ^ 31 <= z < 2 ^ 31)%Z -> to_int (to_size z) = z.
Proof.
  intros H. unfold to_int, to_size. assert (E : ((z mod 2 ^ 64) mod 2 ^ 32 = z mod 2 ^ 32)%Z).
  { change (2 ^ 64)%Z with (2 ^ 32 * 2 ^ 32)%Z. rewrite Z.rem_mul_r by lia. rewrite Z.mul_comm, Z.mod_add by lia. apply Z.mod_mod. lia. }
  rewrite E. destruct (Z.ltb_spec (z mod 2 ^ 32) (2 ^ 31)) as [L|L].
  - destruct (Z.neg_nonneg_cases z) as [N|N]; [|apply Z.mod_small; lia].
    replace z with ((z + 2 ^ 32) + (-1) * 2 ^ 32)%Z in L by lia. rewrite Z.mod_add, Z.mod_small in L by lia. lia.
  - destruct (Z.neg_nonneg_cases z) as [N|N].
    + replace z with ((z + 2 ^ 32) + (-1) * 2 ^ 32)%Z at 1 by lia. rewrite Z.mod_add, Z.mod_small by lia. lia.
    + rewrite Z.mod_small in L by lia. lia.
Qed.

(** the line as it is shown *)
Lemma map_eq_pre pre : Forall blank pre -> map untab pre = repeat SP (length pre).
Proof. induction 1 as [|c l B F IH]; cbn [map length repeat]; [reflexivity|]. f_equal; [now apply blank_untab|exact IH]. Qed.

(** The text a snippet consists of, and where its caret is *)
Definition caret (p : place) (shown : list ascii) (indent : nat) : Z :=
  ((if (p_position p =? -1)%Z then Z.of_nat (length shown) else column p) - Z.of_nat indent - 1)%Z.
Lemma snippet_trimmed p : p_snippet p <> [] -> ~ Forall blank (p_snippet p) ->
  exists shown indent, trimmed (p_snippet p) shown indent /\
    format_snippet p = shown ++ [LF] ++ padded (to_int (to_size (caret p shown indent + 1))) "^" ++ [LF].
Proof.
  intros N B. unfold format_snippet. destruct (p_snippet p) as [|c0 l0] eqn:Es; [contradiction|]. rewrite <- Es in *. clear N c0 l0 Es.
  cbv zeta. change (map (fun c => if Ascii.eqb c TAB then SP else c) (p_snippet p)) with (map untab (p_snippet p)).
  destruct (first_not_of SP (map untab (p_snippet p))) as [n|] eqn:E.
  2: { exfalso. apply B. apply first_not_of_none in E. rewrite Forall_map in E. eapply Forall_impl; [|exact E]. intros c Hc. apply blank_untab. now symmetry. }
  destruct (first_not_of_some _ _ _ E) as (pre & d & t' & M & F & L & D).
  destruct (map_eq_app _ _ _ _ M) as (pre' & rest' & Es & E1 & E2). subst pre.
  assert (Hb : Forall blank pre').
  { rewrite Forall_map in F. eapply Forall_impl; [|exact F]. intros c Hc. apply blank_untab. now symmetry. }
  rewrite map_length in L. rewrite Es, map_app, <- L.
  assert (Sk : skipn (length pre') (map untab pre' ++ map untab rest') = map untab rest').
  { rewrite <- (map_length untab pre') at 1. now rewrite skipn_app, skipn_all, Nat.sub_diag. }
  rewrite Sk.   assert (Hd : match rest' with c :: _ => ~ blank c | [] => False end).
  { destruct rest' as [|c r]; [discriminate E2|]. cbn [map] in E2. injection E2 as <- _. intros Hc. apply D. now apply blank_untab. }
  set (tail := map untab rest').
  assert (K : exists mid post, rest' = mid ++ post /\ Forall (fun c => c = "000"%char) post /\ match mid with c :: _ => ~ blank c | [] => False end /\
    (last mid "000"%char <> "000"%char \/ Forall (fun c => c = "000"%char) mid /\ post = []) /\
    match last_not_of NUL tail with Some n0 => firstn (n0 + 1) tail | None => tail end = map untab mid).
  { destruct (last_not_of NUL tail) as [m|] eqn:En.
    - destruct (last_not_of_some _ _ _ En) as (a & b & post & T & Fp & La & Db). unfold tail in T.
      destruct (map_eq_app _ _ _ _ T) as (a' & r' & Er & Ea & Eb). destruct r' as [|b' post']; [discriminate Eb|]. cbn [map] in Eb. injection Eb as Eb1 Eb2.
      exists (a' ++ [b']), post'. split; [rewrite Er, <- app_assoc; reflexivity|]. split; [|split; [|split]].
      + subst post. rewrite Forall_map in Fp. eapply Forall_impl; [|exact Fp]. intros c Hc. apply untab_nul. now symmetry.
      + rewrite Er in Hd. destruct a'; exact Hd.
      + left. rewrite last_last. intros Q. apply Db. rewrite <- Eb1. now apply untab_nul.
      + unfold tail. rewrite Er. rewrite !map_app. cbn [map]. rewrite <- La, <- Ea. rewrite map_length, firstn_app, map_length.
        rewrite firstn_all2 by (rewrite map_length; lia). replace (length a' + 1 - length a') with 1 by lia. reflexivity.
    - exists rest', []. apply last_not_of_none in En. rewrite app_nil_r. split; [reflexivity|]. split; [constructor|]. split; [exact Hd|]. split; [|reflexivity].
      right. split; [|reflexivity]. unfold tail in En. rewrite Forall_map in En. eapply Forall_impl; [|exact En]. intros c Hc. apply untab_nul. now symmetry. }
  destruct K as (mid & post & Er & Fp & Hm & Hl & Ek). rewrite Ek. exists (map untab mid), (length pre'). split.
  - exists pre', mid, post. rewrite Er. now repeat split.
  - do 4 f_equal. f_equal. f_equal. unfold caret, column. destruct (p_position p =? -1)%Z; lia.
Qed.
Lemma snippet_blank p : p_snippet p <> [] -> Forall blank (p_snippet p) ->
  format_snippet p = map untab (p_snippet p) ++ [LF] ++
    padded (to_int (to_size (if (p_position p =? -1)%Z then Z.of_nat (length (p_snippet p)) + 1 else column p + 1))) "^" ++ [LF].
Proof.
  intros N B. unfold format_snippet. destruct (p_snippet p) as [|c0 l0] eqn:Es; [contradiction|]. rewrite <- Es in *. clear c0 l0 Es.
  cbv zeta. change (map (fun c => if Ascii.eqb c TAB then SP else c) (p_snippet p)) with (map untab (p_snippet p)).
  assert (R : map untab (p_snippet p) = repeat SP (length (p_snippet p))) by now apply map_eq_pre.
  assert (F : forall n, first_not_of SP (repeat SP n) = None) by (induction n as [|n IHn]; cbn [repeat first_not_of]; [reflexivity|]; now rewrite Ascii.eqb_refl, IHn).
  rewrite R, F. assert (La : match last_not_of NUL (repeat SP (length (p_snippet p))) with Some n => firstn (n + 1) (repeat SP (length (p_snippet p))) | None => repeat SP (length (p_snippet p)) end = repeat SP (length (p_snippet p))).
  { destruct (last_not_of NUL (repeat SP (length (p_snippet p)))) as [m|] eqn:E; [|reflexivity].
    destruct (last_not_of_some _ _ _ E) as (a & b & post & T & Fp & La & Db). destruct post as [|x post].
    - rewrite T, firstn_all2; [reflexivity|]. rewrite app_length. cbn [length]. lia.
    - exfalso. assert (Hx : In x (repeat SP (length (p_snippet p)))) by (rewrite T; apply in_or_app; right; right; now left).
      apply repeat_spec in Hx. inversion Fp; subst. discriminate. }
  rewrite La, repeat_length. do 4 f_equal. f_equal. f_equal. unfold column. destruct (p_position p =? -1)%Z; lia.
Qed.
Lemma marked_padded shown w : shown ++ [LF] ++ padded w "^" ++ [LF] = marked shown (Z.to_nat (w - 1)).
Proof. unfold marked, padded. rewrite <- !app_assoc. reflexivity. Qed.
Lemma blank_dec l : Forall blank l \/ ~ Forall blank l.
Proof.
  induction l as [|c l [IH|IH]]; [left; constructor| |right; intros H; inversion H; auto].
  destruct (Ascii.ascii_dec c " ") as [-> | N]; [left; constructor; [now left|exact IH]|].
  destruct (Ascii.ascii_dec c "009") as [-> | N']; [left; constructor; [now right|exact IH]|]. right. intros H. inversion H as [|? ? [?|?]]; auto.
Qed.
Lemma snippet_text p : line_text p (format_snippet p).
Proof.
  destruct (p_snippet p) as [|c l] eqn:E; [unfold format_snippet; rewrite E; now constructor|].
  assert (N : p_snippet p <> []) by (rewrite E; discriminate). clear E.
  destruct (blank_dec (p_snippet p)) as [B|B].
  - rewrite (snippet_blank p N B), marked_padded. now constructor.
  - destruct (snippet_trimmed p N B) as (shown & indent & T & ->). rewrite marked_padded. now apply lt_line with indent.
Qed.

Lemma show_place_text p : show_place p = place_text p.
Proof. unfold show_place, place_text. destruct (p_name p); reflexivity. Qed.
(** C116: an exception names its text and every place it went through, in order, with their lines *)
Theorem C116_message e p l : e_places e = p :: l -> exists s ss,
  format_stream_error e = Some (place_text p ++ chars ": error: " ++ e_what e ++ newline ++ s ++
                                concat (map (fun qs => place_text (fst qs) ++ newline ++ snd qs) (combine l ss))) /\
  line_text p s /\ Forall2 line_text l ss.
Proof.
  intros E. unfold format_stream_error. rewrite E. exists (format_snippet p), (map format_snippet l). split; [|split].
  - f_equal. rewrite show_place_text. f_equal. rewrite (app_assoc (cs ": ") (cs "error: ")). change (cs ": " ++ cs "error: ") with (chars ": error: "). do 4 f_equal.
    induction l as [|q l IH] in |- *; cbn [flat_map map combine concat fst snd]; [reflexivity|]. rewrite show_place_text, IH. now rewrite <- !app_assoc.
  - apply snippet_text.
  - clear E. induction l; cbn [map]; constructor; [apply snippet_text|assumption].
Qed.
Theorem C116_trace what p qs :
  let e := fold_left (fun e q => error_of (e_what e) (Some (e_places e)) true true q) qs (error_at what p) in
  e_what e = what /\ e_places e = p :: qs.
Proof.
  cbn zeta. assert (G : forall qs e, let f := fold_left (fun e q => error_of (e_what e) (Some (e_places e)) true true q) qs e in e_what f = e_what e /\ e_places f = e_places e ++ qs).
  { clear. induction qs as [|q qs IH]; intros e; cbn [fold_left]; [now rewrite app_nil_r|]. cbn zeta in *.
    destruct (IH (error_of (e_what e) (Some (e_places e)) true true q)) as [-> ->]. cbn [error_of e_what e_places]. now rewrite <- app_assoc. }
  destruct (G qs (error_at what p)) as [-> ->]. now split.
Qed.

Lemma trimmed_fun line a n b m : trimmed line a n -> trimmed line b m -> a = b /\ n = m.
Proof.
  intros (p1 & m1 & q1 & E1 & B1 & L1 & S1 & Z1 & H1 & T1) (p2 & m2 & q2 & E2 & B2 & L2 & S2 & Z2 & H2 & T2). subst line a b n m.
  assert (P : forall p1 p2 r1 r2, Forall blank p1 -> Forall blank p2 -> match r1 with c :: _ => ~ blank c | [] => False end ->
            match r2 with c :: _ => ~ blank c | [] => False end -> p1 ++ r1 = p2 ++ r2 -> p1 = p2 /\ r1 = r2).
  { clear. induction p1 as [|x p1 IH]; intros [|y p2] r1 r2 B1 B2 H1 H2 E; cbn [app] in E.
    - now split.
    - subst r1. inversion B2; subst. contradiction.
    - subst r2. inversion B1; subst. contradiction.
    - injection E as -> E. inversion B1; inversion B2; subst. destruct (IH p2 r1 r2) as [-> ->]; auto. }
  destruct (P p1 p2 (m1 ++ q1) (m2 ++ q2)) as [-> Q]; auto; [destruct m1; [contradiction|exact H1]|destruct m2; [contradiction|exact H2]|]. clear P E2 B1 B2.
  split; [|reflexivity]. f_equal.
  destruct T1 as [T1|[A1 ->]], T2 as [T2|[A2 ->]].
  - apply (f_equal (@rev ascii)) in Q. rewrite !rev_app_distr in Q. apply Forall_rev in Z1, Z2.
    assert (R : forall z1 z2 r1 r2, Forall (fun c => c = "000"%char) z1 -> Forall (fun c => c = "000"%char) z2 ->
              match r1 with c :: _ => c <> "000"%char | [] => False end -> match r2 with c :: _ => c <> "000"%char | [] => False end -> z1 ++ r1 = z2 ++ r2 -> r1 = r2).
    { clear. induction z1 as [|x z1 IH]; intros [|y z2] r1 r2 B1 B2 H1 H2 E; cbn [app] in E; auto.
      - subst r1. inversion B2; subst. contradiction.
      - subst r2. inversion B1; subst. contradiction.
      - injection E as -> E. inversion B1; inversion B2; subst. eauto. }
    assert (X : forall m, match m with c :: _ => ~ blank c | [] => False end -> last m "000"%char <> "000"%char -> match rev m with c :: _ => c <> "000"%char | [] => False end).
    { clear. intros m H T. destruct m as [|c m _] using rev_ind; [contradiction|]. rewrite rev_app_distr. cbn [rev app]. now rewrite last_last in T. }
    assert (Y : rev m1 = rev m2) by exact (R (rev q1) (rev q2) _ _ Z1 Z2 (X _ H1 T1) (X _ H2 T2) Q). apply (f_equal (@rev ascii)) in Y. now rewrite !rev_involutive in Y.
  - exfalso. rewrite app_nil_r in Q. apply T1. assert (F : Forall (fun c => c = "000"%char) m1) by (rewrite <- Q in A2; now apply Forall_app in A2).
    destruct m1 as [|c m1 _] using rev_ind; [contradiction|]. rewrite last_last. apply Forall_app in F. destruct F as [_ F]. now inversion F.
  - exfalso. rewrite app_nil_r in Q. apply T2. assert (F : Forall (fun c => c = "000"%char) m2) by (rewrite Q in A1; now apply Forall_app in A1).
    destruct m2 as [|c m2 _] using rev_ind; [contradiction|]. rewrite last_last. apply Forall_app in F. destruct F as [_ F]. now inversion F.
  - now rewrite !app_nil_r in Q.
Qed.
Lemma trimmed_not_blank line a n : trimmed line a n -> line <> [] /\ ~ Forall blank line /\ n + length a <= length line.
Proof.
  intros (p & m & q & -> & B & <- & -> & Z & H & T). destruct m as [|c m]; [contradiction|]. split; [destruct p; discriminate|]. split.
  - rewrite Forall_app. intros [_ F]. now inversion F.
  - rewrite map_length, !app_length. lia.
Qed.
Lemma snippet_caret p shown indent : modest p -> trimmed (p_snippet p) shown indent -> format_snippet p = marked shown (Z.to_nat (caret p shown indent)).
Proof.
  intros [M1 M2] T. destruct (trimmed_not_blank _ _ _ T) as (N & B & L). destruct (snippet_trimmed p N B) as (s & i & T' & ->).
  destruct (trimmed_fun _ _ _ _ _ T T') as [<- <-]. rewrite to_int_small, marked_padded; [do 2 f_equal; lia|]. unfold caret. destruct (p_position p =? -1)%Z; lia.
Qed.
(** The caret: under the first character when the column that is reported is that one's, or is before it; *)
Theorem C116_caret_partial p shown indent : modest p -> trimmed (p_snippet p) shown indent -> p_position p <> (-1)%Z ->
  (column p <= Z.of_nat indent)%Z -> format_snippet p = marked shown 0.
Proof.
  intros M T U C. rewrite (snippet_caret p shown indent M T). f_equal. unfold caret. destruct (Z.eqb_spec (p_position p) (-1)); [contradiction|lia].
Qed.
(** otherwise one to the left of it *)
Theorem C116_caret_refuted p shown indent : modest p -> trimmed (p_snippet p) shown indent -> p_position p <> (-1)%Z ->
  (Z.of_nat indent < column p)%Z -> exists k, format_snippet p = marked shown k /\ Z.of_nat (indent + k + 1) = column p.
Proof.
  intros M T U C. exists (Z.to_nat (caret p shown indent)). split; [exact (snippet_caret p shown indent M T)|].
  unfold caret. destruct (Z.eqb_spec (p_position p) (-1)); [contradiction|lia].
Qed.
(** Without a position the caret is meant to stand at the end of the line, and does when that is not indented *)
Theorem C116_caret_at_the_end p shown indent : modest p -> trimmed (p_snippet p) shown indent -> p_position p = (-1)%Z ->
  format_snippet p = marked shown (length shown - indent - 1).
Proof.
  intros M T U. rewrite (snippet_caret p shown indent M T). f_equal. unfold caret. rewrite U, Z.eqb_refl. lia.
Qed.
(** An exception whose place could not be stored has no message *)
Theorem C116_no_place_refuted what p : format_stream_error (error_of what None true false p) = None.
Proof. reflexivity. Qed.

(** *** C117 *)
Lemma is_line_end_spec c t : is_line_end (c :: t) = Some
  (if Ascii.eqb c LF then (true, t) else if Ascii.eqb c CR then (true, match t with d :: t' => if Ascii.eqb d LF then t' else t | [] => [] end) else (false, c :: t)).
Proof.
  unfold is_line_end. destruct (Ascii.eqb_spec c LF) as [-> | N]; [reflexivity|]. destruct (Ascii.eqb_spec c CR) as [-> | N']; [|reflexivity].
  cbn [negb andb]. destruct t as [|d t]; [reflexivity|]. now destruct (Ascii.eqb d LF).
Qed.
Lemma get_line_loop_spec n : forall t r, length t < n -> exists l rest, get_line_loop n t r = Some (rest, r ++ l) /\ line_of t l rest.
Proof.
  induction n as [|n IH]; intros t r H; [lia|]. destruct t as [|c t]; cbn [get_line_loop].
  { exists [], []. rewrite app_nil_r. split; [reflexivity|]. apply lo_end. constructor. }
  rewrite is_line_end_spec. destruct (Ascii.eqb_spec c LF) as [-> | N]; [|destruct (Ascii.eqb_spec c CR) as [-> | N']].
  - exists [], t. rewrite app_nil_r. split; [reflexivity|]. exact (lo_lf [] t (Forall_nil _)).
  - destruct t as [|d t].
    + exists [], []. rewrite app_nil_r. split; [reflexivity|]. refine (lo_cr [] [] (Forall_nil _) _). discriminate.
    + destruct (Ascii.eqb_spec d LF) as [-> | D].
      * exists [], t. rewrite app_nil_r. split; [reflexivity|]. exact (lo_crlf [] t (Forall_nil _)).
      * exists [], (d :: t). rewrite app_nil_r. split; [reflexivity|]. refine (lo_cr [] (d :: t) (Forall_nil _) _). intros x [= E _]. now apply D.
  - cbn [length] in H. destruct (IH t (r ++ [c])) as (l & rest & E & L); [lia|]. exists (c :: l), rest. rewrite E, <- app_assoc. split; [reflexivity|].
    assert (C : in_line c) by now split. inversion L as [l0 F|l0 r0 F|l0 r0 F|l0 r0 F G]; subst.
    + apply lo_end. now constructor.
    + refine (lo_lf (c :: l) rest _). now constructor.
    + refine (lo_crlf (c :: l) rest _). now constructor.
    + refine (lo_cr (c :: l) rest _ G). now constructor.
Qed.
Lemma line_of_fun t l r l' r' : line_of t l r -> line_of t l' r' -> l = l' /\ r = r'.
Proof.
  intros H. revert t l r l' r' H.
  assert (A : forall l l' c c' r r', Forall in_line l -> Forall in_line l' -> ~ in_line c -> ~ in_line c' -> l ++ c :: r = l' ++ c' :: r' -> l = l' /\ c = c' /\ r = r').
  { induction l as [|x l IH]; intros [|y l'] c c' r r' F F' C C' E; cbn [app] in E; injection E as -> E; auto.
    - inversion F'; subst. contradiction.
    - inversion F; subst. contradiction.
    - inversion F; inversion F'; subst. destruct (IH l' c c' r r') as (-> & -> & ->); auto. }
  assert (B : forall l l' c r, Forall in_line l -> ~ in_line c -> l = l' ++ c :: r -> False).
  { intros l l' c r F C ->. apply Forall_app in F. destruct F as [_ F]. inversion F. contradiction. }
  assert (NL : ~ in_line "010"%char) by (intros [[] _]; reflexivity). assert (NC : ~ in_line "013"%char) by (intros [_ []]; reflexivity).
  intros t l r l' r' H H'.
  inversion H as [l0 F|l0 r0 F|l0 r0 F|l0 r0 F G]; subst; inversion H' as [l1 F'|l1 r1 F' E|l1 r1 F' E|l1 r1 F' G' E]; subst; auto;
    try (exfalso; eapply B; [| |reflexivity]; eassumption);
    try (exfalso; eapply B; [| |symmetry; eassumption]; eassumption);
    try (exfalso; eapply B; [| |eassumption]; eassumption);
    match goal with E : _ ++ _ :: _ = _ ++ _ :: _ |- _ => apply A in E; try assumption; destruct E as (? & ? & ?) end; try discriminate; subst; auto.
  - injection H2 as ->. auto.
  - exfalso. now apply (G' r).
  - exfalso. now apply (G r').
Qed.
(** C117: get_line takes the first line of every text, whatever it ends with, *)
Theorem C117_get_line t l rest : get_line t = Some (rest, l) <-> line_of t l rest.
Proof.
  unfold get_line. destruct (get_line_loop_spec (S (length t)) t []) as (l0 & r0 & E & L); [lia|]. rewrite E. cbn [app]. split.
  - intros [= <- <-]. exact L.
  - intros L'. destruct (line_of_fun _ _ _ _ _ L L') as [-> ->]. reflexivity.
Qed.
Theorem C117_get_line_total t : exists l rest, get_line t = Some (rest, l).
Proof. unfold get_line. destruct (get_line_loop_spec (S (length t)) t []) as (l0 & r0 & E & L); [lia|]. eauto. Qed.
(** and taking lines until nothing is left takes all of them *)
Lemma line_of_shorter t l rest : t <> [] -> line_of t l rest -> length rest < length t.
Proof. intros N L. inversion L; subst; [destruct l; [contradiction|cbn [length]; lia]|..]; rewrite app_length; cbn [length]; lia. Qed.
Theorem C117_lines t ls : lines t = Some ls <-> lines_of t ls.
Proof.
  unfold lines. assert (G : forall n t, length t <= n -> forall ls, lines_loop n t = Some ls <-> lines_of t ls).
  { clear. induction n as [|n IH]; intros [|c t] H ls; cbn [length] in H; try lia; cbn [lines_loop].
    1,2: split; [intros [= <-]; constructor|intros X; inversion X; [reflexivity|contradiction]].
    destruct (C117_get_line_total (c :: t)) as (l & rest & E). rewrite E. apply C117_get_line in E.
    assert (S : length rest <= n). { apply line_of_shorter in E; [cbn [length] in E; lia|discriminate]. } split.
    - destruct (lines_loop n rest) as [ls'|] eqn:R; [|discriminate]. intros [= <-]. apply (IH rest S) in R. apply ls_cons with rest; [discriminate|exact E|exact R].
    - intros X. inversion X as [|? l' rest' ls' _ L R]; subst. destruct (line_of_fun _ _ _ _ _ E L) as [<- <-]. apply (IH rest S) in R. now rewrite R. }
  apply G. lia.
Qed.

(** Cases *)
Definition sample : place := mk_place (chars "sheet.adm") 12 100 106 (chars "    a <= b;").
Example C116_ex : exists s, format_stream_error (error_of (chars "operator expected") (Some [sample]) true true (mk_place [] 1 0 (-1) [])) = Some s /\
  s = chars "sheet.adm:12:7: error: operator expected" ++ newline ++ chars "a <= b;" ++ newline ++ chars " ^" ++ newline ++ chars "<unknown>:1:0" ++ newline.
Proof. eexists. split; reflexivity. Qed.
Example C116_caret_ex : modest sample /\ trimmed (p_snippet sample) (chars "a <= b;") 4 /\ (Z.of_nat 4 < column sample)%Z /\
  nth_error (chars "a <= b;") (6 - 4) = Some "<"%char /\ nth_error (chars "a <= b;") (Z.to_nat (caret sample (chars "a <= b;") 4)) = Some " "%char.
Proof.
  split; [vm_compute; repeat split; congruence|]. split; [|repeat split].
  exists (chars "    "), (chars "a <= b;"), []. split; [reflexivity|]. split; [repeat constructor|]. split; [reflexivity|]. split; [reflexivity|].
  split; [constructor|]. split; [intros [H|H]; discriminate H|]. left. discriminate.
Qed.
Example C117_ex : exists t, t = chars "one" ++ ["013"%char; "010"%char] ++ chars "two" ++ ["013"%char; "013"%char] ++ chars "four" ++ ["010"%char] /\
  lines t = Some [chars "one"; chars "two"; []; chars "four"].
Proof. eexists. split; reflexivity. Qed.
