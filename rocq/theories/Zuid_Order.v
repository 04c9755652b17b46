(** operator< on zuids is the order of their texts. *)
From Verif Require Import Prelude Zuid_Model Zuid_Spec Zuid_Text.
Local Open Scope N_scope.
Ltac Zify.zify_post_hook ::= idtac.

Lemma lex_lt_irrefl a : ~ lex_lt a a.
Proof. induction a as [|x a IH]; intros H; inversion H; subst; [lia|auto]. Qed.
Lemma lex_lt_trans a : forall b c, lex_lt a b -> lex_lt b c -> lex_lt a c.
Proof.
  induction a as [|x a IH]; intros b c H1 H2; inversion H1; subst; inversion H2; subst;
    first [apply LHead; lia|apply LTail; eauto|apply LEnd].
Qed.
Lemma lex_lt_total a : forall b, length a = length b -> lex_lt a b \/ a = b \/ lex_lt b a.
Proof.
  induction a as [|x a IH]; intros [|y b] L; try discriminate; [auto|].
  destruct (N.lt_trichotomy x y) as [H|[ -> |H]]; [left; now constructor| |right; right; now constructor].
  injection L as L. destruct (IH b L) as [H|[ -> |H]]; [left; now apply LTail|auto|right; right; now apply LTail].
Qed.

Lemma lex_lt_app a : forall b x y, length a = length b ->
  (lex_lt (a ++ x) (b ++ y) <-> lex_lt a b \/ (a = b /\ lex_lt x y)).
Proof.
  induction a as [|p a IH]; intros [|q b] x y L; try discriminate; cbn [app].
  - split; [intros H; right; auto|]. intros [H|[_ H]]; [inversion H|exact H].
  - injection L as L. split.
    + intros H. inversion H; subst; [left; now constructor|].
      apply (IH b x y L) in H1 as [H1|[ -> H1]]; [left; now apply LTail|right; auto].
    + intros [H|[E H]].
      * inversion H; subst; [now apply LHead|]. apply LTail. apply IH; auto.
      * injection E as -> ->. apply LTail. apply IH; auto.
Qed.
Lemma lex_lt_one c d : lex_lt [c] [d] <-> c < d.
Proof. split; [intros H; inversion H; subst; auto|intros H; now constructor]. inversion H1. Qed.

Lemma digit_lower_mono c v d w : digit c v -> digit d w -> ~ (65 <= c <= 90) -> ~ (65 <= d <= 90) -> (c < d <-> v < w).
Proof. intros H1 H2 L1 L2. inversion H1; inversion H2; subst; lia. Qed.

Lemma hex_lex cs n : hex cs n -> forall ds m, hex ds m -> length cs = length ds -> lower_case cs -> lower_case ds ->
  (lex_lt cs ds <-> n < m) /\ (cs = ds <-> n = m).
Proof.
  induction 1 as [|cs n c v H IH Hd]; intros ds m Hds L Lc Ld.
  - inversion Hds; subst.
    + split; split; intros K; auto; try lia. inversion K.
    + rewrite app_length in L. cbn in L. lia.
  - inversion Hds as [E|ds' m' d w H' Hd' E E']; subst.
    { rewrite app_length in L. cbn in L. lia. }
    rewrite !app_length in L. cbn [length] in L.
    pose proof (fun K => hex_lower_fun _ _ Hds (cs ++ [c]) K) as FU.
    pose proof Lc as Lc0. pose proof Ld as Ld0.
    apply Forall_app in Lc as [Lc1 Lc2], Ld as [Ld1 Ld2].
    destruct (IH _ _ H' ltac:(lia) Lc1 Ld1) as [I1 I2].
    pose proof (digit_lt _ _ Hd). pose proof (digit_lt _ _ Hd').
    inversion Lc2; subst. inversion Ld2; subst.
    pose proof (digit_lower_mono _ _ _ _ Hd Hd' H4 H6) as M.
    split.
    + rewrite lex_lt_app by lia. rewrite lex_lt_one, I1, I2, M. lia.
    + split.
      * intros E. apply app_inj_tail in E as [E ->]. apply I2 in E.
        apply digit_xvalue in Hd, Hd'. rewrite Hd in Hd'. injection Hd' as ->. lia.
      * intros E. assert (n = m' /\ v = w) as [E1 ->] by lia. apply I2 in E1. subst.
        f_equal. f_equal. eapply digit_lower_fun; eauto.
Qed.

Lemma octet_lex a : forall b, Forall (fun x => x < 256) a -> Forall (fun x => x < 256) b -> length a = length b ->
  (lex_lt (concat (map (printf_0x 2) a)) (concat (map (printf_0x 2) b)) <-> lex_lt a b) /\
  (concat (map (printf_0x 2) a) = concat (map (printf_0x 2) b) <-> a = b).
Proof.
  induction a as [|x a IH]; intros [|y b] Fa Fb L; try discriminate; cbn [map concat].
  { split; split; auto. }
  inversion Fa; subst. inversion Fb; subst. injection L as L.
  destruct (IH _ H2 H4 L) as [I1 I2].
  destruct (printf_spec 2 x ltac:(lia) H1) as (P1 & P2 & P3).
  destruct (printf_spec 2 y ltac:(lia) H3) as (Q1 & Q2 & Q3).
  destruct (hex_lex _ _ P1 _ _ Q1 ltac:(lia) P3 Q3) as [K1 K2].
  split.
  - rewrite lex_lt_app by lia. rewrite K1, K2, I1. split.
    + intros [H|[ -> H]]; [now apply LHead|now apply LTail].
    + intros H. inversion H; subst; auto.
  - split.
    + intros E. apply app_inj_len in E as [E1 E2]; [|lia]. apply K2 in E1. apply I2 in E2. congruence.
    + intros E. injection E as -> ->. reflexivity.
Qed.

Lemma compare_bytes_spec n : forall a b, length a = n -> length b = n ->
  (compare_bytes n a b = (-1)%Z <-> lex_lt a b) /\ (compare_bytes n a b = 0%Z <-> a = b).
Proof.
  induction n as [|n IH]; intros a b La Lb.
  - destruct a, b; try discriminate. cbn. split; split; intros H; auto; try discriminate. inversion H.
  - destruct a as [|x a], b as [|y b]; try discriminate. injection La as La. injection Lb as Lb.
    cbn [compare_bytes nth tl]. destruct (IH a b La Lb) as [I1 I2].
    destruct (N.eqb_spec x y) as [ -> |NE].
    + rewrite I1, I2. split; split; intros H; [now apply LTail| |congruence|congruence].
      inversion H; subst; [lia|auto].
    + destruct (N.ltb_spec x y); split; split; intros K; try discriminate; try congruence; auto.
      * now constructor.
      * inversion K; subst; [lia|congruence].
Qed.

(** The text in terms of fields. *)
Lemma str_fields u : legal u -> str u = printf_0x 8 (d1 u) ++ [45] ++ printf_0x 4 (d2 u) ++ [45] ++ printf_0x 4 (d3 u)
   ++ [45] ++ concat (map (printf_0x 2) (firstn 2 (d4 u))) ++ [45] ++ concat (map (printf_0x 2) (skipn 2 (d4 u))).
Proof.
  intros (H1 & H2 & H3 & H4 & H5).
  destruct (printf_spec 8 (d1 u) ltac:(lia) H1) as (A1 & A2 & A3).
  destruct (printf_spec 4 (d2 u) ltac:(lia) H2) as (B1 & B2 & B3).
  destruct (printf_spec 4 (d3 u) ltac:(lia) H3) as (C1 & C2 & C3).
  destruct (octet_text_of (d4 u) H5) as (_ & D & _). rewrite H4 in D.
  unfold str, format_uuid. cbv zeta. rewrite firstn_all2.
  - pose proof (eight_bytes _ H4) as E. rewrite E at 9 10. cbn [app firstn skipn map concat].
    rewrite !app_nil_r, <- !app_assoc. reflexivity.
  - rewrite (eight_bytes _ H4) in D. cbn [app map concat] in D. rewrite !app_length in D. rewrite !app_length. cbn [length] in *.
    rewrite A2, B2, C2. lia.
Qed.

Lemma order_text a b : legal a -> legal b ->
  (uuid_compare a b = (-1)%Z <-> lex_lt (str a) (str b)) /\ (uuid_compare a b = 0%Z <-> a = b).
Proof.
  intros Ha Hb. rewrite (str_fields a Ha), (str_fields b Hb).
  destruct Ha as (A1 & A2 & A3 & A4 & A5), Hb as (B1 & B2 & B3 & B4 & B5).
  destruct (printf_spec 8 (d1 a) ltac:(lia) A1) as (P1 & L1 & W1).
  destruct (printf_spec 4 (d2 a) ltac:(lia) A2) as (P2 & L2 & W2).
  destruct (printf_spec 4 (d3 a) ltac:(lia) A3) as (P3 & L3 & W3).
  destruct (printf_spec 8 (d1 b) ltac:(lia) B1) as (Q1 & M1 & X1).
  destruct (printf_spec 4 (d2 b) ltac:(lia) B2) as (Q2 & M2 & X2).
  destruct (printf_spec 4 (d3 b) ltac:(lia) B3) as (Q3 & M3 & X3).
  destruct (hex_lex _ _ P1 _ _ Q1 ltac:(lia) W1 X1) as [F1 G1].
  destruct (hex_lex _ _ P2 _ _ Q2 ltac:(lia) W2 X2) as [F2 G2].
  destruct (hex_lex _ _ P3 _ _ Q3 ltac:(lia) W3 X3) as [F3 G3].
  assert (FA : Forall (fun x => x < 256) (firstn 2 (d4 a)) /\ Forall (fun x => x < 256) (skipn 2 (d4 a)))
    by (rewrite <- Forall_app, firstn_skipn; auto).
  assert (FB : Forall (fun x => x < 256) (firstn 2 (d4 b)) /\ Forall (fun x => x < 256) (skipn 2 (d4 b)))
    by (rewrite <- Forall_app, firstn_skipn; auto).
  destruct FA as [FA1 FA2], FB as [FB1 FB2].
  assert (Lf : length (firstn 2 (d4 a)) = length (firstn 2 (d4 b))) by (rewrite !firstn_length; lia).
  assert (Ls : length (skipn 2 (d4 a)) = length (skipn 2 (d4 b))) by (rewrite !skipn_length; lia).
  destruct (octet_lex _ _ FA1 FB1 Lf) as [F4 G4]. destruct (octet_lex _ _ FA2 FB2 Ls) as [F5 G5].
  destruct (compare_bytes_spec 8 (d4 a) (d4 b) A4 B4) as [C1 C2].
  assert (Lt : length (concat (map (printf_0x 2) (firstn 2 (d4 a)))) = length (concat (map (printf_0x 2) (firstn 2 (d4 b))))).
  { destruct (octet_text_of _ FA1) as (_ & E1 & _), (octet_text_of _ FB1) as (_ & E2 & _). lia. }
  assert (D : lex_lt (d4 a) (d4 b) <-> lex_lt (firstn 2 (d4 a)) (firstn 2 (d4 b)) \/
      (firstn 2 (d4 a) = firstn 2 (d4 b) /\ lex_lt (skipn 2 (d4 a)) (skipn 2 (d4 b)))).
  { rewrite <- (firstn_skipn 2 (d4 a)) at 1. rewrite <- (firstn_skipn 2 (d4 b)) at 1. now apply lex_lt_app. }
  assert (dash : forall x y, lex_lt ([45] ++ x) ([45] ++ y) <-> lex_lt x y).
  { intros x y. rewrite lex_lt_app by reflexivity. split; [intros [H|[_ H]]; auto|auto]. now apply lex_lt_irrefl in H. }
  rewrite (lex_lt_app (printf_0x 8 (d1 a))), dash by lia.
  rewrite (lex_lt_app (printf_0x 4 (d2 a))), dash by lia.
  rewrite (lex_lt_app (printf_0x 4 (d3 a))), dash by lia.
  rewrite (lex_lt_app (concat _)), dash by exact Lt.
  rewrite F1, F2, F3, F4, F5, G1, G2, G3, G4, <- D.
  unfold uuid_compare.
  destruct (N.eqb_spec (d1 a) (d1 b)) as [E1|E1]; cbn [negb].
  2:{ destruct (N.ltb_spec (d1 a) (d1 b)); split; split; intros K; try discriminate; auto 10; try congruence; exfalso; lia. }
  destruct (N.eqb_spec (d2 a) (d2 b)) as [E2|E2]; cbn [negb].
  2:{ destruct (N.ltb_spec (d2 a) (d2 b)); split; split; intros K; try discriminate; auto 10; try congruence; exfalso; lia. }
  destruct (N.eqb_spec (d3 a) (d3 b)) as [E3|E3]; cbn [negb].
  2:{ destruct (N.ltb_spec (d3 a) (d3 b)); split; split; intros K; try discriminate; auto 10; try congruence; exfalso; lia. }
  rewrite C1, C2. split.
  - split; [auto 10|]. intros [K|[_ [K|[_ [K|[_ K]]]]]]; try lia. exact K.
  - split; [|congruence]. destruct a, b; cbn in *. congruence.
Qed.
