(** The text of zuids: format_uuid writes the canonical text, the constructors read it back. *)
From Verif Require Import Prelude Zuid_Model Zuid_Spec.
Local Open Scope N_scope.
Ltac Zify.zify_post_hook ::= idtac.

Lemma digit_xvalue c v : digit c v <-> xvalue c = Some v.
Proof.
  unfold xvalue. split.
  - intros H. inversion H; subst.
    + replace ((48 <=? 48 + v) && (48 + v <=? 57)) with true by lia. f_equal; lia.
    + replace ((48 <=? 87 + v) && (87 + v <=? 57)) with false by lia.
      replace ((97 <=? 87 + v) && (87 + v <=? 102)) with true by lia. f_equal; lia.
    + replace ((48 <=? 55 + v) && (55 + v <=? 57)) with false by lia.
      replace ((97 <=? 55 + v) && (55 + v <=? 102)) with false by lia.
      replace ((65 <=? 55 + v) && (55 + v <=? 70)) with true by lia. f_equal; lia.
  - intros H.
    destruct ((48 <=? c) && (c <=? 57)) eqn:E1.
    { injection H as <-. replace c with (48 + (c - 48)) at 1 by lia. apply Dec. lia. }
    destruct ((97 <=? c) && (c <=? 102)) eqn:E2.
    { injection H as <-. replace c with (87 + (c - 87)) at 1 by lia. apply Low. lia. }
    destruct ((65 <=? c) && (c <=? 70)) eqn:E3; [|discriminate].
    injection H as <-. replace c with (55 + (c - 55)) at 1 by lia. apply Upp. lia.
Qed.

Lemma digit_lt c v : digit c v -> v < 16.
Proof. intros H; inversion H; lia. Qed.
Lemma digit_not_space c v : digit c v -> isspace c = false.
Proof. intros H; inversion H; unfold isspace; lia. Qed.
Lemma digit_range c v : digit c v -> c <> 45 /\ c <> 43 /\ c <> 120 /\ c <> 88 /\ c <> 0.
Proof. intros H; inversion H; lia. Qed.

Lemma hex_bound cs n : hex cs n -> n < 16 ^ N.of_nat (length cs).
Proof.
  induction 1 as [|cs n c v H IH Hd]; [cbn; lia|].
  rewrite app_length. cbn [length]. replace (N.of_nat (length cs + 1)) with (N.succ (N.of_nat (length cs))) by lia.
  rewrite N.pow_succ_r'. pose proof (digit_lt _ _ Hd). lia.
Qed.
Lemma hex_digits cs n : hex cs n -> Forall (fun c => exists v, digit c v) cs.
Proof. induction 1; [constructor|]. apply Forall_app; split; [auto|]. constructor; [eauto|constructor]. Qed.

Lemma hex_fun cs n : hex cs n -> forall m, hex cs m -> n = m.
Proof.
  induction 1 as [|cs n c v H IH Hd]; intros m Hm.
  - inversion Hm; auto. destruct cs; discriminate.
  - inversion Hm as [E|cs' n' c' v' H' Hd' E]; subst.
    + destruct cs; discriminate.
    + apply app_inj_tail in E as [-> ->]. rewrite (IH _ H').
      apply digit_xvalue in Hd, Hd'. rewrite Hd in Hd'. injection Hd' as ->. reflexivity.
Qed.

Lemma take_hex_app cs n : hex cs n -> forall k acc any rest,
  take_hex (length cs + k) acc any (cs ++ rest)
  = take_hex k (acc * 16 ^ N.of_nat (length cs) + n) (any || negb (Nat.eqb (length cs) 0)) rest.
Proof.
  induction 1 as [|cs n c v H IH Hd]; intros k acc any rest.
  - cbn [length app Nat.add]. f_equal; [cbn; lia|]. now rewrite orb_false_r.
  - rewrite app_length, <- app_assoc. cbn [length app].
    replace (length cs + 1 + k)%nat with (length cs + S k)%nat by lia.
    rewrite IH. cbn [take_hex]. pose proof Hd as Hx. apply digit_xvalue in Hx. rewrite Hx.
    f_equal.
    + replace (N.of_nat (length cs + 1)) with (N.succ (N.of_nat (length cs))) by lia.
      rewrite N.pow_succ_r'. lia.
    + replace (Nat.eqb (length cs + 1) 0) with false by lia. now rewrite orb_true_r.
Qed.

Lemma scan_hex_field cs n rest : hex cs n -> (2 <= length cs)%nat ->
  scan_hex (length cs) (cs ++ rest) = Some (n, rest).
Proof.
  intros H Hl. pose proof (hex_digits _ _ H) as HF.
  pose proof (take_hex_app _ _ H 0 0 false rest) as HT. rewrite Nat.add_0_r in HT.
  destruct cs as [|a [|b cs]]; cbn [length] in Hl; try lia.
  inversion HF as [|? ? [va Ha] HF']; subst. inversion HF' as [|? ? [vb Hb] _]; subst.
  destruct (digit_range _ _ Ha) as (A1 & A2 & A3 & A4 & A5).
  destruct (digit_range _ _ Hb) as (B1 & B2 & B3 & B4 & B5).
  unfold scan_hex. cbn [app skip_space length]. rewrite (digit_not_space _ _ Ha).
  cbn [length app] in HT.
  replace (a =? 45) with false by lia. replace (a =? 43) with false by lia.
  replace ((a =? 48) && ((b =? 120) || (b =? 88))) with false by lia.
  rewrite HT. cbn [Nat.eqb negb orb]. 
  cbn [take_hex]. replace (0 * 16 ^ N.of_nat (S (S (length cs))) + n) with n by lia. reflexivity.
Qed.

(* ---- reading a text ---------------------------------------------------------------------- *)
Lemma octet_text_cons d x : octet_text d x -> forall k, length d = S (S k) ->
  exists a b cs y bs, d = a :: b :: cs /\ x = y :: bs /\ hex [a; b] y /\ octet_text cs bs /\ length cs = k.
Proof.
  intros H k Hk. inversion H; subst; cbn [length] in Hk; [lia|].
  do 5 eexists. split; [reflexivity|]. split; [reflexivity|]. split; [eassumption|]. split; [eassumption|]. lia.
Qed.
Lemma octet_text_nil x : octet_text [] x -> x = [].
Proof. intros H; inversion H; auto. Qed.

Ltac octet H :=
  let a := fresh "a" in let b := fresh "b" in let cs := fresh "cs" in let y := fresh "y" in let bs := fresh "bs" in
  let E1 := fresh in let E2 := fresh in let Hy := fresh "Hy" in let H' := fresh "Ho" in let Hl := fresh "Hl" in
  match type of H with octet_text ?d ?x =>
    match goal with L : length d = _ |- _ =>
      destruct (octet_text_cons _ _ H _ L) as (a & b & cs & y & bs & E1 & E2 & Hy & H' & Hl); subst d; subst x; clear H L
    end end.

Lemma zuid_of_text_reads t u rest : uuid_text t u -> zuid_of_text (t ++ rest) = Some u.
Proof.
  intros (a & b & c & d & e & db & eb & -> & La & Ha & Lb & Hb & Lc & Hc & Ld & Hd & Le & He & E4).
  pose proof (hex_bound _ _ Ha) as Ba. pose proof (hex_bound _ _ Hb) as Bb. pose proof (hex_bound _ _ Hc) as Bc.
  rewrite La in Ba. rewrite Lb in Bb. rewrite Lc in Bc.
  change (16 ^ N.of_nat 8) with (2 ^ 32) in Ba. change (16 ^ N.of_nat 4) with (2 ^ 16) in Bb, Bc.
  octet Hd. octet Ho. destruct cs0; [|discriminate]. apply octet_text_nil in Ho0. subst bs0.
  octet He. octet Ho. octet Ho0. octet Ho. octet Ho0. octet Ho.
  match goal with L : length ?x = 0%nat |- _ => destruct x; [|discriminate] end.
  match goal with L : octet_text [] ?x |- _ => apply octet_text_nil in L; subst x end.
  unfold zuid_of_text.
  assert (S : sscanf zuid_format
     ((a ++ [45] ++ b ++ [45] ++ c ++ [45] ++ [a0; b0; a1; b1] ++ [45] ++
       [a2; b2; a3; b3; a4; b4; a5; b5; a6; b6; a7; b7]) ++ rest)
     = [d1 u; d2 u; d3 u; y; y0; y1; y2; y3; y4; y5; y6]).
  { unfold zuid_format. rewrite <- !app_assoc. cbn [sscanf].
    rewrite <- La at 1. rewrite (scan_hex_field a _ _ Ha) by lia. cbn [app]. rewrite N.eqb_refl.
    rewrite <- Lb at 1. rewrite (scan_hex_field b _ _ Hb) by lia. cbn [app]. rewrite N.eqb_refl.
    rewrite <- Lc at 1. rewrite (scan_hex_field c _ _ Hc) by lia. cbn [app]. rewrite N.eqb_refl.
    Ltac two H := match type of H with hex [?x; ?z] ?v =>
      match goal with |- context[scan_hex 2 (x :: z :: ?r)] =>
        change (x :: z :: r) with ([x; z] ++ r); change (scan_hex 2 ([x; z] ++ r)) with (scan_hex (length [x; z]) ([x; z] ++ r));
        rewrite (scan_hex_field [x; z] v r H) by (cbn; lia) end end.
    two Hy. two Hy0. rewrite N.eqb_refl. two Hy1. two Hy2. two Hy3. two Hy4. two Hy5. two Hy6.
    reflexivity. }
  cbn [app] in S |- *. rewrite S. cbn [nth_error nth skipn map].
  assert (B : forall p q z, hex [p; q] z -> z mod 256 = z).
  { intros p q z Hz. apply N.mod_small. pose proof (hex_bound _ _ Hz) as Hz'. exact Hz'. }
  rewrite (N.mod_small (d1 u)), (N.mod_small (d2 u)), (N.mod_small (d3 u)) by assumption.
  rewrite !(B _ _ _ Hy), !(B _ _ _ Hy0), !(B _ _ _ Hy1), !(B _ _ _ Hy2), !(B _ _ _ Hy3), !(B _ _ _ Hy4),
    !(B _ _ _ Hy5), !(B _ _ _ Hy6).
  destruct u as [x1 x2 x3 x4]. cbn [d1 d2 d3 d4] in *. rewrite E4. reflexivity.
Qed.

(* ---- writing ----------------------------------------------------------------------------- *)
Lemma xdigit_digit d : d < 16 -> digit (xdigit d) d.
Proof. intros H. unfold xdigit. destruct (N.ltb_spec d 10); [now apply Dec|apply Low; lia]. Qed.
Lemma xdigit_lower d : d < 16 -> ~ (65 <= xdigit d <= 90).
Proof. intros H. unfold xdigit. destruct (N.ltb_spec d 10); lia. Qed.

Lemma to_hex_spec fuel : forall n, n < 16 ^ N.of_nat fuel ->
  hex (to_hex fuel n) n \/ fuel = 0%nat.
Proof.
  induction fuel as [|f IH]; intros n Hn; [now right|]. left. cbn [to_hex].
  destruct (N.ltb_spec n 16) as [L|L].
  - change [xdigit n] with ([] ++ [xdigit n]). replace n with (16 * 0 + n) at 2 by lia.
    constructor; [constructor|now apply xdigit_digit].
  - assert (Hd : n = 16 * (n / 16) + n mod 16) by (apply N.div_mod; lia).
    rewrite Hd at 3. assert (n mod 16 < 16) by (apply N.mod_lt; lia).
    constructor; [|now apply xdigit_digit].
    replace (N.of_nat (S f)) with (N.succ (N.of_nat f)) in Hn by lia. rewrite N.pow_succ_r' in Hn.
    destruct (IH (n / 16)) as [HI| ->]; [apply N.div_lt_upper_bound; lia|exact HI|].
    change (16 ^ N.of_nat 0) with 1 in Hn. lia.
Qed.
Lemma to_hex_lower fuel : forall n, lower_case (to_hex fuel n).
Proof.
  induction fuel as [|f IH]; intros n; cbn [to_hex]; [constructor|].
  destruct (N.ltb_spec n 16) as [L|L].
  - constructor; [now apply xdigit_lower|constructor].
  - apply Forall_app; split; [apply IH|]. constructor; [|constructor]. apply xdigit_lower. apply N.mod_lt. lia.
Qed.
Lemma to_hex_length fuel : forall w n, (1 <= w)%nat -> n < 16 ^ N.of_nat w -> (length (to_hex fuel n) <= w)%nat.
Proof.
  induction fuel as [|f IH]; intros w n Hw Hn; cbn [to_hex]; [cbn; lia|].
  destruct (N.ltb_spec n 16) as [L|L]; [cbn; lia|].
  rewrite app_length. cbn [length].
  destruct w as [|w]; [lia|].
  replace (N.of_nat (S w)) with (N.succ (N.of_nat w)) in Hn by lia. rewrite N.pow_succ_r' in Hn.
  assert (Hw' : (1 <= w)%nat). { destruct w; [|lia]. change (16 ^ N.of_nat 0) with 1 in Hn. lia. }
  specialize (IH w (n / 16) Hw'). assert (n / 16 < 16 ^ N.of_nat w) by (apply N.div_lt_upper_bound; lia). 
  specialize (IH H). lia.
Qed.

Lemma hex_zero cs n : hex cs n -> hex (48 :: cs) n.
Proof.
  induction 1 as [|cs n c v H IH Hd].
  - change (hex ([] ++ [48]) (16 * 0 + 0)). constructor; [constructor|]. apply (Dec 0). lia.
  - change (48 :: cs ++ [c]) with ((48 :: cs) ++ [c]). now constructor.
Qed.
Lemma hex_zeros k cs n : hex cs n -> hex (repeat 48 k ++ cs) n.
Proof. intros H. induction k as [|k IH]; cbn [repeat app]; [exact H|]. now apply hex_zero. Qed.

Lemma printf_spec w n : (1 <= w <= 8)%nat -> n < 16 ^ N.of_nat w ->
  hex (printf_0x w n) n /\ length (printf_0x w n) = w /\ lower_case (printf_0x w n).
Proof.
  intros Hw Hn. unfold printf_0x. cbv zeta.
  assert (n < 16 ^ N.of_nat 8). { eapply N.lt_le_trans; [exact Hn|]. apply N.pow_le_mono_r; lia. }
  pose proof (to_hex_length 8 w n ltac:(lia) Hn) as HL.
  split; [|split].
  - apply hex_zeros. destruct (to_hex_spec 8 n H) as [Hh|Hh]; [exact Hh|discriminate].
  - rewrite app_length, repeat_length. lia.
  - apply Forall_app; split; [|apply to_hex_lower]. apply Forall_forall. intros x Hx. apply repeat_spec in Hx. lia.
Qed.

Lemma hex_two_split cs x : hex cs x -> length cs = 2%nat -> exists a b, cs = [a; b] /\ hex [a; b] x.
Proof. intros H L. destruct cs as [|a [|b [|]]]; try discriminate. eauto. Qed.

Lemma octet_text_of l : Forall (fun b => b < 256) l ->
  octet_text (concat (map (printf_0x 2) l)) l /\ length (concat (map (printf_0x 2) l)) = (2 * length l)%nat
  /\ lower_case (concat (map (printf_0x 2) l)).
Proof.
  induction 1 as [|x l Hx HF (I1 & I2 & I3)]; [split; [constructor|split; [reflexivity|constructor]]|].
  destruct (printf_spec 2 x ltac:(lia) Hx) as (P1 & P2 & P3).
  cbn [map concat length]. destruct (hex_two_split _ _ P1 P2) as (a & b & E & Hh). rewrite E in *.
  split; [|split].
  - cbn [app]. constructor; auto.
  - rewrite app_length. cbn [length]. lia.
  - apply Forall_app; split; auto.
Qed.

Lemma eight_bytes (l : list N) : length l = 8%nat ->
  l = [nth 0 l 0; nth 1 l 0] ++ [nth 2 l 0; nth 3 l 0; nth 4 l 0; nth 5 l 0; nth 6 l 0; nth 7 l 0].
Proof. intros H. do 8 (destruct l as [|? l]; [discriminate|]). destruct l; [reflexivity|discriminate]. Qed.

Lemma str_spec u : legal u -> uuid_text (str u) u /\ length (str u) = 36%nat /\ lower_case (str u).
Proof.
  intros (H1 & H2 & H3 & H4 & H5).
  pose proof (eight_bytes _ H4) as E. unfold str, format_uuid. cbv zeta.
  set (lo := [nth 0 (d4 u) 0; nth 1 (d4 u) 0]) in *.
  set (hi := [nth 2 (d4 u) 0; nth 3 (d4 u) 0; nth 4 (d4 u) 0; nth 5 (d4 u) 0; nth 6 (d4 u) 0; nth 7 (d4 u) 0]) in *.
  destruct (printf_spec 8 (d1 u) ltac:(lia) H1) as (A1 & A2 & A3).
  destruct (printf_spec 4 (d2 u) ltac:(lia) H2) as (B1 & B2 & B3).
  destruct (printf_spec 4 (d3 u) ltac:(lia) H3) as (C1 & C2 & C3).
  assert (FF : Forall (fun b => b < 256) (lo ++ hi)) by (rewrite <- E; exact H5).
  apply Forall_app in FF as [Flo Fhi].
  destruct (octet_text_of lo Flo) as (D1 & D2 & D3). destruct (octet_text_of hi Fhi) as (E1 & E2 & E3).
  change (2 * length lo)%nat with 4%nat in D2. change (2 * length hi)%nat with 12%nat in E2.
  set (T := printf_0x 8 (d1 u) ++ [45] ++ printf_0x 4 (d2 u) ++ [45] ++ printf_0x 4 (d3 u) ++ [45]
            ++ concat (map (printf_0x 2) lo) ++ [45] ++ concat (map (printf_0x 2) hi)).
  assert (ET : printf_0x 8 (d1 u) ++ [45] ++ printf_0x 4 (d2 u) ++ [45] ++ printf_0x 4 (d3 u) ++ [45] ++
   printf_0x 2 (nth 0 (d4 u) 0) ++ printf_0x 2 (nth 1 (d4 u) 0) ++ [45] ++
   printf_0x 2 (nth 2 (d4 u) 0) ++ printf_0x 2 (nth 3 (d4 u) 0) ++ printf_0x 2 (nth 4 (d4 u) 0) ++
   printf_0x 2 (nth 5 (d4 u) 0) ++ printf_0x 2 (nth 6 (d4 u) 0) ++ printf_0x 2 (nth 7 (d4 u) 0) = T).
  { unfold T, lo, hi. cbn [map concat]. rewrite !app_nil_r, <- !app_assoc. reflexivity. }
  assert (LT : length T = 36%nat).
  { unfold T. rewrite !app_length, A2, B2, C2, D2, E2. reflexivity. }
  rewrite ET, firstn_all2 by lia.
  split; [|split; [exact LT|]].
  - exists (printf_0x 8 (d1 u)), (printf_0x 4 (d2 u)), (printf_0x 4 (d3 u)),
      (concat (map (printf_0x 2) lo)), (concat (map (printf_0x 2) hi)), lo, hi.
    repeat (split; [first [reflexivity|assumption]|]). exact E.
  - assert (lower_case [45]) by (constructor; [lia|constructor]).
    unfold T. unfold lower_case in *. repeat (apply Forall_app; split; [assumption|]). assumption.
Qed.

Lemma uuid_text_length t u : uuid_text t u -> length t = 36%nat.
Proof.
  intros (a & b & c & d & e & db & eb & -> & La & Ha & Lb & Hb & Lc & Hc & Ld & Hd & Le & He & E4).
  rewrite !app_length, La, Lb, Lc, Ld, Le. reflexivity.
Qed.
Lemma octet_text_digits cs bs : octet_text cs bs -> Forall (fun c => exists v, digit c v) cs /\ Forall (fun b => b < 256) bs
  /\ length cs = (2 * length bs)%nat.
Proof.
  induction 1 as [|a b x cs bs Hh Ho (I1 & I2 & I3)]; [split; [constructor|split; [constructor|reflexivity]]|].
  pose proof (hex_digits _ _ Hh) as F. inversion F; subst. inversion H2; subst.
  split; [repeat (constructor; auto)|]. split; [constructor; auto; exact (hex_bound _ _ Hh)|]. cbn [length]. lia.
Qed.
Lemma uuid_text_legal t u : uuid_text t u -> legal u.
Proof.
  intros (a & b & c & d & e & db & eb & -> & La & Ha & Lb & Hb & Lc & Hc & Ld & Hd & Le & He & E4).
  pose proof (hex_bound _ _ Ha) as Ba. pose proof (hex_bound _ _ Hb) as Bb. pose proof (hex_bound _ _ Hc) as Bc.
  rewrite La in Ba. rewrite Lb in Bb. rewrite Lc in Bc.
  destruct (octet_text_digits _ _ Hd) as (_ & Fd & Ld'). destruct (octet_text_digits _ _ He) as (_ & Fe & Le').
  split; [exact Ba|]. split; [exact Bb|]. split; [exact Bc|]. rewrite E4. split.
  - rewrite app_length. lia.
  - apply Forall_app; auto.
Qed.
Lemma uuid_text_no_nul t u : uuid_text t u -> Forall (fun c => c <> 0) t.
Proof.
  intros (a & b & c & d & e & db & eb & -> & La & Ha & Lb & Hb & Lc & Hc & Ld & Hd & Le & He & E4).
  assert (P : forall l, Forall (fun c => exists v, digit c v) l -> Forall (fun c => c <> 0) l).
  { intros l. apply Forall_impl. intros x (v & Hx). apply (digit_range _ _ Hx). }
  assert (Forall (fun c => c <> 0) [45]) by (constructor; [lia|constructor]).
  apply hex_digits, P in Ha, Hb, Hc. apply octet_text_digits in Hd as (Hd & _), He as (He & _).
  apply P in Hd, He. repeat (apply Forall_app; split; [assumption|]). assumption.
Qed.
Lemma c_str_id t : Forall (fun c => c <> 0) t -> c_str t = t.
Proof. induction 1 as [|x t Hx HF IH]; cbn [c_str]; [reflexivity|]. replace (x =? 0) with false by lia. now rewrite IH. Qed.

Lemma zuid_of_string_reads t u rest : uuid_text t u -> zuid_of_string (t ++ rest) = Some u.
Proof.
  intros H. unfold zuid_of_string. rewrite firstn_app, (uuid_text_length _ _ H), Nat.sub_diag.
  rewrite firstn_O. rewrite firstn_all2 by (rewrite (uuid_text_length _ _ H); lia). rewrite app_nil_r.
  rewrite c_str_id by (eapply uuid_text_no_nul; eauto).
  rewrite <- (app_nil_r t) at 1. now apply zuid_of_text_reads.
Qed.

Lemma app_inj_len {A} (a b c e : list A) : length a = length c -> a ++ b = c ++ e -> a = c /\ b = e.
Proof.
  revert c; induction a as [|x a IH]; intros [|y c] L H; try discriminate; [auto|].
  cbn [app] in H. injection H as -> H. injection L as L. destruct (IH _ L H) as [-> ->]. auto.
Qed.

(** The lower case text of a UUID is unique. *)
Lemma digit_lower_fun a b v : digit a v -> digit b v -> ~ (65 <= a <= 90) -> ~ (65 <= b <= 90) -> a = b.
Proof. intros Ha Hb La Lb. inversion Ha; inversion Hb; subst; lia. Qed.
Lemma hex_lower_fun cs n : hex cs n -> forall ds, hex ds n -> length ds = length cs ->
  lower_case cs -> lower_case ds -> cs = ds.
Proof.
  induction 1 as [|cs n c v H IH Hd]; intros ds Hds L Lc Ld.
  - destruct ds; [reflexivity|discriminate].
  - inversion Hds as [E|ds' m d w H' Hd' E E']; subst.
    + rewrite app_length in L. cbn in L. lia.
    + rewrite !app_length in L. cbn [length] in L.
      apply Forall_app in Lc as [Lc1 Lc2], Ld as [Ld1 Ld2].
      pose proof (digit_lt _ _ Hd). pose proof (digit_lt _ _ Hd').
      assert (m = n /\ w = v) as [-> ->] by lia.
      f_equal.
      * apply IH; auto. lia.
      * f_equal. inversion Lc2; inversion Ld2; subst. eapply digit_lower_fun; eauto.
Qed.
Lemma octet_lower_fun cs bs : octet_text cs bs -> forall ds, octet_text ds bs -> lower_case cs -> lower_case ds -> cs = ds.
Proof.
  induction 1 as [|a b x cs bs Hh Ho IH]; intros ds Hds Lc Ld; inversion Hds; subst; [reflexivity|].
  change (a :: b :: cs) with ([a; b] ++ cs) in *. change (a0 :: b0 :: cs0) with ([a0; b0] ++ cs0) in *.
  apply Forall_app in Lc as [L1 L1'], Ld as [L2 L2'].
  rewrite (hex_lower_fun _ _ Hh _ H2 eq_refl L1 L2). f_equal. apply IH; auto.
Qed.
Lemma lower_text_unique t t' u : uuid_text t u -> uuid_text t' u -> lower_case t -> lower_case t' -> t = t'.
Proof.
  intros (a & b & c & d & e & db & eb & -> & La & Ha & Lb & Hb & Lc & Hc & Ld & Hd & Le & He & E4)
         (a' & b' & c' & d' & e' & db' & eb' & -> & La' & Ha' & Lb' & Hb' & Lc' & Hc' & Ld' & Hd' & Le' & He' & E4') L L'.
  unfold lower_case in L, L'. rewrite !Forall_app in L, L'.
  destruct L as (L1 & _ & L2 & _ & L3 & _ & L4 & _ & L5), L' as (L1' & _ & L2' & _ & L3' & _ & L4' & _ & L5').
  destruct (octet_text_digits _ _ Hd) as (_ & _ & Q1). destruct (octet_text_digits _ _ Hd') as (_ & _ & Q2).
  rewrite E4 in E4'. apply app_inj_len in E4' as [-> ->]; [|lia].
  rewrite (hex_lower_fun _ _ Ha _ Ha'), (hex_lower_fun _ _ Hb _ Hb'), (hex_lower_fun _ _ Hc _ Hc'),
    (octet_lower_fun _ _ Hd _ Hd'), (octet_lower_fun _ _ He _ He') by (auto; lia). reflexivity.
Qed.

(* ---- texts that are not UUIDs ------------------------------------------------------------ *)
Definition is_digit (c : N) : bool := match xvalue c with Some _ => true | None => false end.
Definition digits_in (s : list N) : nat := length (filter is_digit s).

Lemma digits_cons c r : (digits_in r <= digits_in (c :: r))%nat.
Proof. unfold digits_in. cbn [filter]. destruct (is_digit c); cbn [length]; lia. Qed.
Lemma digits_skip s : (digits_in (skip_space s) <= digits_in s)%nat.
Proof.
  induction s as [|c r IH]; cbn [skip_space]; [lia|]. destruct (isspace c); [|lia].
  pose proof (digits_cons c r). lia.
Qed.
Lemma digits_take w : forall acc any s v b rest, take_hex w acc any s = (v, b, rest) ->
  (digits_in rest + (if b && negb any then 1 else 0) <= digits_in s)%nat /\ (any = true -> b = true).
Proof.
  induction w as [|w IH]; intros acc any s v b rest H.
  - cbn [take_hex] in H. injection H as <- <- <-. split; [|auto]. destruct any; cbn; lia.
  - destruct s as [|c r]; cbn [take_hex] in H.
    { injection H as <- <- <-. split; [|auto]. destruct any; cbn; lia. }
    destruct (xvalue c) as [x|] eqn:E.
    + apply IH in H as [H1 H2]. specialize (H2 eq_refl). subst b. split; [|auto].
      unfold digits_in in *. cbn [filter]. unfold is_digit at 2. rewrite E. cbn [length].
      destruct any; cbn [negb andb] in *; lia.
    + injection H as <- <- <-. split; [|auto]. destruct any; cbn; lia.
Qed.
Lemma scan_hex_digits w s v rest : scan_hex w s = Some (v, rest) -> (digits_in rest + 1 <= digits_in s)%nat.
Proof.
  unfold scan_hex. pose proof (digits_skip s) as D. remember (skip_space s) as t eqn:Et. clear Et.
  assert (G : forall w t neg, (digits_in t <= digits_in s)%nat ->
     (let '(w, s) := match w, t with
                 | S (S w'), z :: x :: r =>
                   if (z =? 48) && ((x =? 120) || (x =? 88)) then (w', r) else (w, t)
                 | _, _ => (w, t)
                 end in
      let '(v, any, rest) := take_hex w 0 false s in
      if any then Some ((if neg : bool then (2 ^ 64 - v) mod 2 ^ 64 else v), rest) else None) = Some (v, rest) ->
     (digits_in rest + 1 <= digits_in s)%nat).
  { clear t D w. intros w t neg D H.
    assert (K : forall w t, (digits_in t <= digits_in s)%nat ->
       (let '(v, any, rest) := take_hex w 0 false t in
        if any then Some ((if neg : bool then (2 ^ 64 - v) mod 2 ^ 64 else v), rest) else None) = Some (v, rest) ->
       (digits_in rest + 1 <= digits_in s)%nat).
    { clear. intros w t D H. destruct (take_hex w 0 false t) as [[v' b] r'] eqn:E.
      apply digits_take in E as [E _]. destruct b; [|discriminate]. injection H as _ <-. cbn in E. lia. }
    destruct w as [|[|w]]; [exact (K 0%nat t D H)|destruct t; exact (K 1%nat _ D H)|].
    destruct t as [|z [|x r]]; [exact (K (S (S w)) _ D H)|exact (K (S (S w)) _ D H)|].
    destruct ((z =? 48) && ((x =? 120) || (x =? 88))); [|exact (K (S (S w)) _ D H)].
    apply (K w r); [|exact H]. pose proof (digits_cons z (x :: r)). pose proof (digits_cons x r). lia. }
  intros H. destruct w as [|w]; [exact (G 0%nat t false D H)|]. destruct t as [|c r]; [exact (G (S w) [] false D H)|].
  pose proof (digits_cons c r).
  destruct (c =? 45); [apply (G w r true); [lia|exact H]|].
  destruct (c =? 43); [apply (G w r false); [lia|exact H]|exact (G (S w) (c :: r) false D H)].
Qed.
Lemma sscanf_digits fmt : forall s, (length (sscanf fmt s) <= digits_in s)%nat.
Proof.
  induction fmt as [|[w|] fmt IH]; intros s; cbn [sscanf]; [cbn; lia| |].
  - destruct (scan_hex w s) as [[v r]|] eqn:E; [|cbn; lia].
    apply scan_hex_digits in E. specialize (IH r). cbn [length]. lia.
  - destruct s as [|c r]; [cbn; lia|]. pose proof (digits_cons c r). specialize (IH r).
    destruct (c =? 45); [lia|cbn; lia].
Qed.
Lemma sscanf_length fmt : forall s, (length (sscanf fmt s) <= length (filter (fun d => match d with Hex _ => true | Dash => false end) fmt))%nat.
Proof.
  induction fmt as [|[w|] fmt IH]; intros s; cbn [sscanf filter length]; [lia| |].
  - destruct (scan_hex w s) as [[v r]|]; cbn [length]; [specialize (IH r); lia|lia].
  - destruct s as [|c r]; [cbn; lia|]. destruct (c =? 45); [apply IH|cbn; lia].
Qed.
Lemma zuid_of_text_legal t u : zuid_of_text t = Some u -> legal u.
Proof.
  unfold zuid_of_text. pose proof (sscanf_length zuid_format t) as L. cbn [filter zuid_format length] in L.
  cbv zeta. revert L. generalize (sscanf zuid_format t) as vs. intros vs L.
  destruct (nth_error vs 10) as [x|] eqn:E; [|destruct (nth_error vs 0); discriminate].
  assert (L' : (10 < length vs)%nat) by (apply nth_error_Some; congruence).
  assert (LS : length (skipn 3 vs) = 8%nat) by (rewrite skipn_length; lia). revert LS.
  generalize (skipn 3 vs) as bs. intros bs LS.
  destruct (nth_error vs 0) as [v|]; [|discriminate].
  intros H. injection H as <-.
  unfold legal. cbn [d1 d2 d3 d4]. split; [apply N.mod_lt; lia|]. split; [apply N.mod_lt; lia|].
  split; [apply N.mod_lt; lia|]. rewrite map_length. split; [lia|].
  apply Forall_map, Forall_forall. intros y _. apply N.mod_lt. lia.
Qed.
Lemma few_digits_undefined t : (digits_in t < 11)%nat -> zuid_of_text t = None.
Proof.
  intros H. unfold zuid_of_text. pose proof (sscanf_digits zuid_format t).
  destruct (nth_error (sscanf zuid_format t) 0); [|reflexivity].
  replace (nth_error (sscanf zuid_format t) 10) with (@None N); [reflexivity|].
  symmetry. apply nth_error_None. lia.
Qed.
