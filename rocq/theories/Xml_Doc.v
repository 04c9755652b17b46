(** Documents and sequences of elements. *)
From Verif Require Import Prelude Entity_Model Search_Model Xml_Model Xml_Spec Xml_Lex Xml_Attr Xml_Sound Xml_Complete Xml_Safe.
Local Open Scope nat_scope.
Ltac Zify.zify_post_hook ::= idtac.

Section Doc.
Variable name_index : list entry.
Variable pred : list call -> bytes -> bool.
Variable cb : list call -> call -> answer.
Notation element := (element name_index pred cb).
Notation parse_document := (parse_document name_index pred cb).
Notation sequence_loop := (sequence_loop name_index pred cb).
Notation parse_element_sequence := (parse_element_sequence name_index pred cb).
Notation RenderE := (RenderE name_index pred cb).
Notation Elements := (Elements name_index pred cb).

Lemma bytes_eqb_refl x : bytes_eqb x x = true.
Proof. destruct (bytes_eqbP x x); [reflexivity|contradiction]. Qed.
Lemma starts_spec p u : starts p u = true <-> exists r, u = p ++ r.
Proof.
  unfold starts. rewrite andb_true_iff, Nat.leb_le. split.
  - intros (H1 & H2). destruct (bytes_eqbP p (firstn (length p) u)) as [E|]; [|discriminate].
    exists (skipn (length p) u). rewrite E at 1. symmetry. apply firstn_skipn.
  - intros (r & ->). rewrite app_length, firstn_app, firstn_all, Nat.sub_diag, firstn_O, app_nil_r, bytes_eqb_refl. split; [lia|reflexivity].
Qed.

(** the first token of a buffer, without skipping white space *)
Lemma bom_sound b r s' : is_bom b (with_lex (set_skip true (p_lex fresh)) fresh) = Ok r s' ->
  exists t u, b = t ++ u /\ p_pre s' = false /\ p_out s' = [] /\ p_calls s' = [] /\
  (t <> [] /\ leading t u /\ p_lex s' = Lx (length t) true false None \/
   t = [] /\ exists k l', get_token b (Lx 0 false false None) = GTok k l' /\ t_kind k <> KCharData /\ p_lex s' = set_skip true (putback k l')).
Proof.
  intros H. unfold is_bom in H. cbn zeta in H. cbn [fresh with_lex set_skip p_lex p_pre p_out p_calls l_pos l_skip l_name l_back] in H.
  binv H c s1 E. assert (A : At b (Lx 0 false false None) 0 false false) by (left; reflexivity).
  destruct c as [c|].
  - destruct (is_token_some _ _ (Ps (Lx 0 false false None) false [] []) _ _ _ _ _ A E) as (l1 & G & K & ->).
    destruct (get_reads _ _ _ _ _ _ _ (sits_0 b) G) as (w & u & R & Eb).
    inversion R as [? ? ? ? | ? ? k f1 l m W1 W2 W3 V1 T]; subst; [discriminate|]. cbn [t_kind] in K. subst k.
    rewrite (W2 eq_refl) in *. cbn [app length] in *.
    inversion T as [| | | | | | | | | | | |x r0 X1 X2 X3 X4 X5 X6]; subst. cbn [t_first t_last] in H.
    replace (sub (x ++ r0) (0 + 0 + 0) (0 + 0 + length x)) with x in H.
    2:{ symmetry. exact (sub_sits (x ++ r0) 0 x r0 (sits_0 _)). }
    exists x, r0. split; [reflexivity|].
    assert (B : starts [254; 255]%N x = false /\ starts [255; 254]%N x = false \/ starts [239; 187; 191]%N x = true).
    { destruct (starts [239; 187; 191]%N x); [auto|]. left. destruct (starts [254; 255]%N x).
      - unfold throw in H. binv H t1 s1 E1. discriminate.
      - destruct (starts [255; 254]%N x); [|auto]. unfold throw in H. binv H t1 s1 E1. discriminate. }
    assert (N : (forall r, x <> 254%N :: 255%N :: r) /\ (forall r, x <> 255%N :: 254%N :: r)).
    { destruct B as [(B1 & B2) | B].
      - split; intros r1 ->; [rewrite (proj2 (starts_spec [254; 255]%N _)) in B1|rewrite (proj2 (starts_spec [255; 254]%N _)) in B2]; try discriminate; exists r1; reflexivity.
      - apply starts_spec in B. destruct B as (r1 & ->). split; intros r2; discriminate. }
    assert (F : s' = Ps (Lx (length x) true false None) false [] []).
    { destruct (starts [239; 187; 191]%N x); [injection H as _ <-; reflexivity|].
      destruct (starts [254; 255]%N x); [unfold throw in H; binv H t1 s1 E1; discriminate|].
      destruct (starts [255; 254]%N x); [unfold throw in H; binv H t1 s1 E1; discriminate|]. injection H as _ <-. reflexivity. }
    subst s'. cbn [p_lex p_pre p_out p_calls]. split; [reflexivity|]. split; [reflexivity|]. split; [reflexivity|]. left. split; [exact X1|].
    split; [|reflexivity]. right. split; [|exact N]. unfold chars_ok. auto.
  - destruct (is_token_none _ _ (Ps (Lx 0 false false None) false [] []) _ _ _ _ A E) as (k & l' & G & K & ->).
    injection H as _ <-. exists [], b. split; [reflexivity|]. cbn [with_lex p_lex p_pre p_out p_calls]. split; [reflexivity|]. split; [reflexivity|]. split; [reflexivity|].
    right. split; [reflexivity|]. exists k, l'. auto.
Qed.

Lemma element_without f b s p : p_lex s = p -> forall t, l_back p = Some t -> t_kind t <> KOpen -> forall r s',
  element f b s = Ok r s' -> r = None /\ p_out s' = p_out s /\ p_calls s' = p_calls s.
Proof.
  intros El t Bk K r s' H. destruct f as [|f]; [discriminate|]. rewrite element_eq in H.
  unfold is_token, next_token, get_token in H. rewrite El, Bk in H. cbn [bind] in H.
  destruct (kind_eqbP (t_kind t) KOpen); [contradiction|]. cbn [bind] in H. injection H as <- <-. auto.
Qed.
Lemma token_pi np u f l n : Token np u KPI f l n -> exists y r, absent [quest; gt] y /\ u = instruction y ++ r /\ f = 0 /\ l = n /\ n = length (instruction y).
Proof.
  intros T. inversion T as [y r N| | | | | | | | | | | |]; subst. exists y, r. split; [exact N|].
  unfold instruction. split; [apps; reflexivity|]. split; [reflexivity|]. split; [reflexivity|]. lens. lia.
Qed.
Lemma chars_next t u : chars_ok t u -> ~ begins plain u.
Proof. intros (_ & _ & N & _). exact N. Qed.

Lemma document_sound f b s' : parse_document f b fresh = Ok tt s' ->
  (exists t x w i rest, b = t ++ x ++ w ++ raw i ++ rest /\ leading t (x ++ w ++ raw i ++ rest) /\ prolog x /\ spaces w /\
     tag_of i <> None /\ item_ok i rest /\ RenderE [] i (p_out s') (p_calls s')) \/
  p_out s' = [] /\ p_calls s' = [].
Proof.
  intros H. unfold Xml_Model.parse_document in H. cbn zeta in H. binv H pr s1 E1. binv H e s2 E2. injection H as <-.
  unfold is_prolog in E1. binv E1 m s3 E3. binv E1 x s4 E4. injection E1 as _ <-.
  destruct (bom_sound b m s3 E3) as (t & u & -> & P3 & O3 & C3 & [(Tn & Ld & L3) | (-> & k & l' & G & K & L3)]).
  - assert (V : sits (t ++ u) (length t) u) by (exists t; auto).
    assert (A3 : At (t ++ u) (p_lex s3) (length t) true false) by (left; exact L3).
    assert (Q : exists y z, u = y ++ z /\ prolog y /\ At (t ++ u) (p_lex s4) (length t + length y) true false /\
                p_pre s4 = false /\ p_out s4 = [] /\ p_calls s4 = []).
    { destruct x as [x|].
      - destruct (is_token_some _ _ _ _ _ _ _ _ A3 E4) as (l1 & G1 & K1 & ->).
        destruct (get_reads _ _ _ _ _ _ _ V G1) as (w & v & R & Eu).
        inversion R as [? ? ? ? | ? ? kk f1 l m' W1 W2 W3 V1 T]; subst; [discriminate|]. cbn [t_kind] in K1. subst kk.
        assert (w = []) as ->.
        { destruct w as [|c w]; [reflexivity|]. exfalso. destruct Ld as [|(Hc & _)]; [contradiction|].
          apply (chars_next _ _ Hc). cbn [app begins]. inversion W1 as [|? ? Hs ?]; subst. unfold space in Hs. unfold plain, lt, amp. lia. }
        cbn [app length] in *. destruct (token_pi _ _ _ _ _ T) as (y & r & Hy & -> & -> & -> & ->).
        exists (instruction y), r. split; [reflexivity|]. split; [right; exists y; auto|]. cbn [skip_after name_after with_lex p_lex p_pre p_out p_calls].
        split; [left; f_equal; lia|]. auto.
      - destruct (is_token_back _ _ _ _ _ _ _ A3 E4) as (A4 & Q1 & Q2 & Q3). exists [], u. split; [reflexivity|]. split; [left; reflexivity|].
        cbn [length]. rewrite Nat.add_0_r. split; [exact A4|]. split; [congruence|]. split; congruence. }
    destruct Q as (y & z & -> & Py & A4 & P4 & O4 & C4).
    destruct (all_sound name_index pred cb f) as (IE & _).
    assert (V4 : sits (t ++ y ++ z) (length t + length y) z) by (exists (t ++ y); rewrite app_length, <- app_assoc; auto).
    pose proof (IE _ s4 _ true z e s2 A4 V4 E2) as R.
    destruct e as [e|].
    + left. destruct R as (w & i & rest & -> & W & _ & Tg & Ok & _ & _ & R). rewrite P4 in R. destruct R as (_ & o & R & Eo).
      rewrite C4 in R. rewrite O4 in Eo. cbn [app] in Eo. subst o.
      exists t, y, w, i, rest. auto 10.
    + right. destruct R as (t1 & l1 & _ & _ & ->). cbn [with_lex p_out p_calls]. auto.
  - cbn [app] in *. destruct (kind_eqbP (t_kind k) KPI) as [Kp|Kp].
    + destruct (get_reads _ _ _ _ _ _ _ (sits_0 u) G) as (w & v & R & Eu).
      inversion R as [? ? ? ? | ? ? kk f1 l m' W1 W2 W3 V1 T]; subst; [discriminate|]. cbn [t_kind] in Kp. subst kk.
      rewrite (W2 eq_refl) in *. cbn [app length] in *. destruct (token_pi _ _ _ _ _ T) as (y & r & Hy & -> & -> & -> & ->).
      cbn [skip_after name_after] in *.
      assert (E5 : s4 = Ps (Lx (length (instruction y)) true false None) false [] []).
      { unfold is_token, next_token, get_token in E4. rewrite L3 in E4. cbn [set_skip putback l_back l_pos l_skip l_name bind t_kind kind_eqb with_lex p_lex p_pre p_out p_calls] in E4.
        injection E4 as _ <-. unfold with_lex. rewrite P3, O3, C3. reflexivity. }
      subst s4. destruct (all_sound name_index pred cb f) as (IE & _).
      assert (V4 : sits (instruction y ++ r) (length (instruction y)) r) by (exists (instruction y); auto).
      assert (A4 : At (instruction y ++ r) (p_lex (Ps (Lx (length (instruction y)) true false None) false [] [])) (length (instruction y)) true false) by (left; reflexivity).
      pose proof (IE _ _ _ true r e s2 A4 V4 E2) as Rs. cbn [p_pre p_out p_calls] in Rs.
      destruct e as [e|].
      * left. destruct Rs as (w' & i & rest & -> & W' & _ & Tg & Ok & _ & _ & _ & o & Rr & Eo). cbn [app] in Eo. subst o.
        exists [], (instruction y), w', i, rest. split; [reflexivity|]. split; [left; reflexivity|]. split; [right; exists y; auto|]. auto.
      * right. destruct Rs as (t1 & l1 & _ & _ & ->). cbn [with_lex p_out p_calls]. auto.
    + assert (E5 : s4 = with_lex (putback k (Lx (l_pos l') true (l_name l') None)) s3).
      { unfold is_token, next_token, get_token in E4. rewrite L3 in E4. cbn [set_skip putback l_back l_pos l_skip l_name bind] in E4.
        destruct (kind_eqbP (t_kind k) KPI); [contradiction|]. injection E4 as _ <-. reflexivity. }
      subst s4. destruct (kind_eqbP (t_kind k) KOpen) as [Ko|Ko].
      * destruct (get_reads _ _ _ _ _ _ _ (sits_0 u) G) as (w & v & R & Eu).
        inversion R as [? ? ? ? | ? ? kk f1 l m' W1 W2 W3 V1 T]; subst; [discriminate|]. cbn [t_kind] in Ko. subst kk.
        cbn [l_pos l_name skip_after name_after] in *.
        destruct (all_sound name_index pred cb f) as (IE & _).
        assert (A4 : At (w ++ v) (p_lex (with_lex (putback (Tok KOpen (0 + length w + f1) (0 + length w + l)) (Lx (0 + length w + m') true true None)) s3)) 0 false false)
          by (right; eexists _, _; split; [exact G|reflexivity]).
        pose proof (IE _ _ _ false (w ++ v) e s2 A4 (sits_0 _) E2) as Rs. cbn [with_lex p_pre p_out p_calls] in Rs. rewrite P3, O3, C3 in Rs.
        destruct e as [e|].
        -- left. destruct Rs as (w' & i & rest & -> & W' & W4 & Tg & Ok & _ & _ & _ & o & Rr & Eo). cbn [app] in Eo. subst o.
           exists [], [], w', i, rest. split; [reflexivity|]. split; [left; reflexivity|]. split; [left; reflexivity|]. auto.
        -- right. destruct Rs as (t1 & l1 & _ & _ & ->). cbn [with_lex p_out p_calls]. auto.
      * right. destruct (element_without f u (with_lex (putback k (Lx (l_pos l') true (l_name l') None)) s3) _ eq_refl k eq_refl Ko _ _ E2) as (_ & -> & ->). cbn [with_lex p_out p_calls]. auto.
Qed.

Lemma document_complete t x w i rest o h' : leading t (x ++ w ++ raw i ++ rest) -> prolog x -> spaces w -> (x = [] -> w = []) ->
  tag_of i <> None -> item_ok i rest -> RenderE [] i o h' ->
  (exists k l', get_token (t ++ x ++ w ++ raw i ++ rest) (Lx (length t + length x + length w + length (raw i)) false false None) = GTok k l') ->
  exists F, forall f, F <= f -> exists s', parse_document f (t ++ x ++ w ++ raw i ++ rest) fresh = Ok tt s' /\ p_out s' = o /\ p_calls s' = h'.
Proof.
  intros Ld Px W Wx Tg Oki R Tk. set (b := t ++ x ++ w ++ raw i ++ rest) in *.
  assert (Vx : sits b (length t) (x ++ w ++ raw i ++ rest)) by (exists t; auto).
  pose proof (sits_app _ _ _ _ Vx) as Vw. pose proof (sits_app _ _ _ _ Vw) as Vi.
  destruct (item_first pred i rest Oki) as (n & Ti & _).
  assert (Ei : item_token i = KOpen) by (destruct i; try reflexivity; destruct Tg; reflexivity). rewrite Ei in Ti.
  assert (Li : begins (eq lt) (raw i ++ rest)) by (destruct i; try (destruct Tg; reflexivity); cbn; reflexivity).
  assert (S1 : exists r0 L1, is_bom b (with_lex (set_skip true (p_lex fresh)) fresh) = Ok r0 (Ps L1 false [] []) /\
     (At b L1 (length t) true false \/ t = [] /\ exists k l', get_token b (Lx 0 false false None) = GTok k l' /\ t_kind k <> KCharData /\ L1 = set_skip true (putback k l'))).
  { unfold is_bom. cbn zeta. 
    match goal with |- context [is_token b KCharData ?st] => change st with (Ps (Lx 0 false false None) false [] []) end.
    assert (A0 : At b (Lx 0 false false None) 0 false false) by (left; reflexivity).
    destruct Ld as [-> | (Hc & N1 & N2)].
    - assert (G0 : exists k l', get_token b (Lx 0 false false None) = GTok k l' /\ t_kind k <> KCharData).
      { destruct Px as [-> | (y & Hy & ->)].
        - rewrite (Wx eq_refl) in *. cbn [app] in *. eexists _, _. split; [apply (get_tok b 0 false false [] _ _ _ _ _ Vi Ti); [constructor|reflexivity|discriminate]|discriminate].
        - assert (Tp : Token false b KPI 0 (length y + 4) (length y + 4)).
          { unfold b. cbn [app]. unfold instruction. replace ((lt :: quest :: y ++ [quest; gt]) ++ w ++ raw i ++ rest) with (lt :: quest :: y ++ quest :: gt :: w ++ raw i ++ rest) by (apps; reflexivity).
            apply T_pi. exact Hy. }
          eexists _, _. split; [apply (get_tok b 0 false false [] _ _ _ _ _ (sits_0 b) Tp); [constructor|reflexivity|discriminate]|discriminate]. }
      destruct G0 as (k & l' & G0 & K0).
      rewrite (is_token_no b KCharData (Ps (Lx 0 false false None) false [] []) 0 false false k l' A0 G0 K0). cbn [bind].
      eexists false, _. split; [reflexivity|]. right. split; [reflexivity|]. exists k, l'. auto.
    - assert (Tc : Token false b KCharData 0 (length t) (length t)).
      { destruct Hc as (H1 & H2 & H3 & H4 & H5). apply T_chars; auto. discriminate. }
      assert (G0 := get_tok b 0 false false [] b _ _ _ _ (sits_0 b) Tc (Forall_nil _) (fun _ => eq_refl) ltac:(discriminate)).
      cbn [length] in G0. rewrite !Nat.add_0_l in G0.
      rewrite (is_token_yes b KCharData (Ps (Lx 0 false false None) false [] []) 0 false false _ _ A0 G0 eq_refl). cbn [bind t_first t_last].
      replace (sub b 0 (length t)) with t by (symmetry; exact (sub_sits b 0 t _ (sits_0 _))).
      assert (E1 : starts [254; 255]%N t = false) by (destruct (starts [254; 255]%N t) eqn:X; [apply starts_spec in X; destruct X as (r & X); destruct (N1 r X)|reflexivity]).
      assert (E2 : starts [255; 254]%N t = false) by (destruct (starts [255; 254]%N t) eqn:X; [apply starts_spec in X; destruct X as (r & X); destruct (N2 r X)|reflexivity]).
      rewrite E1, E2. destruct (starts [239; 187; 191]%N t); eexists _, _; (split; [reflexivity|left; left; reflexivity]). }
  destruct S1 as (r0 & L1 & E1 & HL).
  assert (S2 : exists r1 L2 sk, is_token b KPI (Ps L1 false [] []) = Ok r1 (Ps L2 false [] []) /\
     At b L2 (length t + length x) sk false /\ (sk = false -> w = [])).
  { destruct Px as [-> | (y & Hy & ->)].
    - (* no instruction *)
      rewrite (Wx eq_refl) in *. cbn [app length] in *. rewrite !Nat.add_0_r in *.
      destruct HL as [A1 | (-> & k & l' & G & K & ->)].
      + assert (G1 := get_tok b (length t) true false [] _ _ _ _ _ Vi Ti (Forall_nil _) ltac:(discriminate)
          ltac:(intros _; destruct (raw i ++ rest); [contradiction|]; cbn in Li; subst; cbn [begins]; unfold space, lt; lia)).
        rewrite (is_token_no b KPI (Ps L1 false [] []) (length t) true false _ _ A1 G1) by discriminate.
        eexists None, _, true. split; [reflexivity|]. split; [|reflexivity]. right. eexists _, _. split; [exact G1|reflexivity].
      + assert (G1 := get_tok b 0 false false [] _ _ _ _ _ Vi Ti (Forall_nil _) (fun _ => eq_refl) ltac:(discriminate)).
        rewrite G in G1. injection G1 as -> ->. cbn [length skip_after name_after].
        unfold is_token, next_token, get_token. cbn [p_lex set_skip putback l_back l_pos l_skip l_name bind t_kind kind_eqb with_lex p_pre p_out p_calls].
        eexists None, _, false. split; [reflexivity|]. split; [|reflexivity]. right. eexists _, _. split; [exact G|reflexivity].
    - assert (Tp : forall u, Token false (instruction y ++ u) KPI 0 (length y + 4) (length y + 4)).
      { intros u. unfold instruction. replace ((lt :: quest :: y ++ [quest; gt]) ++ u) with (lt :: quest :: y ++ quest :: gt :: u) by (apps; reflexivity).
        apply T_pi. exact Hy. }
      assert (Ly : length (instruction y) = length y + 4) by (unfold instruction; lens; lia).
      destruct HL as [A1 | (-> & k & l' & G & K & ->)].
      + assert (G1 := get_tok b (length t) true false [] _ _ _ _ _ Vx (Tp _) (Forall_nil _) ltac:(discriminate)
          ltac:(intros _; cbn [instruction app begins]; unfold space, lt; lia)).
        rewrite (is_token_yes b KPI (Ps L1 false [] []) (length t) true false _ _ A1 G1 eq_refl).
        eexists (Some _), _, true. split; [reflexivity|]. split; [|discriminate]. left. cbn [with_lex p_lex length skip_after name_after]. f_equal. lia.
      + assert (G1 := get_tok b 0 false false [] _ _ _ _ _ Vx (Tp _) (Forall_nil _) (fun _ => eq_refl) ltac:(discriminate)).
        rewrite G in G1. injection G1 as -> ->. cbn [length skip_after name_after].
        unfold is_token, next_token, get_token. cbn [p_lex set_skip putback l_back l_pos l_skip l_name bind t_kind kind_eqb with_lex p_pre p_out p_calls].
        eexists (Some _), _, true. split; [reflexivity|]. split; [|discriminate]. left. f_equal. rewrite Ly. cbn. lia. }
  destruct S2 as (r1 & L2 & sk & E2 & A2 & Wsk).
  destruct (run_all name_index pred cb) as (_ & RE & _).
  destruct (RE _ _ _ _ R b (Ps L2 false [] []) _ sk w rest A2 Vw W Wsk Oki eq_refl eq_refl) as (F & L & _ & HF); [exact Tk|].
  exists F. intros f Hf. eexists. split.
  - unfold Xml_Model.parse_document, is_prolog. cbn zeta. rewrite E1. cbn [bind]. rewrite E2. cbn [bind]. rewrite (HF f Hf). cbn [bind]. reflexivity.
  - split; reflexivity.
Qed.

(** *** Sequences *)
Lemma sequence_sound f : forall b s p v s', At b (p_lex s) p false false -> sits b p v -> p_pre s = false ->
  sequence_loop f b s = Ok tt s' -> exists o, Elements (p_calls s) v o (p_calls s') /\ p_out s' = p_out s ++ o.
Proof.
  induction f as [|f IH]; intros b s p v s' A V Ep H; [discriminate|]. cbn [Xml_Model.sequence_loop] in H.
  binv H e s1 E. destruct (all_sound name_index pred cb f) as (IE & _).
  pose proof (IE b s p false v e s1 A V E) as R. destruct e as [e|].
  - destruct R as (w & i & rest & -> & _ & Wn & Tg & Oki & A1 & P1 & R). rewrite Ep in R. destruct R as (_ & o1 & R & Eo).
    rewrite (Wn eq_refl) in *. cbn [app length] in *. rewrite Nat.add_0_r in *. pose proof (sits_app _ _ _ _ V) as V1.
    binv H c s2 E2. destruct c as [c|].
    + destruct (is_token_some _ _ _ _ _ _ _ _ A1 E2) as (l1 & G & K & ->).
      destruct (get_reads _ _ _ _ _ _ _ V1 G) as (w' & u & Rd & ->).
      inversion Rd as [? ? ? ? | ? ? k f1 l m W1 W2 W3 V2 T]; subst; [discriminate|]. cbn [t_kind] in K. subst k.
      rewrite (W2 eq_refl) in *. cbn [app length] in *.
      inversion T as [| | | | | | | | | | | |x r0 X1 X2 X3 X4 X5 X6]; subst.
      pose proof (sits_app _ _ _ _ V2) as V3.
      eapply IH in H; [|left; reflexivity| |cbn [with_lex p_pre]; congruence].
      2:{ replace (p + length (raw i) + 0 + length x) with (p + length (raw i) + length x) by lia. exact V3. }
      destruct H as (o & HE & Ho). cbn [with_lex p_calls p_out] in *. exists (o1 ++ o). split.
      * eapply Es_element; [exact Oki|exact R|right; unfold chars_ok; auto|exact HE].
      * rewrite Ho, Eo, app_assoc. reflexivity.
    + destruct (is_token_back _ _ _ _ _ _ _ A1 E2) as (A2 & Q1 & Q2 & Q3).
      destruct (IH b s2 _ rest s' A2 V1 ltac:(congruence) H) as (o & HE & Ho). rewrite Q2 in HE. rewrite Q3 in Ho.
      exists (o1 ++ o). split; [|rewrite Ho, Eo, app_assoc; reflexivity].
      apply (Es_element name_index pred cb _ i [] rest _ _ _ _ Oki R (or_introl eq_refl) HE).
  - injection H as <-. destruct R as (t & l' & G & K & ->). cbn [with_lex p_calls p_out]. exists []. rewrite app_nil_r. split; [|reflexivity].
    apply Es_end. intros n T. apply K.
    assert (G1 := get_tok b p false false [] v _ _ _ _ V T (Forall_nil _) (fun _ => eq_refl) ltac:(discriminate)). rewrite G in G1. injection G1 as -> _. reflexivity.
Qed.

(** the start of what follows is a token, or the end *)
Definition readable (r : bytes) : Prop := r = [] \/ exists k f l n, Token false r k f l n.
Lemma readable_get b p r : sits b p r -> readable r -> exists t l', get_token b (Lx p false false None) = GTok t l' /\
  (r = [] /\ t_kind t = KEof \/ exists f l n, Token false r (t_kind t) f l n).
Proof.
  intros V [-> | (k & f & l & n & T)].
  - eexists _, _. split; [eapply reads_get; apply (Rd_eof b p false false []); [constructor|reflexivity|exact V]|]. left. auto.
  - eexists _, _. split; [apply (get_tok b p false false [] _ _ _ _ _ V T); [constructor|reflexivity|discriminate]|]. right. exists f, l, n. exact T.
Qed.
(** a sequence whose texts between are exactly the runs of text, and whose end can be read *)
Inductive Sequence : list call -> bytes -> bytes -> list call -> Prop :=
| Sq_end : forall h r, (forall n, ~ Token false r KOpen 0 n n) -> readable r -> (forall n, ~ Token false r KCharData 0 n n) -> Sequence h r [] h
| Sq_element : forall h i t r o1 h1 o h', item_ok i (t ++ r) -> tag_of i <> None -> RenderE h i o1 h1 -> t = [] \/ chars_ok t r ->
    Sequence h1 r o h' -> Sequence h (raw i ++ t ++ r) (o1 ++ o) h'.
Lemma sequence_first h r o h' : Sequence h r o h' -> readable r /\ forall n, ~ Token false r KCharData 0 n n.
Proof.
  intros H. destruct H as [h r N1 N2 N3 | h i t r o1 h1 o h' Oki Tg R Ht S]; [auto|].
  destruct (item_first pred i _ Oki) as (n & T & _). assert (Ei : item_token i = KOpen) by (destruct i; try reflexivity; destruct Tg; reflexivity).
  rewrite Ei in T. split; [right; eexists _, _, _, _; exact T|]. intros m Tm.
  pose proof (token_parses _ _ _ _ _ _ T). pose proof (token_parses _ _ _ _ _ _ Tm). congruence.
Qed.
Lemma token_shape np r k f l n : Token np r k f l n -> np = false -> k = KCharData \/ k = KOpen -> f = 0 /\ l = n.
Proof. intros T E K. destruct T; try (destruct K; discriminate); auto. Qed.
Lemma sequence_complete h v o h' : Sequence h v o h' -> forall b s p, At b (p_lex s) p false false -> sits b p v -> p_pre s = false ->
  p_calls s = h -> exists F, forall f, F <= f -> exists s', sequence_loop f b s = Ok tt s' /\ p_out s' = p_out s ++ o /\ p_calls s' = h'.
Proof.
  induction 1 as [h r N1 N2 N3 | h i t r o1 h1 o h' Oki Tg R Ht S IH]; intros b s p A V Ep Eh.
  - destruct (readable_get b p r V N2) as (t & l' & G & K).
    assert (Ko : t_kind t <> KOpen).
    { intros E. destruct K as [(_ & K) | (f & l & n & T)]; [congruence|]. rewrite E in T. destruct (token_shape _ _ _ _ _ _ T eq_refl (or_intror eq_refl)) as (-> & ->). exact (N1 n T). }
    exists 2. intros f Hf. destruct f as [|[|f]]; [lia..|]. cbn [Xml_Model.sequence_loop].
    rewrite (not_element name_index pred cb f b s p t l' A G Ko). cbn [bind]. eexists. split; [reflexivity|].
    cbn [with_lex p_out p_calls]. rewrite app_nil_r. auto.
  - pose proof (sits_app _ _ _ _ V) as V1. pose proof (sits_app _ _ _ _ V1) as V2.
    destruct (sequence_first _ _ _ _ S) as (Rr & Nc).
    destruct (run_all name_index pred cb) as (_ & RE & _).
    assert (HT : exists k l', get_token b (Lx (p + length (raw i)) false false None) = GTok k l' /\
       (t = [] /\ t_kind k <> KCharData \/ t_kind k = KCharData /\ l' = Lx (p + length (raw i) + length t) false false None)).
    { destruct Ht as [-> | Ht].
      - cbn [app length] in *. destruct (readable_get b _ r V1 Rr) as (k & l' & G & K). exists k, l'. split; [exact G|]. left. split; [reflexivity|].
        intros E. destruct K as [(_ & K) | (f & l & n & T)]; [congruence|]. rewrite E in T. destruct (token_shape _ _ _ _ _ _ T eq_refl (or_introl eq_refl)) as (-> & ->). exact (Nc n T).
      - assert (Tc : Token false (t ++ r) KCharData 0 (length t) (length t)).
        { destruct Ht as (H1 & H2 & H3 & H4 & H5). apply T_chars; auto. discriminate. }
        eexists _, _. split; [apply (get_tok b _ false false [] _ _ _ _ _ V1 Tc); [constructor|reflexivity|discriminate]|].
        right. split; [reflexivity|]. cbn [length skip_after name_after]. f_equal. lia. }
    destruct HT as (k & l' & G & K).
    destruct (RE _ _ _ _ R b s p false [] (t ++ r) A V (Forall_nil _) (fun _ => eq_refl) Oki Ep Eh) as (F & L & AL & HF).
    { exists k, l'. cbn [length]. rewrite Nat.add_0_r. exact G. }
    cbn [length] in AL. rewrite Nat.add_0_r in AL.
    set (s1 := Ps L false (p_out s ++ o1) h1).
    assert (C : exists r2 s2, is_token b KCharData s1 = Ok r2 s2 /\ At b (p_lex s2) (p + length (raw i) + length t) false false /\
       p_pre s2 = false /\ p_out s2 = p_out s ++ o1 /\ p_calls s2 = h1).
    { destruct K as [(-> & K) | (K & ->)].
      - rewrite (is_token_no b KCharData s1 _ false false k l' AL G K). eexists _, _. split; [reflexivity|].
        cbn [length]. rewrite Nat.add_0_r. split; [exact (at_putback _ _ _ _ _ _ _ G)|]. auto.
      - rewrite (is_token_yes b KCharData s1 _ false false k _ AL G K). eexists _, _. split; [reflexivity|]. split; [left; reflexivity|]. auto. }
    destruct C as (r2 & s2 & E2 & A2 & P2 & O2 & C2).
    destruct (IH b s2 _ A2 V2 P2 C2) as (F2 & H2).
    exists (Datatypes.S (F + F2)). intros f Hf. destruct f as [|f]; [lia|]. cbn [Xml_Model.sequence_loop]. rewrite (HF f) by lia. cbn [bind]. fold s1. rewrite E2. cbn [bind].
    destruct (H2 f ltac:(lia)) as (s' & Es & Eo & Ec). exists s'. split; [exact Es|]. split; [rewrite Eo, O2, app_assoc; reflexivity|exact Ec].
Qed.
End Doc.
