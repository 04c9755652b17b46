(** The rounds of the lexer, and whole texts. *)
From Coq Require Import String Ascii ZArith List Bool Lia Floats.SpecFloat.
From Verif Require Import Prelude Vm_Value Token_Props Expr_Model Lex_Model Lex_Spec Lex_Proofs Lex_Token.
Import ListNotations.
Local Open Scope Z_scope.
Ltac Zify.zify_post_hook ::= idtac.

Section Rounds.
Variable kw : string -> bool.
Variable bp : bool.
Variable rd : list ascii -> spec_float.
Notation means := (means kw rd).
Definition lp (p : place) : line_position := mk_line_position (characters p) (line_number p) (line_begins p).
(** what is put for a lexeme *)
Definition putted (x : lexeme) : option token := if comment x && bp then None else Some (means x).
Definition fragment_of (e : place * lexeme) : fragment := (lp (fst e), putted (snd e)).

Lemma spelled_first x r : well_formed x -> exists c w, spelled x ++ r = c :: w /\ high c = false /\ space c = false.
Proof.
  intros Hw. destruct x as [w0|x ds|w0|k|ps lone|body le|body].
  - destruct Hw as (c & w' & -> & H1 & _). exists c, (w' ++ r). split; [reflexivity|]. split; [apply word_low, start_word, H1|].
    apply negb_true_iff. revert c H1. apply bytes_imp. vm_compute. reflexivity.
  - cbn [spelled app]. eexists; eexists. split; [reflexivity|]. split; reflexivity.
  - destruct Hw as (c & w' & -> & H1 & _). exists c, (w' ++ r). split; [reflexivity|]. split; [apply dec_low, digit_dec, H1|].
    apply negb_true_iff. revert c H1. apply bytes_imp. vm_compute. reflexivity.
  - cbn in Hw. destruct k; try discriminate Hw; (eexists; eexists; split; [reflexivity|split; reflexivity]).
  - destruct Hw as (Hps & Hl). destruct ps as [|y ps].
    + destruct Hl as [[_ ?]|(q & -> & Hq)]; [congruence|]. exists q, r. split; [reflexivity|]. auto using quote_low, quote_not_space.
    + inversion Hps as [|? ? [Hq _] _]; subst. eexists; eexists. split; [reflexivity|]. auto using quote_low, quote_not_space.
  - cbn [spelled app]. eexists; eexists. split; [reflexivity|]. split; reflexivity.
  - cbn [spelled app]. eexists; eexists. split; [reflexivity|]. split; reflexivity.
Qed.
Lemma means_not_eof x : well_formed x -> tk_beq (t_name (means x)) eof_k = false.
Proof.
  destruct x as [w0|x ds|w0|k|ps lone|body le|body]; try reflexivity.
  - intros _. cbn [Lex_Spec.means t_name]. destruct (keyword kw (str w0)); reflexivity.
  - cbn. intros H. destruct k; reflexivity || discriminate H.
Qed.

(** reading on is possible only before ASCII *)
Lemma space_low c : space c = true -> high c = false.
Proof. intros H. apply negb_true_iff. revert c H. apply bytes_imp. vm_compute. reflexivity. Qed.
Lemma reads_first p t l e : reads_from p t l e -> not_first high t.
Proof.
  intros H. destruct H as [p ws Hws|p ws x r l e Hws Hx _ _].
  - destruct ws as [|c ws]; [exact I|]. inversion Hws; subst. apply space_low. assumption.
  - destruct ws as [|c ws]; [|inversion Hws; subst; apply space_low; assumption].
    destruct (spelled_first x r Hx) as (c & w & -> & H & _). exact H.
Qed.
Lemma reads_clear p t l e : reads_from p t l e -> clear_ahead t.
Proof.
  intros H. split; [apply (reads_first _ _ _ _ H)|]. intros (x0 & d & t' & E & Hx0 & Hd).
  assert (Hx0' : space x0 = false /\ word_start x0 = true) by (destruct Hx0 as [-> | ->]; split; reflexivity). clear Hx0.
  destruct Hx0' as [Hsp Hws0]. destruct H as [p ws Hws|p ws x r l e Hws Hx He Hr].
  - subst ws. inversion Hws; subst. congruence.
  - destruct ws as [|c ws]; [|cbn in E; injection E as -> _; inversion Hws; subst; congruence].
    cbn [app] in E. destruct x as [w0|x ds|w0|k|ps lone|body le|body].
    + destruct Hx as (c & w' & -> & H1 & H2). cbn in E. injection E as -> E. destruct w' as [|d' w'].
      * cbn in E. subst r. apply reads_first in Hr. cbn [not_first] in Hr. congruence.
      * cbn in E. injection E as -> _. inversion H2 as [|? ? H3 _]; subst. apply word_low in H3. congruence.
    + cbn [spelled app] in E. injection E as <- _. discriminate.
    + destruct Hx as (c & w' & -> & H1 & _). cbn in E. injection E as -> _.
      assert (Hn : negb (digit x0) = true) by (clear - Hws0; revert x0 Hws0; apply bytes_imp; vm_compute; reflexivity).
      rewrite H1 in Hn. discriminate.
    + cbn in Hx. destruct k; try discriminate Hx; cbn in E; injection E as <- _; discriminate.
    + destruct (Hx) as (Hps & Hl). assert (Hq : quote x0 = true).
      { destruct ps as [|y ps]; [destruct Hl as [[_ ?]|(q & -> & Hq)]; [congruence|]; cbn in E; injection E as <- _; exact Hq|].
        inversion Hps as [|? ? [Hq _] _]; subst. cbn in E. injection E as <- _. exact Hq. }
      assert (Hn : negb (quote x0) = true) by (clear - Hws0; revert x0 Hws0; apply bytes_imp; vm_compute; reflexivity).
      rewrite Hq in Hn. discriminate.
    + cbn [spelled app] in E. injection E as <- _. discriminate.
    + cbn [spelled app] in E. injection E as <- _. discriminate.
Qed.

(** *** one round *)
Notation round := (round kw bp rd).
Lemma round_end ws s p fuel : all space ws -> at_ s 1 ws p -> (List.length ws < fuel)%nat ->
  exists s', round fuel s = LOk (lp (walk ws p), Some eof) s'.
Proof.
  intros Hws Hs Hf. rewrite <- (app_nil_r ws) in Hs.
  destruct (skip_exact ws [] s 1 p fuel Hws I (le_n 1) Hs Hf) as [Hok _]. destruct (Hok I) as (s1 & E & H1).
  exists s1. unfold Lex_Model.round. rewrite E. cbn [lbind]. rewrite (get_nil _ _ _ H1). cbn [lbind].
  destruct H1 as (_ & _ & Hp). rewrite <- Hp. reflexivity.
Qed.
Lemma round_next ws x r s p fuel :
  all space ws -> well_formed x -> ends_before x r -> at_ s 1 (ws ++ spelled x ++ r) p -> (List.length (ws ++ spelled x ++ r) < fuel)%nat ->
  let good := exists s', round fuel s = LOk (lp (walk ws p), putted x) s' /\ at_ s' 1 r (after x (walk ws p)) in
  (clear_ahead r -> good) /\ (round fuel s = LUndef \/ good).
Proof.
  intros Hws Hx He Hs Hf good. destruct (spelled_first x r Hx) as (c & w & E & Hh & Hsp). rewrite E in *.
  rewrite app_length in Hf. cbn [List.length] in Hf.
  destruct (skip_exact ws (c :: w) s 1 p fuel Hws Hsp (le_n 1) Hs ltac:(lia)) as [Hok _]. destruct (Hok Hh) as (s1 & E1 & H1).
  destruct (get_cons _ _ _ _ _ H1) as (s2 & E2 & H2). cbn [pred] in H2.
  destruct (token_answers kw bp rd fuel x r c w s2 _ Hx He E H2) as [A1 A2]; [cbn; lia|].
  assert (Er : round fuel s = lbind (parse_token kw bp rd fuel c s2) (fun t s3 => LOk (lp (walk ws p), t) s3)).
  { unfold Lex_Model.round. rewrite E1. cbn [lbind]. rewrite E2. destruct H1 as (_ & _ & Hp). rewrite <- Hp. reflexivity. }
  assert (G : (exists s', parse_token kw bp rd fuel c s2 = LOk (putted x) s' /\ at_ s' 1 r (after x (walk ws p))) -> good).
  { intros (s' & Ep & H'). exists s'. rewrite Er, Ep. split; [reflexivity|exact H']. }
  split.
  - intros Hc. apply G, A1. right. exact Hc.
  - destruct A2 as [A2|A2]; [left; rewrite Er, A2; reflexivity|right; apply G, A2].
Qed.
(** and there is nothing else a round can do *)
Lemma round_any t s p fuel : at_ s 1 t p -> (List.length t < fuel)%nat ->
  all space t \/ (exists ws x r, t = ws ++ spelled x ++ r /\ all space ws /\ well_formed x /\ ends_before x r) \/
  round fuel s = LThrow \/ (round fuel s = LUndef /\ exists c, In c t /\ high c = true).
Proof.
  intros Hs Hf. destruct (span space t) as (ws & w & -> & Hws & Hnf). destruct w as [|c w]; [left; rewrite app_nil_r; exact Hws|].
  right. rewrite app_length in Hf. cbn [List.length] in Hf.
  destruct (skip_exact ws (c :: w) s 1 p fuel Hws Hnf (le_n 1) Hs ltac:(lia)) as [Hok Hbad].
  destruct (high c) eqn:Hh.
  { right; right. split; [|exists c; split; [apply in_or_app; right; left; reflexivity|exact Hh]].
    unfold Lex_Model.round. rewrite Hbad; [reflexivity|]. cbn [not_first]. congruence. }
  destruct (Hok Hh) as (s1 & E1 & H1). destruct (get_cons _ _ _ _ _ H1) as (s2 & E2 & H2). cbn [pred] in H2.
  assert (Er : round fuel s = lbind (parse_token kw bp rd fuel c s2) (fun t s3 => LOk (lp (walk ws p), t) s3)).
  { unfold Lex_Model.round. rewrite E1. cbn [lbind]. rewrite E2. destruct H1 as (_ & _ & Hp). rewrite <- Hp. reflexivity. }
  destruct (token_or_refused kw bp rd fuel c w s2 _ H2) as [(x & r & E & Hx & He)|[Ht|[_ Ht]]]; [cbn; lia|exact Hnf|..].
  - left. exists ws, x, r. rewrite E. auto.
  - right; left. rewrite Er, Ht. reflexivity.
  - congruence.
Qed.
Lemma not_clear r : clear_ahead r \/ exists c, In c r /\ high c = true.
Proof.
  destruct r as [|c r]; [left; split; [exact I|intros (x & d & r' & H & _); discriminate]|].
  destruct (high c) eqn:Hc; [right; exists c; split; [left; reflexivity|exact Hc]|].
  destruct r as [|d r]; [left; split; [exact Hc|intros (x & d & r' & H & _); discriminate]|].
  destruct (high d) eqn:Hd; [right; exists d; split; [right; left; reflexivity|exact Hd]|].
  left. split; [exact Hc|]. intros (x & d' & r' & [= -> -> ->] & _ & H). congruence.
Qed.

(** *** all the rounds *)
Notation rounds := (rounds kw bp rd).
Lemma spelled_nonempty x : well_formed x -> (0 < List.length (spelled x))%nat.
Proof. intros H. destruct (spelled_first x [] H) as (c & w & E & _). rewrite app_nil_r in E. rewrite E. cbn. lia. Qed.
Lemma rounds_step n fuel s q x s' : round fuel s = LOk (q, putted x) s' -> well_formed x ->
  rounds (S n) fuel s = tcons (q, putted x) (rounds n fuel s').
Proof.
  intros E Hx. cbn [Lex_Model.rounds]. rewrite E. unfold putted. destruct (comment x && bp); [reflexivity|].
  rewrite means_not_eof by exact Hx. reflexivity.
Qed.
(** a text that reads is delivered *)
Lemma rounds_complete p t l e : reads_from p t l e -> forall s n fuel,
  at_ s 1 t p -> (List.length t < n)%nat -> (List.length t < fuel)%nat -> rounds n fuel s = TOk (map fragment_of l) (lp e).
Proof.
  intros H. induction H as [p ws Hws|p ws x r l e Hws Hx He Hr IH]; intros s n fuel Hs Hn Hf.
  - destruct n as [|n]; [lia|]. cbn [Lex_Model.rounds]. destruct (round_end ws s p fuel Hws Hs Hf) as (s' & ->). reflexivity.
  - destruct (round_next ws x r s p fuel Hws Hx He Hs Hf) as [H1 _]. destruct (H1 (reads_clear _ _ _ _ Hr)) as (s' & E & H').
    pose proof (spelled_nonempty x Hx). rewrite !app_length in *.
    destruct n as [|n]; [lia|]. rewrite (rounds_step n fuel s _ x s' E Hx). rewrite (IH s' n fuel H') by lia. reflexivity.
Qed.
(** and every text reads, or is refused, or has undefined behaviour *)
Lemma rounds_cases : forall n t s p fuel,
  at_ s 1 t p -> (List.length t < n)%nat -> (List.length t < fuel)%nat ->
  (exists l e, reads_from p t l e) \/ (exists l, rounds n fuel s = TThrow l) \/ (rounds n fuel s = TUndef /\ exists c, In c t /\ high c = true).
Proof.
  induction n as [|n IH]; intros t s p fuel Hs Hn Hf; [lia|].
  destruct (round_any t s p fuel Hs Hf) as [Hsp|[(ws & x & r & -> & Hws & Hx & He)|[Ht|[Ht Hh]]]].
  - left. exists [], (walk t p). constructor. exact Hsp.
  - destruct (round_next ws x r s p fuel Hws Hx He Hs Hf) as [H1 H2].
    assert (Hcase : (exists s', round fuel s = LOk (lp (walk ws p), putted x) s' /\ at_ s' 1 r (after x (walk ws p))) \/
       (round fuel s = LUndef /\ exists c, In c r /\ high c = true)).
    { destruct (not_clear r) as [Hc|Hc]; [left; apply H1, Hc|]. destruct H2 as [H2|H2]; [right; split; assumption|left; exact H2]. }
    destruct Hcase as [(s' & E & H')|[E (c & Hin & Hc)]].
    + pose proof (spelled_nonempty x Hx). rewrite !app_length in *. rewrite (rounds_step n fuel s _ x s' E Hx).
      destruct (IH r s' _ fuel H' ltac:(lia) ltac:(lia)) as [(l & e & Hr)|[(l & Ht)|(Ht & c & Hin & Hc)]].
      * left. exists ((walk ws p, x) :: l), e. constructor; assumption.
      * right; left. rewrite Ht. eexists. reflexivity.
      * right; right. rewrite Ht. split; [reflexivity|]. exists c. split; [|exact Hc]. rewrite !in_app_iff. auto.
    + right; right. cbn [Lex_Model.rounds]. rewrite E. split; [reflexivity|]. exists c. rewrite !in_app_iff. auto.
  - right; left. cbn [Lex_Model.rounds]. rewrite Ht. eexists. reflexivity.
  - right; right. cbn [Lex_Model.rounds]. rewrite Ht. auto.
Qed.
End Rounds.

Lemma start_at t : at_ (start t) 1 t origin.
Proof. repeat split. cbn. lia. Qed.
(** the two ways of reading *)
Lemma reads_from_as p t l e : reads_from p t l e -> reads_as t (map snd l).
Proof. intros H. induction H; cbn [map snd]; constructor; assumption. Qed.
Lemma reads_as_from t xs : reads_as t xs -> forall p, exists l e, reads_from p t l e /\ map snd l = xs.
Proof.
  intros H. induction H as [ws Hws|ws x r xs Hws Hx He Hr IH]; intros p.
  - exists [], (walk ws p). split; [constructor; exact Hws|reflexivity].
  - destruct (IH (after x (walk ws p))) as (l & e & H & <-). exists ((walk ws p, x) :: l), e. split; [constructor; assumption|reflexivity].
Qed.
