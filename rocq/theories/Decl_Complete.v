(** The declaration parsers are complete: what is in the grammar is accepted, with its callbacks. *)
From Coq Require Import String ZArith List Lia.
From Verif Require Import Prelude Vm_Value Vm_Model Vm_Spec Vm_Proofs Expr_Model Expr_Spec Expr_Sound Expr_Complete Expr_Total Expr_Props.
From Verif Require Import Decl_Model Decl_Spec Decl_Sound Decl_Eve_Sound.
Import ListNotations.
Local Open Scope nat_scope.
Ltac Zify.zify_post_hook ::= idtac.

Lemma bind_ok {A B} (p : P A) (f : A -> P B) ts e a ts' : p ts = Ok e a ts' -> bind p f ts = after e (f a ts').
Proof. intros H. unfold bind. rewrite H. reflexivity. Qed.
Lemma bind_ok0 {A B} (p : P A) (f : A -> P B) ts a ts' : p ts = Ok [] a ts' -> bind p f ts = f a ts'.
Proof. intros H. unfold bind. rewrite H. apply after_nil. Qed.

Lemma token_hit k t ts : t_name t = k -> token_ k (t :: ts) = Ok [] true ts.
Proof. intros H. unfold token_. rewrite is_token_hit by exact H. reflexivity. Qed.
Lemma token_miss k ts : hd_is k ts = false -> token_ k ts = Ok [] false ts.
Proof. intros H. unfold token_. rewrite is_token_miss by exact H. reflexivity. Qed.
Lemma require_ok p ts ts' : p ts = Ok [] true ts' -> require p ts = Ok [] tt ts'.
Proof. intros H. unfold require. rewrite (bind_ok0 _ _ _ _ _ H). reflexivity. Qed.
Lemma keyword_hit w ts : keyword w (kw w :: ts) = Ok [] true ts.
Proof. unfold keyword, is_keyword, get. cbn [kw t_name t_value tk_beq andb]. rewrite String.eqb_refl. reflexivity. Qed.
Definition hd_kw (w : string) (ts : list token) : Prop := match ts with [] => False | t :: _ => t = kw w end.
Lemma keyword_miss w ts : ~ hd_kw w ts -> keyword w ts = Ok [] false ts.
Proof.
  intros H. unfold keyword. destruct (is_keyword w ts) as [ts'|] eqn:E; [|reflexivity]. apply is_keyword_inv in E. subst ts. elim H. reflexivity.
Qed.
Lemma hd_kw_name w t ts : t_name t <> keyword_k -> ~ hd_kw w (t :: ts).
Proof. intros H ->. apply H. reflexivity. Qed.
Lemma identifier_hit w ts : is_identifier (ident w :: ts) = Ok [] (Some w) ts.
Proof. reflexivity. Qed.
Lemma identifier_miss ts : hd_is identifier_k ts = false -> is_identifier ts = Ok [] None ts.
Proof. intros H. unfold is_identifier. rewrite is_token_value_miss by exact H. reflexivity. Qed.
Lemma comment_ok k old u o rest : opt_comment k u o -> hd_is k rest = false ->
  comment k old (u ++ rest) = Ok [] (match o with Some s => s | None => old end) rest.
Proof.
  intros H R. unfold comment. destruct H as [|s]; cbn [app].
  - rewrite is_token_value_miss by exact R. reflexivity.
  - rewrite is_token_value_hit. reflexivity.
Qed.
Lemma expression_ok code u e rest : gexpr u e -> ends rest -> expression code (u ++ rest) = Ok [] (code ++ compile e) rest.
Proof. intros G R. unfold expression. rewrite (C57_parser_is_complete code u e rest G R). reflexivity. Qed.
Lemma named_list_ok n u kes rest : gnamed u kes -> ends rest -> hd_is comma_k rest = false -> length (u ++ rest) < n ->
  is_named_argument_list (expression_fuel n) (S n) [] (u ++ rest) = PRet true (c_dict kes) rest.
Proof.
  intros G R C L. unfold is_named_argument_list.
  pose proof (proj2 (proj2 (proj2 (proj2 (proj2 complete_all)))) u kes G n (S n) 0 [] rest R C ltac:(lia) ltac:(lia)) as A.
  unfold named_from in A. destruct (is_named_argument (expression_fuel n) [] (u ++ rest)) as [[|] s1 ts1| |]; cbn [must try] in *; try discriminate.
  rewrite A, (gnamed_nonempty u kes G). reflexivity.
Qed.
Lemma arguments_ok u kes rest : gnamed u kes -> ends rest -> hd_is comma_k rest = false ->
  arguments (u ++ rest) = Ok [] (compile (EDict kes)) rest.
Proof.
  intros G R C. unfold arguments. rewrite (named_list_ok (S (length (u ++ rest))) u kes rest G R C) by lia. rewrite compile_dict. reflexivity.
Qed.
Lemma arguments_none rest : hd_is identifier_k rest = false -> arguments rest = Ok [] [VDict []] rest.
Proof.
  intros H. unfold arguments, is_named_argument_list, is_named_argument. rewrite is_token_value_miss by exact H. reflexivity.
Qed.

(** what comes after a declaration, and after the declarations of a section *)
Definition follow (ts : list token) : Prop :=
  match ts with [] => False | t :: _ => t_name t = lead_comment_k \/ t_name t = identifier_k \/ t_name t = keyword_k \/ t_name t = close_brace_k end.
Definition stop (ts : list token) : Prop :=
  match ts with
  | [] => False
  | t :: _ => t_name t = close_brace_k \/ exists w, t = kw w /\ w <> "unlink"%string /\ w <> "when"%string /\ w <> "relate"%string
  end.
Lemma follow_not k ts : follow ts -> k <> lead_comment_k -> k <> identifier_k -> k <> keyword_k -> k <> close_brace_k -> hd_is k ts = false.
Proof.
  destruct ts as [|t ts]; cbn [follow]; [tauto|]. intros [H|[H|[H|H]]] H1 H2 H3 H4; apply hd_is_other; congruence.
Qed.
Lemma stop_not k ts : stop ts -> k <> keyword_k -> k <> close_brace_k -> hd_is k ts = false.
Proof.
  destruct ts as [|t ts]; cbn [stop]; [tauto|]. intros [H|(w & -> & _)] H3 H4; apply hd_is_other; cbn [kw t_name]; congruence.
Qed.
Lemma stop_kw w ts : stop ts -> w = "unlink"%string \/ w = "when"%string \/ w = "relate"%string -> ~ hd_kw w ts.
Proof.
  destruct ts as [|t ts]; cbn [stop]; [tauto|]. intros [H|(w' & -> & H1 & H2 & H3)] K; cbn [hd_kw].
  - intros ->. discriminate.
  - unfold kw. intros E. injection E as <-. destruct K as [-> |[-> | ->]]; congruence.
Qed.
Lemma stop_follow ts : stop ts -> follow ts.
Proof. destruct ts as [|t ts]; cbn [stop follow]; [tauto|]. intros [H|(w & -> & _)]; auto. Qed.

Section Text.
Variable total : nat.
Ltac lens := repeat (rewrite app_length in * || cbn [length app] in * ).
Lemma position_ok n ts : n + length ts = total -> next_position total ts = Ok [] (Some n) ts.
Proof. intros H. unfold next_position. do 2 f_equal. lia. Qed.
Lemma end_ok old u b rest : end_statement u b -> hd_is trail_comment_k rest = false ->
  require_end_statement old (u ++ rest) = Ok [] (match b with Some s => s | None => old end) rest.
Proof.
  intros [s ut b' Hs C] R. unfold require_end_statement. cbn [app].
  rewrite (bind_ok0 _ _ _ _ _ (require_ok _ _ _ (token_hit _ _ _ Hs))). apply comment_ok; assumption.
Qed.
Lemma end_head u b rest : end_statement u b -> ends (u ++ rest) /\ hd_is colon_k (u ++ rest) = false /\ hd_is is_k (u ++ rest) = false /\ hd_is comma_k (u ++ rest) = false.
Proof. intros [s ut b' Hs C]. cbn [app ends]. rewrite Hs. repeat split; eapply hd_is_name; eauto. Qed.
Lemma part_ok k code n u p c rest : part k n u p c -> ends rest -> n + length (u ++ rest) = total ->
  is_part total k code (u ++ rest) = Ok [] (Some (p, code ++ c)) rest.
Proof.
  intros [m ux e Hm G] R Hn. unfold is_part. lens. rewrite (bind_ok0 _ _ _ _ _ (token_hit _ _ _ Hm)).
  rewrite (bind_ok0 _ _ _ _ _ (position_ok (n + 1) (ux ++ rest) ltac:(lens; lia))).
  rewrite (bind_ok0 _ _ _ _ _ (expression_ok code ux e rest G R)). reflexivity.
Qed.
Lemma opt_part_ok k n u p c rest : opt_part k n u p c -> ends rest -> hd_is k rest = false -> n + length (u ++ rest) = total ->
  exists o, is_part total k [] (u ++ rest) = Ok [] o rest /\ or_default o = (p, c).
Proof.
  intros H R M Hn. destruct H as [|u p c H].
  - exists None. split; [|reflexivity]. cbn [app]. unfold is_part. rewrite (bind_ok0 _ _ _ _ _ (token_miss _ _ M)). reflexivity.
  - exists (Some (p, c)). split; [|reflexivity]. exact (part_ok k [] n u p c rest H R Hn).
Qed.
Lemma define_head n u p c rest : opt_define_expression n u p c -> ends rest -> hd_is colon_k rest = false ->
  ends (u ++ rest) /\ hd_is colon_k (u ++ rest) = false.
Proof.
  intros H R C. destruct H as [|u p c [m ux e Hm G]]; [auto|]. cbn [app ends]. rewrite Hm. split; [reflexivity|]. eapply hd_is_name; eauto.
Qed.
Lemma names_ok u ns : names u ns -> forall old m rest, hd_is comma_k rest = false -> length (tl u ++ rest) < m ->
  match u with [] => False | t :: u' => exists a ns', t = ident a /\ ns = a :: ns' /\ names_loop m (old ++ [a]) (u' ++ rest) = Ok [] (old ++ ns) rest end.
Proof.
  induction 1 as [a|a comma u ns Hc N IH]; intros old m rest R Hm.
  - exists a, []. split; [reflexivity|]. split; [reflexivity|]. cbn [app tl] in *. destruct m as [|m]; [lens; lia|]. cbn [names_loop].
    rewrite (bind_ok0 _ _ _ _ _ (token_miss _ _ R)). reflexivity.
  - exists a, ns. split; [reflexivity|]. split; [reflexivity|]. cbn [tl] in Hm. destruct m as [|m]; [lens; lia|]. cbn [names_loop app].
    rewrite (bind_ok0 _ _ _ _ _ (token_hit _ _ _ Hc)). specialize (IH (old ++ [a]) m rest R ltac:(destruct u; cbn [tl] in *; lens; lia)).
    destruct u as [|t u]; [contradiction|]. destruct IH as (a' & ns' & -> & -> & E). cbn [app] in *.
    rewrite (bind_ok0 _ _ _ _ _ (identifier_hit a' (u ++ rest))). rewrite E, <- app_assoc. reflexivity.
Qed.
Lemma names_head u ns rest : names u ns -> hd_is lead_comment_k (u ++ rest) = false.
Proof. intros []; reflexivity. Qed.
Lemma relate_expression_ok r n u w rest : relate_expression n u w -> hd_is trail_comment_k rest = false -> n + length (u ++ rest) = total ->
  is_relate_expression_decl total r (u ++ rest) = Ok [] (true, merged r w) rest.
Proof.
  intros [ul d un ns ud p c ue b Cd N D Ee] R Hn. unfold is_relate_expression_decl. rewrite <- !app_assoc in *.
  rewrite (bind_ok0 _ _ _ _ _ (comment_ok _ _ _ _ _ Cd (names_head _ _ (ud ++ ue ++ rest) N))).
  destruct (end_head ue b rest Ee) as (R1 & R2 & R3 & R4).
  assert (RC : hd_is comma_k (ud ++ ue ++ rest) = false).
  { destruct D as [m ux e Hm G]. cbn [app]. eapply hd_is_name; eauto. }
  pose proof (names_ok un ns N (r_names r) (S (length (tl un ++ ud ++ ue ++ rest))) (ud ++ ue ++ rest) RC ltac:(lia)) as NM.
  destruct un as [|t un]; [contradiction|]. cbn [tl] in NM. destruct NM as (a & ns' & -> & -> & EN). cbn [app].
  change (names_loop (S (length (un ++ ud ++ ue ++ rest))) (r_names r ++ [a]) (un ++ ud ++ ue ++ rest)) with (more_names (r_names r ++ [a]) (un ++ ud ++ ue ++ rest)) in EN.
  rewrite (bind_ok0 _ _ _ _ _ (identifier_hit a (un ++ ud ++ ue ++ rest))). rewrite (bind_ok0 _ _ _ _ _ EN).
  unfold is_define_expression. rewrite (bind_ok0 _ _ _ _ _ (part_ok is_k (r_code r) _ ud p c (ue ++ rest) D R1 ltac:(lens; lia))).
  rewrite (bind_ok0 _ _ _ _ _ (end_ok (r_brief r) ue b rest Ee R)). reflexivity.
Qed.
Lemma relate_expression_no r u d rest : opt_comment lead_comment_k u d -> hd_is lead_comment_k rest = false -> hd_is identifier_k rest = false ->
  exists r', is_relate_expression_decl total r (u ++ rest) = Ok [] (false, r') rest.
Proof.
  intros C L I. unfold is_relate_expression_decl. rewrite (bind_ok0 _ _ _ _ _ (comment_ok _ _ _ _ _ C L)).
  rewrite (bind_ok0 _ _ _ _ _ (identifier_miss _ I)). eexists. reflexivity.
Qed.
Lemma relate_expression_head n u w rest k : relate_expression n u w -> k <> lead_comment_k -> k <> identifier_k -> hd_is k (u ++ rest) = false.
Proof.
  intros [ul d un ns ud p c ue b Cd N D Ee] H1 H2. destruct Cd as [|s]; [destruct N|]; cbn [app]; apply hd_is_other; cbn [t_name ident]; congruence.
Qed.
Lemma relate_expressions_head n u ws rest k : relate_expressions n u ws -> k <> lead_comment_k -> k <> identifier_k -> hd_is k rest = false -> hd_is k (u ++ rest) = false.
Proof.
  intros [|n' u' w us ws' H] H1 H2 R; [exact R|]. rewrite <- app_assoc. eapply relate_expression_head; eassumption.
Qed.
Lemma relate_expression_len n u w : relate_expression n u w -> 0 < length u.
Proof. intros [ul d un ns ud p c ue b Cd N D Ee]. destruct N; lens; lia. Qed.

Section Reset.
Variable reset : relation -> relation.
Variable denotes : list written -> list relation -> Prop.
Hypothesis Hden : forall ws rs, 2 <= length ws -> denotes ws rs -> handed reset ws rs.

Lemma relations_loop_ok n u ws : relate_expressions n u ws -> forall m r rs ul d rest, opt_comment lead_comment_k ul d ->
  hd_is lead_comment_k rest = false -> hd_is identifier_k rest = false -> hd_is trail_comment_k rest = false ->
  n + length (u ++ ul ++ rest) = total -> length (u ++ ul ++ rest) < m ->
  relations_loop total reset m r rs (u ++ ul ++ rest) = Ok [] (rs ++ carried reset r ws) rest.
Proof.
  induction 1 as [n|n u w us ws H Hs IH]; intros m r rs ul d rest C R1 R2 R3 Hn Hm; (destruct m as [|m]; [lia|]); cbn [relations_loop].
  - cbn [app]. destruct (relate_expression_no r ul d rest C R1 R2) as [r' E]. rewrite (bind_ok0 _ _ _ _ _ E). cbn [carried]. rewrite app_nil_r. reflexivity.
  - rewrite <- app_assoc in *. pose proof (relate_expression_len _ _ _ H) as L.
    assert (T : hd_is trail_comment_k (us ++ ul ++ rest) = false).
    { eapply relate_expressions_head; [exact Hs|discriminate|discriminate|]. destruct C; [exact R3|reflexivity]. }
    rewrite (bind_ok0 _ _ _ _ _ (relate_expression_ok r n u w (us ++ ul ++ rest) H T Hn)).
    rewrite (IH m (reset (merged r w)) (rs ++ [merged r w]) ul d rest C R1 R2 R3); [|lens; lia|lens; lia].
    cbn [carried]. rewrite <- app_assoc. reflexivity.
Qed.
Lemma leftover_opt u : leftover false u -> exists d, opt_comment lead_comment_k u d.
Proof. intros [|s _]; [exists None; constructor|exists (Some s); constructor]. Qed.
Lemma two_relations n u ws : relate_expressions n u ws -> 2 <= length ws ->
  exists u1 w1 u2 w2 us ws', u = u1 ++ u2 ++ us /\ ws = w1 :: w2 :: ws' /\ relate_expression n u1 w1 /\
    relate_expression (n + length u1) u2 w2 /\ relate_expressions (n + length u1 + length u2) us ws'.
Proof.
  intros R H2. inversion R as [n0|n0 u1 w1 us1 ws1 G1 R1]; subst; [cbn [length] in H2; lia|]. inversion R1 as [n1|n1 u2 w2 us2 ws2 G2 R2]; subst; [cbn [length] in H2; lia|].
  exists u1, w1, u2, w2, us2, ws2. auto.
Qed.
(** "{" relate_expression ... "}" [trail_comment], with the condition read before *)
Lemma relate_body_ok oc n o us ws rs ul c ut b rest :
  t_name o = open_brace_k -> relate_expressions (n + 1) us ws -> 2 <= length ws -> denotes ws rs -> leftover false ul ->
  t_name c = close_brace_k -> opt_comment trail_comment_k ut b -> hd_is trail_comment_k rest = false ->
  n + length (o :: us ++ ul ++ c :: ut ++ rest) = total ->
  bind (match oc with None => next_position total | Some (p, _) => ret p end) (fun p =>
    require (token_ open_brace_k) ;;;
    x1 <- is_relate_expression_decl total new_relation ;;
    let (b1, r1) := x1 in
    if b1 then
      x2 <- is_relate_expression_decl total new_relation ;;
      let (b2, r2) := x2 in
      if b2 then
        rs <- more_relations total reset (reset r1) [r1; r2] ;;
        require (token_ close_brace_k) ;;;
        brief <- comment trail_comment_k "" ;;
        ret (Some (p, snd (or_default oc), rs, brief))
      else throw
    else throw) (o :: us ++ ul ++ c :: ut ++ rest) =
  Ok [] (Some (match oc with None => Some n | Some (p, _) => p end, snd (or_default oc), rs, text b)) rest.
Proof.
  intros Ho R H2 Hr L Hc Ct T Hn. rewrite (bind_ok0 _ _ _ (match oc with None => Some n | Some (p, _) => p end) (o :: us ++ ul ++ c :: ut ++ rest)).
  2:{ destruct oc as [[p x]|]; [reflexivity|]. apply position_ok. exact Hn. }
  rewrite (bind_ok0 _ _ _ _ _ (require_ok _ _ _ (token_hit _ _ _ Ho))).
  destruct (two_relations _ _ _ R H2) as (u1 & w1 & u2 & w2 & us2 & ws2 & -> & -> & G1 & G2 & R2).
  apply (Hden _ _ H2) in Hr. cbn [handed] in Hr. subst rs. destruct (leftover_opt ul L) as [d Cd]. rewrite <- !app_assoc in *.
  assert (RC : forall k, k <> close_brace_k -> hd_is k (c :: ut ++ rest) = false) by (intros k K; apply hd_is_other; congruence).
  assert (TL : hd_is trail_comment_k (us2 ++ ul ++ c :: ut ++ rest) = false).
  { eapply relate_expressions_head; [exact R2|discriminate|discriminate|]. destruct Cd; [apply RC; discriminate|reflexivity]. }
  rewrite (bind_ok0 _ _ _ _ _ (relate_expression_ok new_relation (n + 1) u1 w1 (u2 ++ us2 ++ ul ++ c :: ut ++ rest) G1 (relate_expression_head _ _ _ _ trail_comment_k G2 ltac:(discriminate) ltac:(discriminate)) ltac:(lens; lia))).
  rewrite (bind_ok0 _ _ _ _ _ (relate_expression_ok new_relation (n + 1 + length u1) u2 w2 (us2 ++ ul ++ c :: ut ++ rest) G2 TL ltac:(lens; lia))).
  rewrite !merged_new.
  assert (ML : more_relations total reset (reset (as_written w1)) [as_written w1; as_written w2] (us2 ++ ul ++ c :: ut ++ rest) =
    Ok [] ([as_written w1; as_written w2] ++ carried reset (reset (as_written w1)) ws2) (c :: ut ++ rest)).
  { unfold more_relations. eapply (relations_loop_ok (n + 1 + length u1 + length u2)); [exact R2|exact Cd|apply RC; discriminate|apply RC; discriminate|apply RC; discriminate|lens; lia|lens; lia]. }
  rewrite (bind_ok0 _ _ _ _ _ ML). rewrite (bind_ok0 _ _ _ _ _ (require_ok _ _ _ (token_hit _ _ _ Hc))).
  rewrite (bind_ok0 _ _ _ _ _ (comment_ok _ "" _ _ _ Ct T)). reflexivity.
Qed.
Lemma relate_decl_ok n u p c rs b rest : relate_decl false denotes n u p c rs b -> hd_is trail_comment_k rest = false ->
  n + length (u ++ rest) = total -> is_relate_decl total reset (u ++ rest) = Ok [] (Some (p, c, rs, text b)) rest.
Proof.
  intros H T Hn. unfold is_relate_decl. destruct H as [o us ws rs ul c ut b Ho R H2 D L Hc Ct|op ux e cp o us ws rs ul c ut b Hop G Hcp Ho R H2 D L Hc Ct]; cbn [app] in *.
  - assert (NC : is_conditional_decl total (kw "relate" :: o :: (us ++ ul ++ c :: ut) ++ rest) = Ok [] None (kw "relate" :: o :: (us ++ ul ++ c :: ut) ++ rest)).
    { unfold is_conditional_decl. rewrite (bind_ok0 _ _ _ _ _ (keyword_miss "when" (kw "relate" :: o :: (us ++ ul ++ c :: ut) ++ rest) ltac:(cbn [hd_kw]; unfold kw; congruence))). reflexivity. }
    rewrite (bind_ok0 _ _ _ _ _ NC). rewrite (bind_ok0 _ _ _ _ _ (keyword_hit "relate" (o :: (us ++ ul ++ c :: ut) ++ rest))).
    replace ((us ++ ul ++ c :: ut) ++ rest) with (us ++ ul ++ c :: ut ++ rest) in * by (rewrite <- !app_assoc; reflexivity).
    refine (relate_body_ok None (n + 1) o us ws rs ul c ut b rest Ho _ H2 D L Hc Ct T _); [|lens; lia].
    replace (n + 1 + 1) with (n + 2) by lia. exact R.
  - rewrite <- app_assoc in *. cbn [app] in *. rewrite <- app_assoc in *. cbn [app] in *.
    replace ((ul ++ c :: ut) ++ rest) with (ul ++ c :: ut ++ rest) in * by (rewrite <- !app_assoc; reflexivity).
    assert (NC : forall x, n + length (kw "when" :: op :: ux ++ cp :: x) = total ->
      is_conditional_decl total (kw "when" :: op :: ux ++ cp :: x) = Ok [] (Some (Some (n + 2), compile e)) x).
    { intros x Hx. unfold is_conditional_decl. rewrite (bind_ok0 _ _ _ _ _ (keyword_hit "when" _)).
      rewrite (bind_ok0 _ _ _ _ _ (require_ok _ _ _ (token_hit _ _ _ Hop))).
      rewrite (bind_ok0 _ _ _ _ _ (position_ok (n + 2) (ux ++ cp :: x) ltac:(lens; lia))).
      rewrite (bind_ok0 _ _ _ _ _ (expression_ok [] ux e (cp :: x) G ltac:(cbn [ends]; rewrite Hcp; reflexivity))).
      rewrite (bind_ok0 _ _ _ _ _ (require_ok _ _ _ (token_hit _ _ _ Hcp))). reflexivity. }
    rewrite (bind_ok0 _ _ _ _ _ (NC _ Hn)). rewrite (bind_ok0 _ _ _ _ _ (keyword_hit "relate" _)).
    refine (relate_body_ok (Some (Some (n + 2), compile e)) (n + 2 + length ux + 2) o us ws rs ul c ut b rest Ho _ H2 D L Hc Ct T _); [|lens; lia].
    replace (n + 2 + length ux + 2 + 1) with (n + 2 + length ux + 3) by lia. exact R.
Qed.

Notation decl := (declaration false denotes).
Notation cell := (cell total reset).
Lemma named_decl_ok n name ud p c ue b rest : define_expression (n + 1) ud p c -> end_statement ue b -> hd_is trail_comment_k rest = false ->
  n + length ((ident name :: ud ++ ue) ++ rest) = total ->
  is_named_decl total ((ident name :: ud ++ ue) ++ rest) = Ok [] (Some (name, p, c, text b)) rest.
Proof.
  intros D E T Hn. unfold is_named_decl. cbn [app] in *. rewrite <- app_assoc in *. rewrite (bind_ok0 _ _ _ _ _ (identifier_hit name (ud ++ ue ++ rest))).
  destruct (end_head ue b rest E) as (R1 & _). unfold is_define_expression.
  rewrite (bind_ok0 _ _ _ _ _ (part_ok is_k [] _ ud p c (ue ++ rest) D R1 ltac:(lens; lia))).
  rewrite (bind_ok0 _ _ _ _ _ (end_ok "" ue b rest E T)). reflexivity.
Qed.
Lemma relate_not_ident n u p c rs b rest : relate_decl false denotes n u p c rs b -> hd_is identifier_k (u ++ rest) = false.
Proof. intros []; reflexivity. Qed.
Lemma cell_ok n d s u ev rest : decl n d s u ev -> follow rest -> n + length (u ++ rest) = total ->
  cell s (text d) (u ++ rest) = Ok [ev] true rest.
Proof.
  intros H F Hn. assert (T : hd_is trail_comment_k rest = false) by (apply follow_not; [exact F|discriminate..]).
  destruct H as [ul l name ui ip ic ud dp dc ue b U I D E|name ui ip ic ue b I E|name ui ip ic ue b I E|s t name ud dp dc ue b S D E|u p c rs b R|name ue b E].
  - cbn [Decl_Sound.cell]. unfold is_interface_cell_decl. rewrite <- app_assoc in *. cbn [app] in *. rewrite <- !app_assoc in *.
    destruct (end_head ue b rest E) as (R1 & R2 & R3 & _). destruct (define_head _ _ _ _ _ D R1 R2) as [R4 R5].
    assert (UK : keyword "unlink" (ul ++ ident name :: ui ++ ud ++ ue ++ rest) = Ok [] (negb l) (ident name :: ui ++ ud ++ ue ++ rest)).
    { destruct U; [apply keyword_miss; cbn; discriminate|apply keyword_hit]. }
    rewrite (bind_ok0 _ _ _ _ _ UK). rewrite (bind_ok0 _ _ _ _ _ (identifier_hit name (ui ++ ud ++ ue ++ rest))).
    destruct (opt_part_ok _ _ _ _ _ (ud ++ ue ++ rest) I R4 R5 ltac:(lens; lia)) as (oi & Ei & Oi).
    destruct (opt_part_ok _ _ _ _ _ (ue ++ rest) D R1 R3 ltac:(lens; lia)) as (od & Ed & Od).
    unfold is_initializer, is_define_expression. rewrite (bind_ok0 _ _ _ _ _ Ei). rewrite (bind_ok0 _ _ _ _ _ Ed).
    rewrite (bind_ok0 _ _ _ _ _ (end_ok "" ue b rest E T)). rewrite Oi, Od. cbn. rewrite Bool.negb_involutive. reflexivity.
  - cbn [Decl_Sound.cell]. unfold is_input_cell_decl. cbn [app] in *. rewrite <- !app_assoc in *.
    destruct (end_head ue b rest E) as (R1 & R2 & R3 & _). rewrite (bind_ok0 _ _ _ _ _ (identifier_hit name (ui ++ ue ++ rest))).
    destruct (opt_part_ok _ _ _ _ _ (ue ++ rest) I R1 R2 ltac:(lens; lia)) as (oi & Ei & Oi).
    unfold is_initializer. rewrite (bind_ok0 _ _ _ _ _ Ei). rewrite (bind_ok0 _ _ _ _ _ (end_ok "" ue b rest E T)). rewrite Oi. reflexivity.
  - cbn [Decl_Sound.cell]. unfold is_constant_cell_decl. cbn [app] in *. rewrite <- !app_assoc in *.
    destruct (end_head ue b rest E) as (R1 & R2 & R3 & _). rewrite (bind_ok0 _ _ _ _ _ (identifier_hit name (ui ++ ue ++ rest))).
    unfold is_initializer. rewrite (bind_ok0 _ _ _ _ _ (part_ok colon_k [] _ ui ip ic (ue ++ rest) I R1 ltac:(lens; lia))).
    rewrite (bind_ok0 _ _ _ _ _ (end_ok "" ue b rest E T)). reflexivity.
  - destruct s; cbn [named_cell] in S; try discriminate; injection S as <-; cbn [Decl_Sound.cell];
      [unfold is_named_cell_decl|unfold is_logic_cell_decl|unfold is_named_cell_decl];
      rewrite (bind_ok0 _ _ _ _ _ (named_decl_ok n name ud dp dc ue b rest D E T Hn)); reflexivity.
  - cbn [Decl_Sound.cell]. unfold is_logic_cell_decl.
    assert (ND : is_named_decl total (u ++ rest) = Ok [] None (u ++ rest)).
    { unfold is_named_decl. rewrite (bind_ok0 _ _ _ _ _ (identifier_miss _ (relate_not_ident _ _ _ _ _ _ rest R))). reflexivity. }
    rewrite (bind_ok0 _ _ _ _ _ ND). rewrite (bind_ok0 _ _ _ _ _ (relate_decl_ok n u p c rs b rest R T Hn)). reflexivity.
  - cbn [Decl_Sound.cell]. unfold is_external_cell_decl. cbn [app] in *. rewrite (bind_ok0 _ _ _ _ _ (position_ok n (ident name :: ue ++ rest) Hn)).
    rewrite (bind_ok0 _ _ _ _ _ (identifier_hit name (ue ++ rest))). rewrite (bind_ok0 _ _ _ _ _ (end_ok "" ue b rest E T)). reflexivity.
Qed.
Lemma named_none rest : stop rest -> is_named_decl total rest = Ok [] None rest.
Proof. intros S. unfold is_named_decl. rewrite (bind_ok0 _ _ _ _ _ (identifier_miss _ (stop_not identifier_k rest S ltac:(discriminate) ltac:(discriminate)))). reflexivity. Qed.
Lemma cell_no s d rest : stop rest -> cell s d rest = Ok [] false rest.
Proof.
  intros S. assert (I : is_identifier rest = Ok [] None rest) by (apply identifier_miss, stop_not; [exact S|discriminate|discriminate]).
  destruct s; cbn [Decl_Sound.cell].
  - unfold is_interface_cell_decl. rewrite (bind_ok0 _ _ _ _ _ (keyword_miss "unlink" rest (stop_kw "unlink" _ S ltac:(auto)))). rewrite (bind_ok0 _ _ _ _ _ I). reflexivity.
  - unfold is_input_cell_decl. rewrite (bind_ok0 _ _ _ _ _ I). reflexivity.
  - unfold is_named_cell_decl. rewrite (bind_ok0 _ _ _ _ _ (named_none _ S)). reflexivity.
  - unfold is_constant_cell_decl. rewrite (bind_ok0 _ _ _ _ _ I). reflexivity.
  - unfold is_logic_cell_decl. rewrite (bind_ok0 _ _ _ _ _ (named_none _ S)).
    assert (N : is_relate_decl total reset rest = Ok [] None rest).
    { unfold is_relate_decl. assert (C : is_conditional_decl total rest = Ok [] None rest).
      { unfold is_conditional_decl. rewrite (bind_ok0 _ _ _ _ _ (keyword_miss "when" rest (stop_kw "when" _ S ltac:(auto)))). reflexivity. }
      rewrite (bind_ok0 _ _ _ _ _ C). rewrite (bind_ok0 _ _ _ _ _ (keyword_miss "relate" rest (stop_kw "relate" _ S ltac:(auto)))). reflexivity. }
    rewrite (bind_ok0 _ _ _ _ _ N). reflexivity.
  - unfold is_named_cell_decl. rewrite (bind_ok0 _ _ _ _ _ (named_none _ S)). reflexivity.
  - unfold is_external_cell_decl. unfold bind at 1. cbn [next_position after]. rewrite (bind_ok0 _ _ _ _ _ I). reflexivity.
Qed.
Lemma unlink_no d rest : stop rest -> cell interface_s d (kw "unlink" :: rest) = Ok [] false rest.
Proof.
  intros S. cbn [Decl_Sound.cell]. unfold is_interface_cell_decl. rewrite (bind_ok0 _ _ _ _ _ (keyword_hit "unlink" rest)).
  rewrite (bind_ok0 _ _ _ _ _ (identifier_miss _ (stop_not identifier_k rest S ltac:(discriminate) ltac:(discriminate)))). reflexivity.
Qed.
Definition turn (s : section) : P bool := detailed <- comment lead_comment_k "" ;; cell s detailed.
Lemma decl_head n d s u ev rest k : decl n d s u ev -> k <> keyword_k -> k <> identifier_k -> hd_is k (u ++ rest) = false.
Proof.
  intros H H1 H2. destruct H as [ul l name ui ip ic ud dp dc ue b U I D E|name ui ip ic ue b I E|name ui ip ic ue b I E|s t name ud dp dc ue b S D E|u p c rs b R|name ue b E];
    try (cbn [app]; apply hd_is_other; cbn [t_name ident]; congruence).
  - destruct U; cbn [app]; apply hd_is_other; cbn [t_name ident kw]; congruence.
  - destruct R; cbn [app]; apply hd_is_other; cbn [t_name ident kw]; congruence.
Qed.
Lemma turn_ok n s ul d u ev rest : opt_comment lead_comment_k ul d -> decl (n + length ul) d s u ev -> follow rest ->
  n + length (ul ++ u ++ rest) = total -> turn s (ul ++ u ++ rest) = Ok [ev] true rest.
Proof.
  intros C D F Hn. unfold turn.
  rewrite (bind_ok0 _ _ _ _ _ (comment_ok lead_comment_k "" ul d (u ++ rest) C (decl_head _ _ _ _ _ rest lead_comment_k D ltac:(discriminate) ltac:(discriminate)))).
  apply (cell_ok (n + length ul) d s u ev rest D F). lens. lia.
Qed.
Lemma turn_no s ul rest : section_leftover false s ul -> stop rest -> turn s (ul ++ rest) = Ok [] false rest.
Proof.
  intros L S. assert (T : hd_is lead_comment_k rest = false) by (apply stop_not; [exact S|discriminate|discriminate]).
  unfold turn. destruct L as [s u L|u _ L]; destruct (leftover_opt u L) as [d C].
  - rewrite (bind_ok0 _ _ _ _ _ (comment_ok lead_comment_k "" u d rest C T)). apply cell_no. exact S.
  - rewrite <- app_assoc. cbn [app]. rewrite (bind_ok0 _ _ _ _ _ (comment_ok lead_comment_k "" u d (kw "unlink" :: rest) C eq_refl)). apply unlink_no. exact S.
Qed.
Lemma declarations_follow n s us evs rest : declarations false denotes n s us evs -> follow rest -> follow (us ++ rest).
Proof.
  intros [|n' s' ul d u ev us' evs' C D] F; [exact F|]. destruct C; cbn [app follow t_name]; [|auto]. rewrite <- app_assoc.
  destruct D as [ul l name ui ip ic ud dp dc ue b U I D E|name ui ip ic ue b I E|name ui ip ic ue b I E|s0 t name ud dp dc ue b S D E|u p c rs b R|name ue b E];
    try (cbn [app follow t_name ident]; auto).
  - destruct U; cbn [app follow t_name ident kw]; auto.
  - destruct R; cbn [app follow t_name ident kw]; auto.
Qed.
Lemma leftover_follow s ul rest : section_leftover false s ul -> stop rest -> follow (ul ++ rest).
Proof.
  intros L S. destruct L as [s u L|u _ L]; destruct L as [|t _]; cbn [app follow t_name kw]; auto. apply stop_follow. exact S.
Qed.
Lemma decl_len n d s u ev : decl n d s u ev -> 0 < length u.
Proof. intros H. destruct u; [|cbn [length]; lia]. elim (declaration_nonempty _ _ _ _ _ _ H eq_refl). Qed.
Lemma turns_ok n s us evs : declarations false denotes n s us evs -> forall m ul rest, section_leftover false s ul -> stop rest ->
  n + length (us ++ ul ++ rest) = total -> length (us ++ ul ++ rest) < m ->
  while_fuel m (turn s) (us ++ ul ++ rest) = Ok evs tt rest.
Proof.
  induction 1 as [n s|n s ul1 d u ev us evs C D H IH]; intros m ul rest L S Hn Hm; (destruct m as [|m]; [lia|]); cbn [while_fuel].
  - cbn [app]. rewrite (bind_ok0 _ _ _ _ _ (turn_no s ul rest L S)). reflexivity.
  - rewrite <- !app_assoc in *. pose proof (decl_len _ _ _ _ _ D).
    rewrite (bind_ok _ _ _ _ _ _ (turn_ok n s ul1 d u ev (us ++ ul ++ rest) C D (declarations_follow _ _ _ _ _ H (leftover_follow _ _ _ L S)) Hn)).
    rewrite (IH m ul rest L S); [reflexivity|lens; lia|lens; lia].
Qed.
Lemma set_ok s n c us evs ul rest : t_name c = colon_k -> declarations false denotes (n + 2) s us evs -> section_leftover false s ul -> stop rest ->
  n + length (kw (section_name s) :: c :: us ++ ul ++ rest) = total ->
  is_set_decl (section_name s) (cell s) (kw (section_name s) :: c :: us ++ ul ++ rest) = Ok evs true rest.
Proof.
  intros Hc D L St Hn. unfold is_set_decl. rewrite (bind_ok0 _ _ _ _ _ (keyword_hit (section_name s) _)).
  rewrite (bind_ok0 _ _ _ _ _ (require_ok _ _ _ (token_hit _ _ _ Hc))).
  change (detailed <- comment lead_comment_k "" ;; cell s detailed) with (turn s).
  assert (W : while (turn s) (us ++ ul ++ rest) = Ok evs tt rest).
  { apply (turns_ok (n + 2) s us evs D (S (length (us ++ ul ++ rest))) ul rest L St); lens; lia. }
  rewrite (bind_ok _ _ _ _ _ _ W).
  cbn [after ret]. rewrite app_nil_r. reflexivity.
Qed.
Lemma set_no s rest : ~ hd_kw (section_name s) rest -> is_set_decl (section_name s) (cell s) rest = Ok [] false rest.
Proof. intros H. unfold is_set_decl. rewrite (bind_ok0 _ _ _ _ _ (keyword_miss _ _ H)). reflexivity. Qed.
Fixpoint sets_of (ss : list section) : P bool :=
  match ss with
  | [] => ret false
  | [s] => is_set_decl (section_name s) (cell s)
  | s :: ss => or_p (is_set_decl (section_name s) (cell s)) (sets_of ss)
  end.
Lemma section_name_inj s s' : section_name s = section_name s' -> s = s'.
Proof. destruct s, s'; cbn; congruence. Qed.
Lemma sets_of_cons s s' ss : sets_of (s :: s' :: ss) = or_p (is_set_decl (section_name s) (cell s)) (sets_of (s' :: ss)).
Proof. reflexivity. Qed.
Lemma sets_of_ok ss s n c us evs ul rest : In s ss -> t_name c = colon_k -> declarations false denotes (n + 2) s us evs -> section_leftover false s ul -> stop rest ->
  n + length (kw (section_name s) :: c :: us ++ ul ++ rest) = total ->
  sets_of ss (kw (section_name s) :: c :: us ++ ul ++ rest) = Ok evs true rest.
Proof.
  intros I Hc D L S Hn. pose proof (set_ok s n c us evs ul rest Hc D L S Hn) as K. revert I. induction ss as [|s0 ss IH]; [intros []|].
  assert (X : s0 = s \/ s0 <> s) by (destruct s0, s; (left; reflexivity) || (right; discriminate)). destruct X as [->|X]; intros I.
  - destruct ss as [|s1 ss]; [exact K|]. rewrite sets_of_cons. unfold or_p. rewrite (bind_ok _ _ _ _ _ _ K). cbn [after ret]. rewrite app_nil_r. reflexivity.
  - destruct I as [I|I]; [congruence|]. destruct ss as [|s1 ss]; [destruct I|]. rewrite sets_of_cons. unfold or_p.
    assert (NK : ~ hd_kw (section_name s0) (kw (section_name s) :: c :: us ++ ul ++ rest)).
    { cbn [hd_kw]. unfold kw. intros E. injection E as E. apply section_name_inj in E. congruence. }
    rewrite (bind_ok0 _ _ _ _ _ (set_no s0 _ NK)).
    apply IH. exact I.
Qed.
Definition past (ss : list section) (ts : list token) : Prop := forall s, In s ss -> ~ hd_kw (section_name s) ts.
Lemma sets_of_no ss rest : past ss rest -> sets_of ss rest = Ok [] false rest.
Proof.
  induction ss as [|s ss IH]; intros H; [reflexivity|]. pose proof (set_no s rest (H s (or_introl eq_refl))) as K.
  destruct ss as [|s1 ss]; [exact K|]. rewrite sets_of_cons. unfold or_p. rewrite (bind_ok0 _ _ _ _ _ K). apply IH. intros s2 I. apply H. right. exact I.
Qed.
Lemma set_decls_stop ss n us evs rest : set_decls false denotes ss n us evs -> stop rest -> stop (us ++ rest).
Proof.
  intros [|n' u evs1 us' evss H]; [auto|]. intros _. destruct H as [s c us1 evs1 ul I]. cbn [app stop]. right. exists (section_name s). split; [reflexivity|].
  destruct s; repeat split; discriminate.
Qed.
Lemma sets_while_ok ss n us evs : set_decls false denotes ss n us evs -> forall m rest, stop rest -> past ss rest ->
  n + length (us ++ rest) = total -> length (us ++ rest) < m -> while_fuel m (sets_of ss) (us ++ rest) = Ok evs tt rest.
Proof.
  induction 1 as [n|n u evs us evss H Hs IH]; intros m rest S Pa Hn Hm; (destruct m as [|m]; [lia|]); cbn [while_fuel].
  - cbn [app]. rewrite (bind_ok0 _ _ _ _ _ (sets_of_no ss rest Pa)). reflexivity.
  - destruct H as [s c us1 evs1 ul I Hc D L]. rewrite <- app_assoc in *. cbn [app] in *. rewrite <- app_assoc in *.
    rewrite (bind_ok _ _ _ _ _ _ (sets_of_ok ss s n c us1 evs1 ul (us ++ rest) I Hc D L (set_decls_stop _ _ _ _ _ Hs S) Hn)).
    rewrite (IH m rest S Pa); [reflexivity|lens; lia|lens; lia].
Qed.
End Reset.

(** *** Sheets *)
Lemma adam_denotes ws rs : 2 <= length ws -> faithful ws rs -> handed adam_reset ws rs.
Proof.
  intros H ->. destruct ws as [|w1 [|w2 ws]]; cbn [length] in H; [lia|lia|]. cbn [handed map]. rewrite adam_carried by reflexivity. reflexivity.
Qed.
Lemma adam_qualified_eq : adam_qualified_cell_decl total = sets_of adam_reset adam_sections.
Proof. reflexivity. Qed.
Lemma close_stop c ts : t_name c = close_brace_k -> stop (c :: ts).
Proof. intros H. left. exact H. Qed.
Lemma close_past ss c ts : t_name c = close_brace_k -> past ss (c :: ts).
Proof. intros H s _. apply hd_kw_name. rewrite H. discriminate. Qed.
Lemma adam_sets_ok n us evs c ts : set_decls false faithful adam_sections n us evs -> t_name c = close_brace_k ->
  n + length (us ++ c :: ts) = total -> while (adam_qualified_cell_decl total) (us ++ c :: ts) = Ok evs tt (c :: ts).
Proof.
  intros D Hc Hn. unfold while. rewrite adam_qualified_eq.
  apply (sets_while_ok adam_reset faithful adam_denotes adam_sections n us evs D); [apply close_stop; exact Hc|apply close_past; exact Hc|exact Hn|lia].
Qed.
Lemma token_comment_ok k u o rest : opt_comment k u o -> hd_is k rest = false -> exists b, token_ k (u ++ rest) = Ok [] b rest.
Proof.
  intros [|s] R; [exists false; cbn [app]; apply token_miss; exact R|exists true; apply token_hit; reflexivity].
Qed.
Lemma sheet_ok n u evs rest : sheet_specifier false faithful n u evs -> hd_is trail_comment_k rest = false -> n + length (u ++ rest) = total ->
  is_sheet_specifier total (u ++ rest) = Ok evs true rest.
Proof.
  intros [ul d name o us evs' c ut b Cd Ho D Hc Ct] R Hn. unfold is_sheet_specifier.
  assert (E : (ul ++ kw "sheet" :: ident name :: o :: us ++ c :: ut) ++ rest = ul ++ kw "sheet" :: ident name :: o :: us ++ c :: ut ++ rest).
  { repeat (rewrite <- app_assoc; cbn [app]). reflexivity. }
  rewrite E in *. clear E.
  destruct (token_comment_ok lead_comment_k ul d (kw "sheet" :: ident name :: o :: us ++ c :: ut ++ rest) Cd eq_refl) as [b1 E1].
  rewrite (bind_ok0 _ _ _ _ _ E1). rewrite (bind_ok0 _ _ _ _ _ (keyword_hit "sheet" _)).
  rewrite (bind_ok0 _ _ _ _ _ (identifier_hit name _)). rewrite (bind_ok0 _ _ _ _ _ (require_ok _ _ _ (token_hit _ _ _ Ho))).
  assert (W : while (adam_qualified_cell_decl total) (us ++ c :: ut ++ rest) = Ok evs' tt (c :: ut ++ rest)).
  { apply (adam_sets_ok (n + length ul + 3)); [exact D|exact Hc|lens; lia]. }
  rewrite (bind_ok _ _ _ _ _ _ W). rewrite (bind_ok0 _ _ _ _ _ (require_ok _ _ _ (token_hit _ _ _ Hc))).
  destruct (token_comment_ok trail_comment_k ut b rest Ct R) as [b2 E2]. rewrite (bind_ok0 _ _ _ _ _ E2). cbn [ret after]. rewrite app_nil_r. reflexivity.
Qed.
Lemma no_sheet ul rest : leftover false ul -> hd_is lead_comment_k rest = false -> ~ hd_kw "sheet" rest ->
  is_sheet_specifier total (ul ++ rest) = Ok [] false rest.
Proof.
  intros L R K. destruct (leftover_opt ul L) as [d C]. destruct (token_comment_ok lead_comment_k ul d rest C R) as [b1 E1].
  unfold is_sheet_specifier. rewrite (bind_ok0 _ _ _ _ _ E1). rewrite (bind_ok0 _ _ _ _ _ (keyword_miss "sheet" rest K)). reflexivity.
Qed.
Lemma sheets_head n us evs rest : sheet_specifiers false faithful n us evs -> hd_is trail_comment_k rest = false -> hd_is trail_comment_k (us ++ rest) = false.
Proof.
  intros [|n' u e us' es [ul d name o us1 evs' c ut b Cd]] R; [exact R|]. destruct Cd; reflexivity.
Qed.
Lemma sheets_ok n us evs : sheet_specifiers false faithful n us evs -> forall m ul, leftover false ul ->
  n + length (us ++ ul) = total -> length (us ++ ul) < m -> while_fuel m (is_sheet_specifier total) (us ++ ul) = Ok evs tt [].
Proof.
  induction 1 as [n|n u evs us evss H Hs IH]; intros m ul L Hn Hm; (destruct m as [|m]; [lia|]); cbn [while_fuel].
  - cbn [app]. pose proof (no_sheet ul [] L eq_refl (fun x => x)) as E. rewrite app_nil_r in E. rewrite (bind_ok0 _ _ _ _ _ E). reflexivity.
  - rewrite <- app_assoc in *. assert (Lu : 0 < length u) by (destruct H; lens; lia).
    assert (T : hd_is trail_comment_k (us ++ ul) = false) by (eapply sheets_head; [exact Hs|destruct L; reflexivity]).
    rewrite (bind_ok _ _ _ _ _ _ (sheet_ok n u evs (us ++ ul) H T Hn)). rewrite (IH m ul L); [reflexivity|lens; lia|lens; lia].
Qed.
End Text.
Lemma adam_complete ts evs : translation_unit false faithful ts evs -> adam_parse ts = Ok evs tt [].
Proof.
  intros [us evs' ul S L]. unfold adam_parse, adam_parse_text.
  assert (W : while (is_sheet_specifier (length (us ++ ul))) (us ++ ul) = Ok evs' tt []) by (apply (sheets_ok _ 0 us evs' S); [exact L|reflexivity|lia]).
  rewrite (bind_ok _ _ _ _ _ _ W). unfold require. cbn. rewrite app_nil_r. reflexivity.
Qed.

(** *** Layouts *)
Lemma eve_denotes ws rs : 2 <= length ws -> accumulating ws rs -> handed eve_reset ws rs.
Proof.
  intros _. destruct ws as [|w1 [|w2 ws]]; cbn [handed accumulating]; [tauto|tauto|]. intros ->. unfold eve_reset at 2, as_written at 5.
  cbn [r_names r_position r_code r_brief r_detailed]. rewrite eve_carried. reflexivity.
Qed.
Section Text2.
Variable total : nat.
Ltac lens := repeat (rewrite app_length in * || cbn [length app] in * ).
Lemma eve_sets_ok n us evs ts : set_decls false accumulating eve_sections n us evs ->
  n + length (us ++ kw "view" :: ts) = total -> while (eve_qualified_cell_decl total) (us ++ kw "view" :: ts) = Ok evs tt (kw "view" :: ts).
Proof.
  intros D Hn. unfold while. change (eve_qualified_cell_decl total) with (sets_of total eve_reset eve_sections).
  apply (sets_while_ok total eve_reset accumulating eve_denotes eve_sections n us evs D); [| |exact Hn|lia].
  - right. exists "view"%string. repeat split; discriminate.
  - intros s I. cbn [hd_kw]. unfold kw. intros E. injection E as E. destruct s; discriminate.
Qed.
Lemma class_ok u class args rest : view_class u class args -> is_view_class_decl (u ++ rest) = Ok [] (Some (class, args)) rest.
Proof.
  intros [cl o c Ho Hc|cl o ua kes c Ho G Hc]; unfold is_view_class_decl; cbn [app]; rewrite (bind_ok0 _ _ _ _ _ (identifier_hit cl _)), (bind_ok0 _ _ _ _ _ (require_ok _ _ _ (token_hit _ _ _ Ho))).
  - rewrite (bind_ok0 _ _ _ _ _ (arguments_none (c :: rest) ltac:(apply hd_is_other; congruence))).
    rewrite (bind_ok0 _ _ _ _ _ (require_ok _ _ _ (token_hit _ _ _ Hc))). reflexivity.
  - rewrite <- app_assoc. cbn [app].
    rewrite (bind_ok0 _ _ _ _ _ (arguments_ok ua kes (c :: rest) G ltac:(cbn [ends]; rewrite Hc; reflexivity) ltac:(apply hd_is_other; congruence))).
    rewrite (bind_ok0 _ _ _ _ _ (require_ok _ _ _ (token_hit _ _ _ Hc))). reflexivity.
Qed.
Lemma class_head u class args rest : view_class u class args -> hd_is lead_comment_k (u ++ rest) = false.
Proof. intros []; reflexivity. Qed.
Lemma view_head n u v rest k : view_def false n u v -> k <> lead_comment_k -> k <> identifier_k -> hd_is k (u ++ rest) = false.
Proof.
  intros H H1 H2. destruct H as [n ul d uc class args ue b Cd Cl E|n ul d uc class args ut b o us vs ur c Cd Cl]; destruct Cd; [destruct Cl| |destruct Cl|];
    cbn [app]; apply hd_is_other; cbn [t_name ident]; congruence.
Qed.
Lemma views_head n us vs rest k : view_defs false n us vs -> k <> lead_comment_k -> k <> identifier_k -> hd_is k rest = false -> hd_is k (us ++ rest) = false.
Proof.
  intros [|n' u v us' vs' H] H1 H2 R; [exact R|]. rewrite <- app_assoc. eapply view_head; eassumption.
Qed.
Scheme vd_ind := Minimality for view_def Sort Prop with vds_ind := Minimality for view_defs Sort Prop.
Combined Scheme views_ind from vd_ind, vds_ind.
Lemma view_no parent fuel k ur rest : leftover false ur -> hd_is lead_comment_k rest = false -> hd_is identifier_k rest = false ->
  is_view_definition total (S fuel) parent k (ur ++ rest) = Ok [] (false, k) rest.
Proof.
  intros L R I. destruct (leftover_opt ur L) as [d C]. cbn [is_view_definition]. rewrite (bind_ok0 _ _ _ _ _ (comment_ok _ "" _ _ _ C R)).
  unfold bind at 1. cbn [next_position]. rewrite after_nil. unfold bind at 1. unfold is_view_class_decl.
  rewrite (bind_ok0 _ _ _ _ _ (identifier_miss _ I)). reflexivity.
Qed.
Lemma views_ok :
  (forall n u v, view_def false n u v -> forall fuel parent k rest, hd_is trail_comment_k rest = false ->
     n + length (u ++ rest) = total -> length (u ++ rest) < fuel ->
     is_view_definition total fuel parent k (u ++ rest) = Ok (view_calls parent k v) (true, k + views_in v) rest) /\
  (forall n us vs, view_defs false n us vs -> forall m fuel parent k ur c rest, leftover false ur -> t_name c = close_brace_k ->
     n + length (us ++ ur ++ c :: rest) = total -> length (us ++ ur ++ c :: rest) < m -> length (us ++ ur ++ c :: rest) < fuel ->
     views_loop m (is_view_definition total fuel parent) k (us ++ ur ++ c :: rest) = Ok (calls_list parent k vs) (k + views_of vs) (c :: rest)).
Proof.
  apply (views_ind false).
  - intros n ul d uc class args ue b Cd Cl Ee fuel parent k rest R Hn Hf. destruct fuel as [|fuel]; [lia|]. cbn [is_view_definition]. rewrite <- !app_assoc in *.
    rewrite (bind_ok0 _ _ _ _ _ (comment_ok _ "" _ _ _ Cd (class_head _ _ _ (ue ++ rest) Cl))).
    rewrite (bind_ok0 _ _ _ _ _ (position_ok total (n + length ul) (uc ++ ue ++ rest) ltac:(lens; lia))).
    rewrite (bind_ok0 _ _ _ _ _ (class_ok _ _ _ (ue ++ rest) Cl)). destruct Ee as [s ut b' Hs Ct]. cbn [app].
    rewrite (bind_ok0 _ _ _ _ _ (token_hit _ _ _ Hs)). rewrite (bind_ok0 _ _ _ _ _ (comment_ok _ "" _ _ _ Ct R)).
    rewrite (bind_ok _ _ _ _ _ _ (eq_refl : call (AddView parent (Some (n + length ul)) class args (text b') (text d)) rest = Ok [_] tt rest)).
    cbn [ret after app]. rewrite view_calls_eq, views_in_eq. cbn [calls_list views_of fold_right]. do 3 f_equal. lia.
  - intros n ul d uc class args ut b o us vs ur c Cd Cl Ct Ho Hv IH L Hc fuel parent k rest R Hn Hf. destruct fuel as [|fuel]; [lia|]. cbn [is_view_definition].
    assert (E : (ul ++ uc ++ ut ++ o :: us ++ ur ++ [c]) ++ rest = ul ++ uc ++ ut ++ o :: us ++ ur ++ c :: rest).
    { repeat (rewrite <- app_assoc; cbn [app]). reflexivity. }
    rewrite E in *. clear E.
    rewrite (bind_ok0 _ _ _ _ _ (comment_ok _ "" _ _ _ Cd (class_head _ _ _ (ut ++ o :: us ++ ur ++ c :: rest) Cl))).
    rewrite (bind_ok0 _ _ _ _ _ (position_ok total (n + length ul) (uc ++ ut ++ o :: us ++ ur ++ c :: rest) ltac:(lens; lia))).
    rewrite (bind_ok0 _ _ _ _ _ (class_ok _ _ _ (ut ++ o :: us ++ ur ++ c :: rest) Cl)).
    rewrite (bind_ok0 _ _ _ _ _ (token_miss semicolon_k (ut ++ o :: us ++ ur ++ c :: rest) ltac:(destruct Ct; [cbn [app]; apply hd_is_other; congruence|reflexivity]))).
    rewrite (bind_ok0 _ _ _ _ _ (comment_ok _ "" _ _ (o :: us ++ ur ++ c :: rest) Ct ltac:(apply hd_is_other; congruence))).
    rewrite (bind_ok _ _ _ _ _ _ (eq_refl : call (AddView parent (Some (n + length ul)) class args (text b) (text d)) (o :: us ++ ur ++ c :: rest) = Ok [_] tt _)).
    rewrite (bind_ok0 _ _ _ _ _ (require_ok _ _ _ (token_hit _ _ _ Ho))).
    assert (IH' : views_loop (S fuel) (is_view_definition total fuel (Some k)) (S k) (us ++ ur ++ c :: rest) = Ok (calls_list (Some k) (S k) vs) (S k + views_of vs) (c :: rest)).
    { apply IH; [exact L|exact Hc|lens; lia|lens; lia|lens; lia]. }
    rewrite (bind_ok _ _ _ _ _ _ IH'). rewrite (bind_ok0 _ _ _ _ _ (require_ok _ _ _ (token_hit _ _ _ Hc))).
    cbn [ret after app]. rewrite app_nil_r, view_calls_eq, views_in_eq. do 2 f_equal. lia.
  - intros n m fuel parent k ur c rest L Hc Hn Hm Hf. destruct m as [|m]; [lia|]. destruct fuel as [|fuel]; [lia|]. cbn [views_loop app].
    rewrite (bind_ok0 _ _ _ _ _ (view_no parent fuel k ur (c :: rest) L ltac:(apply hd_is_other; congruence) ltac:(apply hd_is_other; congruence))).
    cbn [calls_list views_of fold_right]. rewrite Nat.add_0_r. reflexivity.
  - intros n u v us vs Hv IHv Hs IHs m fuel parent k ur c rest L Hc Hn Hm Hf. destruct m as [|m]; [lia|]. cbn [views_loop]. rewrite <- !app_assoc in *.
    assert (T : hd_is trail_comment_k (us ++ ur ++ c :: rest) = false).
    { eapply views_head; [exact Hs|discriminate|discriminate|]. destruct L; [apply hd_is_other; congruence|reflexivity]. }
    assert (Lu : 0 < length u) by (destruct u; [elim (view_def_nonempty _ _ _ _ Hv eq_refl)|cbn [length]; lia]).
    rewrite (bind_ok _ _ _ _ _ _ (IHv fuel parent k (us ++ ur ++ c :: rest) T Hn Hf)).
    rewrite (IHs m fuel parent (k + views_in v) ur c rest L Hc); [|lens; lia|lens; lia|lens; lia].
    cbn [after calls_list views_of fold_right]. f_equal. unfold views_of. lia.
Qed.
End Text2.
Lemma token_comment_any k u o rest : opt_comment k u o -> exists b rest', token_ k (u ++ rest) = Ok [] b rest' /\
  (rest' = rest \/ exists t, t_name t = k /\ rest = t :: rest').
Proof.
  intros [|s].
  - cbn [app]. destruct rest as [|t rest].
    + exists (match k with eof_k => true | _ => false end), []. split; [|left; reflexivity]. destruct k; reflexivity.
    + destruct (tk_beq (t_name t) k) eqn:E.
      * exists true, rest. assert (t_name t = k) by (destruct (t_name t), k; cbn in E; congruence). split; [apply token_hit; assumption|]. right. exists t. auto.
      * exists false, (t :: rest). split; [|left; reflexivity]. unfold token_, is_token, get. rewrite E. reflexivity.
  - exists true, rest. split; [apply token_hit; reflexivity|left; reflexivity].
Qed.
Lemma eve_complete u cells v rest : layout_specifier false accumulating u cells v ->
  exists rest', eve_parse (u ++ rest) = Ok (cells ++ FinalizeSheet :: view_calls None 0 v) tt rest' /\
    (rest' = rest \/ exists t, t_name t = trail_comment_k /\ rest = t :: rest').
Proof.
  intros [ul d name o us evs uv v' c ut b Cd Hi Ho D Hv Hc Ct]. destruct (token_comment_any trail_comment_k ut b rest Ct) as (b2 & rest' & E2 & R).
  exists rest'. split; [|exact R]. clear R. unfold eve_parse, eve_parse_text.
  assert (E : (ul ++ kw "layout" :: name :: o :: us ++ kw "view" :: uv ++ c :: ut) ++ rest =
    ul ++ kw "layout" :: name :: o :: us ++ kw "view" :: uv ++ c :: ut ++ rest).
  { repeat (rewrite <- app_assoc; cbn [app]). reflexivity. }
  rewrite E. clear E. remember (length (ul ++ kw "layout" :: name :: o :: us ++ kw "view" :: uv ++ c :: ut ++ rest)) as total eqn:Ht.
  repeat (rewrite app_length in Ht; cbn [length] in Ht).
  assert (X : is_layout_specifier total (ul ++ kw "layout" :: name :: o :: us ++ kw "view" :: uv ++ c :: ut ++ rest) =
    Ok (evs ++ FinalizeSheet :: view_calls None 0 v') true rest').
  { unfold is_layout_specifier.
    destruct (token_comment_ok lead_comment_k ul d (kw "layout" :: name :: o :: us ++ kw "view" :: uv ++ c :: ut ++ rest) Cd eq_refl) as [b1 E1].
    rewrite (bind_ok0 _ _ _ _ _ E1). rewrite (bind_ok0 _ _ _ _ _ (keyword_hit "layout" _)).
    rewrite (bind_ok0 _ _ _ _ _ (require_ok _ _ _ (token_hit _ _ _ Hi))). rewrite (bind_ok0 _ _ _ _ _ (require_ok _ _ _ (token_hit _ _ _ Ho))).
    rewrite (bind_ok _ _ _ _ _ _ (eve_sets_ok total (length ul + 3) us evs (uv ++ c :: ut ++ rest) D ltac:(repeat (rewrite app_length; cbn [length]); lia))).
    rewrite (bind_ok _ _ _ _ _ _ (eq_refl : call FinalizeSheet (kw "view" :: uv ++ c :: ut ++ rest) = Ok [_] tt _)).
    rewrite (bind_ok0 _ _ _ _ _ (require_ok _ _ _ (keyword_hit "view" _))).
    assert (V : view_definition total None (uv ++ c :: ut ++ rest) = Ok (view_calls None 0 v') (true, 0 + views_in v') (c :: ut ++ rest)).
    { unfold view_definition. apply (proj1 (views_ok total) _ _ _ Hv); [apply hd_is_other; congruence| |lia]. repeat (rewrite app_length; cbn [length]). lia. }
    rewrite (bind_ok _ _ _ _ _ _ V). cbn [fst].
    rewrite (bind_ok0 _ _ _ _ _ (eq_refl : ret tt (c :: ut ++ rest) = Ok [] tt _)). rewrite (bind_ok0 _ _ _ _ _ (require_ok _ _ _ (token_hit _ _ _ Hc))).
    rewrite (bind_ok0 _ _ _ _ _ E2). cbn [ret after app]. rewrite app_nil_r. reflexivity. }
  rewrite (bind_ok _ _ _ _ _ _ X). cbn [ret after]. rewrite app_nil_r. reflexivity.
Qed.

(** *** The documented grammar is part of the one that is accepted *)
Section Mono.
Variables (st : bool) (D D' : list written -> list relation -> Prop).
Hypothesis HD : forall ws rs, 2 <= length ws -> D ws rs -> D' ws rs.
Lemma leftover_mono u : leftover st u -> leftover false u.
Proof. intros []; constructor; reflexivity. Qed.
Lemma relate_mono n u p c rs b : relate_decl st D n u p c rs b -> relate_decl false D' n u p c rs b.
Proof. intros []; econstructor; eauto using leftover_mono. Qed.
Lemma declaration_mono n d s u ev : declaration st D n d s u ev -> declaration false D' n d s u ev.
Proof. intros []; econstructor; eauto using relate_mono. Qed.
Lemma declarations_mono n s us evs : declarations st D n s us evs -> declarations false D' n s us evs.
Proof. induction 1; econstructor; eauto using declaration_mono. Qed.
Lemma section_leftover_mono s u : section_leftover st s u -> section_leftover false s u.
Proof. intros [s' u' L|u' _ L]; [apply plain_leftover|apply stray_unlink; [reflexivity|]]; apply leftover_mono; exact L. Qed.
Lemma set_mono ss n u evs : set_decl st D ss n u evs -> set_decl false D' ss n u evs.
Proof. intros []; econstructor; eauto using declarations_mono, section_leftover_mono. Qed.
Lemma sets_mono ss n u evs : set_decls st D ss n u evs -> set_decls false D' ss n u evs.
Proof. induction 1; econstructor; eauto using set_mono. Qed.
Lemma sheet_mono n u evs : sheet_specifier st D n u evs -> sheet_specifier false D' n u evs.
Proof. intros []; econstructor; eauto using sets_mono. Qed.
Lemma sheets_mono n u evs : sheet_specifiers st D n u evs -> sheet_specifiers false D' n u evs.
Proof. induction 1; econstructor; eauto using sheet_mono. Qed.
Lemma unit_mono u evs : translation_unit st D u evs -> translation_unit false D' u evs.
Proof. intros []; econstructor; eauto using sheets_mono, leftover_mono. Qed.
Lemma views_mono : (forall n u v, view_def st n u v -> view_def false n u v) /\ (forall n u v, view_defs st n u v -> view_defs false n u v).
Proof. apply (views_ind st); intros; econstructor; eauto using leftover_mono. Qed.
Lemma layout_mono u cells v : layout_specifier st D u cells v -> layout_specifier false D' u cells v.
Proof. intros []; econstructor; eauto using sets_mono, (proj1 views_mono). Qed.
End Mono.
