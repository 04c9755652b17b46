(** The declaration parsers are sound: they end, and what they accept is in the grammar; when they
    throw, the callbacks made are those of whole declarations. *)
From Coq Require Import String ZArith List Lia.
From Verif Require Import Prelude Vm_Value Vm_Model Vm_Spec Vm_Proofs Expr_Model Expr_Spec Expr_Sound Expr_Complete Expr_Total Expr_Props.
From Verif Require Import Decl_Model Decl_Spec.
Import ListNotations.
Local Open Scope nat_scope.
Ltac Zify.zify_post_hook ::= idtac.

Notation tokens := (list token).
Notation events := (list event).
Lemma lexed_of ts : Forall lexed_decl ts -> Forall lexed ts.
Proof. apply Forall_impl. intros t H. exact (proj1 H). Qed.

Section Text.
Variable total : nat.

Definition spec {A} (p : P A) (G : nat -> tokens -> events -> A -> Prop) (E : nat -> tokens -> events -> Prop) : Prop :=
  forall n ts, n + length ts = total -> Forall lexed_decl ts ->
    match p ts with
    | Ok evs a rest => exists u, ts = u ++ rest /\ G n u evs a
    | Err evs => exists u v, ts = u ++ v /\ E n u evs
    | Fuel => False
    end.
Definition quiet : nat -> tokens -> events -> Prop := fun _ u evs => u = [] /\ evs = [].
Definition seq {A B} (G : nat -> tokens -> events -> A -> Prop) (H : A -> nat -> tokens -> events -> B -> Prop)
  (n : nat) (u : tokens) (evs : events) (b : B) : Prop :=
  exists a u1 u2 e1 e2, u = u1 ++ u2 /\ evs = e1 ++ e2 /\ G n u1 e1 a /\ H a (n + length u1) u2 e2 b.
Definition seqE {A} (G : nat -> tokens -> events -> A -> Prop) (E : nat -> tokens -> events -> Prop)
  (H : A -> nat -> tokens -> events -> Prop) (n : nat) (u : tokens) (evs : events) : Prop :=
  E n u evs \/
  exists a u1 u2 e1 e2, u = u1 ++ u2 /\ evs = e1 ++ e2 /\ G n u1 e1 a /\ H a (n + length u1) u2 e2.

Lemma spec_conseq {A} (p : P A) (G G' : nat -> tokens -> events -> A -> Prop) (E E' : nat -> tokens -> events -> Prop) :
  spec p G E -> (forall n u evs a, G n u evs a -> G' n u evs a) -> (forall n u evs, E n u evs -> E' n u evs) -> spec p G' E'.
Proof.
  intros H HG HE n ts Hn HL. specialize (H n ts Hn HL). destruct (p ts) as [evs a rest|evs|]; [| |contradiction].
  - destruct H as (u & E1 & G1). exists u. auto.
  - destruct H as (u & v & E1 & G1). exists u, v. auto.
Qed.
Lemma spec_bind_gen {A B} (p : P A) (f : A -> P B) G E (H : A -> nat -> tokens -> events -> B -> Prop) EH :
  spec p G E -> (forall a, spec (f a) (H a) (EH a)) -> spec (bind p f) (seq G H) (seqE G E EH).
Proof.
  intros Hp Hf n ts Hn HL. unfold bind. specialize (Hp n ts Hn HL). destruct (p ts) as [evs a rest|evs|]; [| |contradiction].
  - destruct Hp as (u & -> & G1). apply Forall_app in HL. destruct HL as [HL1 HL2]. rewrite app_length in Hn.
    specialize (Hf a (n + length u) rest ltac:(lia) HL2). destruct (f a rest) as [evs' b rest'|evs'|]; cbn [after]; [| |contradiction].
    + destruct Hf as (u' & -> & G2). exists (u ++ u'). split; [apply app_assoc|].
      exists a, u, u', evs, evs'. auto.
    + destruct Hf as (u' & v' & -> & G2). exists (u ++ u'), v'. split; [apply app_assoc|].
      right. exists a, u, u', evs, evs'. auto.
  - destruct Hp as (u & v & -> & G1). exists u, v. split; [reflexivity|]. left. exact G1.
Qed.
(** the usual case: nothing is called before an error; the rule reads backwards *)
Definition silent {A} (G : nat -> tokens -> events -> A -> Prop) : Prop := forall n u evs a, G n u evs a -> evs = [].
Lemma spec_bind {A B} (p : P A) (f : A -> P B) G (R : nat -> tokens -> events -> B -> Prop) :
  spec p G quiet -> silent G ->
  (forall a, spec (f a) (fun n' u' evs' b => forall n u, n' = n + length u -> G n u [] a -> R n (u ++ u') evs' b) quiet) ->
  spec (bind p f) R quiet.
Proof.
  intros Hp Hq Hf n ts Hn HL.
  pose proof (spec_bind_gen p f G quiet _ (fun _ => quiet) Hp Hf n ts Hn HL) as S.
  destruct (bind p f ts) as [evs b rest|evs|]; [| |exact S].
  - destruct S as (u & E & (a & u1 & u2 & e1 & e2 & -> & -> & G1 & K)). exists (u1 ++ u2). split; [exact E|].
    pose proof (Hq _ _ _ _ G1) as ->. apply K; [reflexivity|exact G1].
  - destruct S as (u & v & E & [[Q1 Q2]|(a & u1 & u2 & e1 & e2 & -> & -> & G1 & Q1 & Q2)]).
    + exists u, v. split; [exact E|]. split; assumption.
    + exists [], ts. split; [reflexivity|]. split; [reflexivity|]. rewrite (Hq _ _ _ _ G1), Q2. reflexivity.
Qed.
Lemma spec_ret {A} (a : A) (R : nat -> tokens -> events -> A -> Prop) : (forall n, R n [] [] a) -> spec (ret a) R quiet.
Proof. intros H n ts _ _. exists []. split; [reflexivity|apply H]. Qed.
Lemma spec_throw {A} R : spec (@throw A) R quiet.
Proof. intros n ts _ _. exists [], ts. repeat split. Qed.
Lemma spec_call_ret {A} e (a : A) (R : nat -> tokens -> events -> A -> Prop) : (forall n, R n [] [e] a) -> spec (call e ;;; ret a) R quiet.
Proof. intros H n ts _ _. exists []. split; [reflexivity|apply H]. Qed.

Definition a_token (k : tk) (n : nat) (u : tokens) (evs : events) (b : bool) : Prop :=
  evs = [] /\ if b then exists t, u = [t] /\ t_name t = k /\ lexed_decl t else u = [].
Lemma spec_token k : k <> eof_k -> spec (token_ k) (a_token k) quiet.
Proof.
  intros Hk n ts Hn HL. unfold token_. destruct (is_token k ts) as [ts'|] eqn:E.
  - destruct (is_token_inv _ _ _ E Hk) as (t & -> & Ht). exists [t]. split; [reflexivity|]. split; [reflexivity|]. exists t.
    split; [reflexivity|]. split; [exact Ht|]. exact (Forall_inv HL).
  - exists []. repeat split.
Qed.
Definition a_keyword (w : string) (n : nat) (u : tokens) (evs : events) (b : bool) : Prop :=
  evs = [] /\ if b then u = [kw w] else u = [].
Lemma spec_keyword w : spec (keyword w) (a_keyword w) quiet.
Proof.
  intros n ts Hn HL. unfold keyword. destruct (is_keyword w ts) as [ts'|] eqn:E.
  - apply is_keyword_inv in E. subst ts. exists [kw w]. repeat split.
  - exists []. repeat split.
Qed.
Definition required (G : nat -> tokens -> events -> bool -> Prop) (n : nat) (u : tokens) (evs : events) (_ : unit) : Prop :=
  G n u evs true.
Lemma spec_require p G : spec p G quiet -> silent G -> spec (require p) (required G) quiet.
Proof.
  intros Hp Hq. unfold require. eapply spec_bind; [exact Hp|exact Hq|]. intros [|].
  - apply spec_ret. intros n0 n u _ G1. rewrite app_nil_r. exact G1.
  - apply spec_throw.
Qed.
Lemma silent_token k : silent (a_token k). Proof. intros n u evs a H. exact (proj1 H). Qed.
Lemma silent_keyword k : silent (a_keyword k). Proof. intros n u evs a H. exact (proj1 H). Qed.
Lemma silent_required G : silent G -> silent (required G). Proof. intros H n u evs a K. exact (H _ _ _ _ K). Qed.
Definition an_identifier (n : nat) (u : tokens) (evs : events) (i : option string) : Prop :=
  evs = [] /\ match i with Some w => u = [ident w] | None => u = [] end.
Lemma spec_identifier : spec is_identifier an_identifier quiet.
Proof.
  intros n ts Hn HL. unfold is_identifier. destruct (is_token_value identifier_k ts) as [[v ts']|] eqn:E.
  - apply is_token_value_inv in E; [|discriminate]. subst ts. destruct v; try (exists []; eexists; split; [reflexivity|split; reflexivity]).
    exists [ident n0]. repeat split.
  - exists []. repeat split.
Qed.
Lemma silent_identifier : silent an_identifier. Proof. intros n u evs a H. exact (proj1 H). Qed.
Definition comment_in (k : tk) (old : string) (n : nat) (u : tokens) (evs : events) (s : string) : Prop :=
  evs = [] /\ exists o, opt_comment k u o /\ s = match o with Some s => s | None => old end.
Lemma spec_comment k old : k <> eof_k -> spec (comment k old) (comment_in k old) quiet.
Proof.
  intros Hk n ts Hn HL. unfold comment. destruct (is_token_value k ts) as [[v ts']|] eqn:E.
  - apply is_token_value_inv in E; [|exact Hk]. subst ts. destruct v; try (exists []; eexists; split; [reflexivity|split; reflexivity]).
    exists [mk_token k (VStr s)]. split; [reflexivity|]. split; [reflexivity|]. exists (Some s). split; [constructor|reflexivity].
  - exists []. split; [reflexivity|]. split; [reflexivity|]. exists None. split; [constructor|reflexivity].
Qed.
Lemma silent_comment k old : silent (comment_in k old). Proof. intros n u evs a H. exact (proj1 H). Qed.
Definition an_expression (code : list value) (n : nat) (u : tokens) (evs : events) (c : list value) : Prop :=
  evs = [] /\ exists e, gexpr u e /\ c = code ++ compile e.
Lemma spec_expression code : spec (expression code) (an_expression code) quiet.
Proof.
  intros n ts Hn HL. unfold expression.
  pose proof (C57_parser_terminates code ts) as T. destruct (is_expression code ts) as [[|] c ts'| |] eqn:E; [| | |congruence].
  - destruct (C57_parser_is_sound _ _ _ _ (lexed_of _ HL) E) as (u & e & -> & G & ->).
    exists u. split; [reflexivity|]. split; [reflexivity|]. exists e. auto.
  - exists [], ts. repeat split.
  - exists [], ts. repeat split.
Qed.
Lemma silent_expression c : silent (an_expression c). Proof. intros n u evs a H. exact (proj1 H). Qed.
Definition the_position (n : nat) (u : tokens) (evs : events) (p : pos) : Prop := evs = [] /\ u = [] /\ p = Some n.
Lemma spec_position : spec (next_position total) the_position quiet.
Proof. intros n ts Hn HL. exists []. split; [reflexivity|]. split; [reflexivity|]. split; [reflexivity|]. f_equal. lia. Qed.
Lemma silent_position : silent the_position. Proof. intros n u evs a H. exact (proj1 H). Qed.

(** one step of a proof: the first parser of a sequence *)
Ltac silence := first [apply silent_required; silence | apply silent_token | apply silent_keyword | apply silent_identifier
  | apply silent_comment | apply silent_expression | apply silent_position].
Ltac prim := first [apply spec_require; [prim|silence] | apply spec_token; discriminate | apply spec_keyword | apply spec_identifier
  | apply spec_comment; discriminate | apply spec_expression | apply spec_position].
Ltac step := eapply spec_bind; [prim|silence|].
Ltac open := unfold required, a_token, a_keyword, an_identifier, comment_in, an_expression, the_position in *;
  repeat match goal with
  | H : exists _, _ |- _ => destruct H
  | H : _ /\ _ |- _ => destruct H
  end; subst; cbn [app length] in *.

Definition ended (old : string) (n : nat) (u : tokens) (evs : events) (s : string) : Prop :=
  evs = [] /\ exists o, end_statement u o /\ s = match o with Some s => s | None => old end.
Lemma spec_end old : spec (require_end_statement old) (ended old) quiet.
Proof.
  unfold require_end_statement. step. intros []. eapply spec_conseq; [apply spec_comment; discriminate| |auto].
  cbn beta. intros n' u' evs' b H n u -> K. open. split; [reflexivity|]. eexists. split; [constructor; eassumption|reflexivity].
Qed.
Lemma silent_end old : silent (ended old). Proof. intros n u evs a H. exact (proj1 H). Qed.
Definition parted (k : tk) (code : list value) (n : nat) (u : tokens) (evs : events) (o : option (pos * list value)) : Prop :=
  evs = [] /\ match o with Some (p, c) => exists c', part k n u p c' /\ c = code ++ c' | None => u = [] end.
Lemma spec_part k code : k <> eof_k -> spec (is_part total k code) (parted k code) quiet.
Proof.
  intros Hk. unfold is_part. eapply spec_bind; [apply spec_token; exact Hk|silence|]. intros [|].
  - step. intros p. step. intros c. apply spec_ret. intros n0 n1 u1 E1 K1 n2 u2 E2 K2 n3 u3 E3 K3. open.
    split; [reflexivity|]. eexists. split; [|reflexivity]. rewrite app_nil_r. constructor; auto.
  - apply spec_ret. intros n0 n u E K. open. split; reflexivity.
Qed.
Lemma silent_part k c : silent (parted k c). Proof. intros n u evs a H. exact (proj1 H). Qed.
Definition conditioned (n : nat) (u : tokens) (evs : events) (o : option (pos * list value)) : Prop :=
  evs = [] /\ match o with
  | Some (p, c) => exists op ux e cp, t_name op = open_parenthesis_k /\ gexpr ux e /\ t_name cp = close_parenthesis_k /\
      u = kw "when" :: op :: ux ++ [cp] /\ p = Some (n + 2) /\ c = compile e
  | None => u = []
  end.
Lemma spec_conditional : spec (is_conditional_decl total) conditioned quiet.
Proof.
  unfold is_conditional_decl. step. intros [|].
  - step. intros []. step. intros p. step. intros c. step. intros []. apply spec_ret.
    intros n0 n1 u1 E1 K1 n2 u2 E2 K2 n3 u3 E3 K3 n4 u4 E4 K4 n5 u5 E5 K5. open.
    split; [reflexivity|]. do 4 eexists. repeat (split; [eassumption|]). split; [reflexivity|]. split; [f_equal; lia|reflexivity].
  - apply spec_ret. intros n0 n u E K. open. split; reflexivity.
Qed.
Lemma silent_conditional : silent conditioned. Proof. intros n u evs a H. exact (proj1 H). Qed.

(** names *)
Definition more_named (old : list string) (n : nat) (u : tokens) (evs : events) (l : list string) : Prop :=
  evs = [] /\ ((u = [] /\ l = old) \/ exists comma u' ns, t_name comma = comma_k /\ u = comma :: u' /\ names u' ns /\ l = old ++ ns).
Lemma spec_names_loop m : forall old n ts, length ts < m -> n + length ts = total -> Forall lexed_decl ts ->
  match names_loop m old ts with
  | Ok evs a rest => exists u, ts = u ++ rest /\ more_named old n u evs a
  | Err evs => exists u v, ts = u ++ v /\ quiet n u evs
  | Fuel => False
  end.
Proof.
  induction m as [|m IH]; intros old n ts Hm Hn HL; [lia|]. cbn [names_loop]. unfold bind at 1.
  pose proof (spec_token comma_k ltac:(discriminate) n ts Hn HL) as T. destruct (token_ comma_k ts) as [e1 b r1|e1|]; [| |contradiction].
  2:{ destruct T as (u & v & E & Q). exists u, v. auto. }
  destruct T as (u1 & -> & -> & T). destruct b; cbn [after].
  2:{ subst u1. exists []. split; [reflexivity|]. split; [reflexivity|]. left. auto. }
  destruct T as (t & -> & Ht & _). cbn [app length] in *. apply Forall_inv_tail in HL.
  unfold bind. pose proof (spec_identifier (S n) r1 ltac:(lia) HL) as T. destruct (is_identifier r1) as [e2 i r2|e2|]; [| |contradiction].
  2:{ destruct T as (u & v & E & Q1 & ->). exists [], (t :: r1). split; [reflexivity|]. split; reflexivity. }
  destruct T as (u2 & -> & -> & T). destruct i as [w|]; cbn [after throw].
  2:{ exists [], (t :: u2 ++ r2). repeat split. }
  subst u2. cbn [app length] in *. apply Forall_inv_tail in HL.
  specialize (IH (old ++ [w]) (S (S n)) r2 ltac:(lia) ltac:(lia) HL).
  destruct (names_loop m (old ++ [w]) r2) as [e3 a rest|e3|]; [| |contradiction]; cbn [after app].
  - destruct IH as (u & -> & -> & [[-> ->]|(c & u' & ns & Hc & -> & N & ->)]).
    + exists (t :: [ident w]). split; [reflexivity|]. split; [reflexivity|]. right. exists t, [ident w], [w]. repeat split; auto. constructor.
    + exists (t :: ident w :: c :: u'). split; [reflexivity|]. split; [reflexivity|]. right. exists t, (ident w :: c :: u'), (w :: ns).
      split; [exact Ht|]. split; [reflexivity|]. split; [constructor; assumption|]. rewrite <- app_assoc. reflexivity.
  - destruct IH as (u & v & E & Q1 & ->). exists [], (t :: ident w :: r2). repeat split.
Qed.
Lemma spec_more_names old : spec (more_names old) (more_named old) quiet.
Proof. intros n ts Hn HL. unfold more_names. apply spec_names_loop; [lia|exact Hn|exact HL]. Qed.
Lemma silent_more_named old : silent (more_named old). Proof. intros n u evs a H. exact (proj1 H). Qed.

(** a relation, read into [r] *)
Definition merged (r : relation) (w : written) : relation :=
  mk_relation (r_names r ++ w_names w) (w_position w) (r_code r ++ w_code w)
    (match w_brief w with Some s => s | None => r_brief r end)
    (match w_detailed w with Some s => s | None => r_detailed r end).
Definition a_relate_expression (r : relation) (n : nat) (u : tokens) (evs : events) (x : bool * relation) : Prop :=
  evs = [] /\
  if fst x then exists w, relate_expression n u w /\ snd x = merged r w
  else exists d, opt_comment lead_comment_k u d.
Lemma spec_relate_expression r : spec (is_relate_expression_decl total r) (a_relate_expression r) quiet.
Proof.
  unfold is_relate_expression_decl. step. intros detailed. step. intros [name|].
  - eapply spec_bind; [apply spec_more_names|apply silent_more_named|]. intros ns.
    eapply spec_bind; [apply spec_part; discriminate|apply silent_part|]. intros [[p c]|]; [|apply spec_throw].
    eapply spec_bind; [apply spec_end|apply silent_end|]. intros brief. apply spec_ret.
    intros n0 n1 u1 E1 K1 n2 u2 E2 K2 n3 u3 E3 K3 n4 u4 E4 K4 n5 u5 E5 K5.
    unfold ended, parted, more_named in *. open. split; [reflexivity|]. cbn [fst snd]. rewrite app_nil_r.
    assert (NM : exists un, ident name :: u3 = un /\ exists nn, names un nn /\ ns = r_names r ++ nn).
    { exists (ident name :: u3). split; [reflexivity|]. destruct H5 as [[-> ->]|(cm & u' & nn & Hc & -> & N & ->)].
      - exists [name]. split; [constructor|reflexivity].
      - exists (name :: nn). split; [constructor; assumption|]. rewrite <- app_assoc. reflexivity. }
    destruct NM as (un & EU & nn & N & ->). 
    exists (mk_written nn p x0 x1 x). split; [|reflexivity].
    change (ident name :: u3 ++ u2 ++ u1) with ((ident name :: u3) ++ u2 ++ u1). rewrite EU.
    constructor; [assumption|assumption| |assumption]. rewrite <- EU. cbn [length].
    replace (n5 + length u5 + S (length u3)) with (n5 + length u5 + 1 + length u3) by lia. assumption.
  - apply spec_ret. intros n0 n1 u1 E1 K1 n2 u2 E2 K2. open. split; [reflexivity|]. cbn [fst]. rewrite app_nil_r. eexists. eassumption.
Qed.
Lemma silent_relate_expression r : silent (a_relate_expression r). Proof. intros n u evs a H. exact (proj1 H). Qed.

Section Reset.
Variable reset : relation -> relation.
Fixpoint carried (r : relation) (ws : list written) : list relation :=
  match ws with [] => [] | w :: ws => merged r w :: carried (reset (merged r w)) ws end.
Definition handed (ws : list written) (rs : list relation) : Prop :=
  match ws with
  | w1 :: w2 :: ws => rs = as_written w1 :: as_written w2 :: carried (reset (as_written w1)) ws
  | _ => False
  end.
Variable denotes : list written -> list relation -> Prop.
Hypothesis Hden : forall ws rs, handed ws rs -> denotes ws rs.
Lemma merged_new w : merged new_relation w = as_written w.
Proof. destruct w as [ns p c [b|] [d|]]; reflexivity. Qed.
Lemma opt_leftover u d : opt_comment lead_comment_k u d -> leftover false u.
Proof. intros [|s]; [constructor|constructor; reflexivity]. Qed.

Definition relations_read (r : relation) (rs : list relation) (n : nat) (u : tokens) (evs : events) (l : list relation) : Prop :=
  evs = [] /\ exists u1 ws u2, u = u1 ++ u2 /\ relate_expressions n u1 ws /\ leftover false u2 /\ l = rs ++ carried r ws.
Lemma spec_relations_loop m : forall r rs n ts, length ts < m -> n + length ts = total -> Forall lexed_decl ts ->
  match relations_loop total reset m r rs ts with
  | Ok evs a rest => exists u, ts = u ++ rest /\ relations_read r rs n u evs a
  | Err evs => exists u v, ts = u ++ v /\ quiet n u evs
  | Fuel => False
  end.
Proof.
  induction m as [|m IH]; intros r rs n ts Hm Hn HL; [lia|]. cbn [relations_loop]. unfold bind.
  pose proof (spec_relate_expression r n ts Hn HL) as T. destruct (is_relate_expression_decl total r ts) as [e1 [b r'] r1|e1|]; [| |contradiction].
  2:{ destruct T as (u & v & E & Q). exists u, v. auto. }
  destruct T as (u1 & -> & -> & T). cbn [fst snd] in T. destruct b; cbn [after app].
  2:{ exists u1. split; [reflexivity|]. split; [reflexivity|]. destruct T as [d T]. exists [], [], u1.
      split; [reflexivity|]. split; [constructor|]. split; [exact (opt_leftover _ _ T)|]. rewrite app_nil_r. reflexivity. }
  destruct T as (w & G & ->). apply Forall_app in HL. destruct HL as [_ HL]. rewrite app_length in *.
  assert (Hu : 0 < length u1). { destruct G as [ul d un ns ud p c ue b H1 H2 H3 H4]. destruct H4. rewrite !app_length. cbn [length]. lia. }
  specialize (IH (reset (merged r w)) (rs ++ [merged r w]) (n + length u1) r1 ltac:(lia) ltac:(lia) HL).
  destruct (relations_loop total reset m _ _ r1) as [e2 l rest|e2|]; [| |contradiction]; cbn [after app].
  - destruct IH as (u & -> & -> & u2 & ws & u3 & -> & R & L & ->). exists (u1 ++ u2 ++ u3). split; [rewrite <- !app_assoc; reflexivity|].
    split; [reflexivity|]. exists (u1 ++ u2), (w :: ws), u3. split; [rewrite <- !app_assoc; reflexivity|].
    split; [constructor; assumption|]. split; [exact L|]. cbn [carried]. rewrite <- app_assoc. reflexivity.
  - destruct IH as (u & v & E & Q1 & ->). exists [], (u1 ++ r1). repeat split.
Qed.
Lemma spec_more_relations r rs : spec (more_relations total reset r rs) (relations_read r rs) quiet.
Proof. intros n ts Hn HL. unfold more_relations. apply spec_relations_loop; [lia|exact Hn|exact HL]. Qed.
Lemma silent_relations r rs : silent (relations_read r rs). Proof. intros n u evs a H. exact (proj1 H). Qed.

Definition a_relate_decl (n : nat) (u : tokens) (evs : events) (o : option (pos * list value * list relation * string)) : Prop :=
  evs = [] /\ match o with
  | Some (p, c, rs, b) => exists ob, relate_decl false denotes n u p c rs ob /\ b = text ob
  | None => u = []
  end.
Lemma spec_relate_decl : spec (is_relate_decl total reset) a_relate_decl quiet.
Proof.
  unfold is_relate_decl. eapply spec_bind; [apply spec_conditional|apply silent_conditional|]. intros oc. step. intros [|].
  2:{ destruct oc as [x|]; [apply spec_throw|]. apply spec_ret. intros n0 n1 u1 E1 K1 n2 u2 E2 K2. unfold conditioned in *. open. split; reflexivity. }
  eapply spec_bind with (G := fun n u evs p => evs = [] /\ u = [] /\ p = match oc with Some (p, _) => p | None => Some n end).
  { destruct oc as [[p c]|]; [apply spec_ret; intros n; auto|]. apply spec_position. }
  { intros n u evs a H. exact (proj1 H). }
  intros p. step. intros []. eapply spec_bind; [apply spec_relate_expression|apply silent_relate_expression|]. intros [[|] r1]; [|apply spec_throw].
  eapply spec_bind; [apply spec_relate_expression|apply silent_relate_expression|]. intros [[|] r2]; [|apply spec_throw].
  eapply spec_bind; [apply spec_more_relations|apply silent_relations|]. intros rs. step. intros []. step. intros brief. apply spec_ret.
  intros n0 n1 u1 E1 K1 n2 u2 E2 K2 n3 u3 E3 K3 n4 u4 E4 K4 n5 u5 E5 K5 n6 u6 E6 K6 n7 u7 E7 K7 n8 u8 E8 K8 n9 u9 E9 K9.
  unfold conditioned, a_relate_expression, relations_read in *. cbn [fst snd] in *.
  destruct K1 as [_ (ob & C1 & ->)]. destruct K2 as [_ (tc & -> & Hc & _)]. destruct K3 as [_ (us & ws & ul & -> & R & L & ->)].
  destruct K4 as [_ (w2 & G2 & ->)]. destruct K5 as [_ (w1 & G1 & ->)]. destruct K6 as [_ (to & -> & Ho & _)]. destruct K7 as (_ & -> & ->).
  destruct K8 as [_ ->]. split; [reflexivity|]. rewrite !merged_new in *. rewrite ?merged_new.
  assert (D : denotes (w1 :: w2 :: ws) ([as_written w1; as_written w2] ++ carried (reset (as_written w1)) ws)) by (apply Hden; reflexivity).
  subst. cbn [app length] in *. rewrite app_nil_r.
  assert (B : text ob = match ob with Some s => s | None => ""%string end) by reflexivity.
  destruct oc as [[p c]|].
  - destruct K9 as [_ (op & ux & e & cp & Hop & Gx & Hcp & -> & -> & ->)].
    exists ob. split; [|exact (eq_sym B)]. cbn [or_default snd app]. rewrite <- !app_assoc. cbn [app].
    replace (u5 ++ u4 ++ us ++ ul ++ tc :: u1) with ((u5 ++ u4 ++ us) ++ ul ++ tc :: u1) by (rewrite <- !app_assoc; reflexivity).
    eapply a_conditional_relate; try eassumption; [|cbn [length]; lia].
    assert (PX : forall a b (q : written), relate_expression a u5 q -> a = b -> relate_expression b u5 q) by (intros; subst; assumption).
    constructor; [eapply PX; [exact G1|cbn [length]; rewrite app_length; cbn [length]; lia]|].
    constructor.
    + match goal with |- relate_expression ?b _ _ => match type of G2 with relate_expression ?a _ _ =>
        replace b with a by (cbn [length]; rewrite app_length; cbn [length]; lia) end end. exact G2.
    + match goal with |- relate_expressions ?b _ _ => match type of R with relate_expressions ?a _ _ =>
        replace b with a by (cbn [length]; rewrite app_length; cbn [length]; lia) end end. exact R.
  - destruct K9 as [_ ->]. exists ob. split; [|exact (eq_sym B)]. cbn [or_default snd app length] in *.
    rewrite <- !app_assoc.
    replace (u5 ++ u4 ++ us ++ ul ++ tc :: u1) with ((u5 ++ u4 ++ us) ++ ul ++ tc :: u1) by (rewrite <- !app_assoc; reflexivity).
    match goal with |- relate_decl _ _ ?n _ (Some ?p) _ _ _ => replace p with (n + 1) by lia end.
    eapply a_relate; try eassumption; [|cbn [length]; lia].
    constructor; [match goal with |- relate_expression ?b _ _ => match type of G1 with relate_expression ?a _ _ => replace b with a by lia end end; exact G1|].
    constructor.
    + match goal with |- relate_expression ?b _ _ => match type of G2 with relate_expression ?a _ _ => replace b with a by lia end end. exact G2.
    + match goal with |- relate_expressions ?b _ _ => match type of R with relate_expressions ?a _ _ => replace b with a by lia end end. exact R.
Qed.
Lemma silent_relate_decl : silent a_relate_decl. Proof. intros n u evs a H. exact (proj1 H). Qed.

Definition a_named_decl (n : nat) (u : tokens) (evs : events) (o : option (string * pos * list value * string)) : Prop :=
  evs = [] /\ match o with
  | Some (name, p, c, b) => exists ud ue ob, u = ident name :: ud ++ ue /\ define_expression (n + 1) ud p c /\ end_statement ue ob /\ b = text ob
  | None => u = []
  end.
Lemma spec_named_decl : spec (is_named_decl total) a_named_decl quiet.
Proof.
  unfold is_named_decl. step. intros [name|].
  - eapply spec_bind; [apply spec_part; discriminate|apply silent_part|]. intros [[p c]|]; [|apply spec_throw].
    eapply spec_bind; [apply spec_end|apply silent_end|]. intros brief. apply spec_ret.
    intros n0 n1 u1 E1 K1 n2 u2 E2 K2 n3 u3 E3 K3. unfold ended, parted in *. open. split; [reflexivity|].
    do 3 eexists. split; [rewrite app_nil_r; reflexivity|]. split; [eassumption|]. split; [eassumption|reflexivity].
  - apply spec_ret. intros n0 n u E K. open. split; reflexivity.
Qed.
Lemma silent_named_decl : silent a_named_decl. Proof. intros n u evs a H. exact (proj1 H). Qed.

Definition stray (s : section) (u : tokens) : Prop := u = [] \/ (s = interface_s /\ u = [kw "unlink"]).
Definition a_cell (s : section) (d : option string) (n : nat) (u : tokens) (evs : events) (b : bool) : Prop :=
  if b then exists ev, evs = [ev] /\ declaration false denotes n d s u ev else evs = [] /\ stray s u.
Definition cell (s : section) : string -> P bool :=
  match s with
  | interface_s => is_interface_cell_decl total
  | input_s => is_input_cell_decl total
  | output_s => is_named_cell_decl total output_c
  | constant_s => is_constant_cell_decl total
  | logic_s => is_logic_cell_decl total reset
  | invariant_s => is_named_cell_decl total invariant_c
  | external_s => is_external_cell_decl total
  end.
Lemma opt_parted k n u o : parted k [] n u [] o -> opt_part k n u (fst (or_default o)) (snd (or_default o)).
Proof.
  intros [_ H]. destruct o as [[p c]|]; cbn [or_default fst snd].
  - destruct H as (c' & H & ->). apply some_part. exact H.
  - subst u. constructor.
Qed.
Lemma spec_named_cell t s d : named_cell s = Some t -> spec (is_named_cell_decl total t (text d)) (a_cell s d) quiet.
Proof.
  intros Hs. unfold is_named_cell_decl. eapply spec_bind; [apply spec_named_decl|apply silent_named_decl|].
  intros [[[[name p] c] b]|].
  - apply spec_call_ret. intros n0 n u _ (_ & ud & ue & ob & -> & D & E & ->). eexists. split; [reflexivity|]. rewrite app_nil_r.
    apply d_named; assumption.
  - apply spec_ret. intros n0 n u _ (_ & ->). split; [reflexivity|]. left. reflexivity.
Qed.
Lemma spec_cell s d : spec (cell s (text d)) (a_cell s d) quiet.
Proof.
  destruct s; cbn [cell]; try (apply spec_named_cell; reflexivity).
  - unfold is_interface_cell_decl. step. intros ul. step. intros [name|].
    + eapply spec_bind; [apply spec_part; discriminate|apply silent_part|]. intros oi.
      eapply spec_bind; [apply spec_part; discriminate|apply silent_part|]. intros od.
      eapply spec_bind; [apply spec_end|apply silent_end|]. intros brief.
      destruct (or_default oi) as [ip ic] eqn:Ei. destruct (or_default od) as [dp dc] eqn:Ed. apply spec_call_ret.
      intros n0 n1 u1 E1 K1 n2 u2 E2 K2 n3 u3 E3 K3 n4 u4 E4 K4 n5 u5 E5 K5.
      apply opt_parted in K2. apply opt_parted in K3. rewrite Ei in K3. rewrite Ed in K2. cbn [fst snd] in *.
      unfold ended, an_identifier in *. destruct K1 as (_ & ob & K1 & ->). destruct K4 as [_ ->]. destruct K5 as [_ K5].
      subst. cbn [app length] in *. rewrite app_nil_r.
      eexists. split; [reflexivity|]. eapply (d_interface false denotes n5 d u5 (negb ul) name u3 ip ic u2 dp dc u1 ob);
        [destruct ul; subst u5; constructor|exact K3|exact K2|exact K1].
    + apply spec_ret. intros n0 n1 u1 E1 K1 n2 u2 E2 K2. unfold an_identifier, a_keyword in *. destruct K1 as [_ ->]. destruct K2 as [_ K2].
      split; [reflexivity|]. cbn [app]. rewrite app_nil_r. destruct ul; subst u2; [right; split; reflexivity|left; reflexivity].
  - unfold is_input_cell_decl. step. intros [name|].
    + eapply spec_bind; [apply spec_part; discriminate|apply silent_part|]. intros oi.
      eapply spec_bind; [apply spec_end|apply silent_end|]. intros brief.
      destruct (or_default oi) as [ip ic] eqn:Ei. apply spec_call_ret.
      intros n0 n1 u1 E1 K1 n2 u2 E2 K2 n3 u3 E3 K3. apply opt_parted in K2. rewrite Ei in K2. cbn [fst snd] in *.
      destruct K1 as (_ & ob & K1 & ->). destruct K3 as [_ ->]. subst. cbn [app length] in *. rewrite app_nil_r.
      eexists. split; [reflexivity|]. apply (d_input false denotes n3 d name u2 ip ic u1 ob); [exact K2|exact K1].
    + apply spec_ret. intros n0 n1 u1 E1 K1. destruct K1 as [_ ->]. split; [reflexivity|]. left. reflexivity.
  - unfold is_constant_cell_decl. step. intros [name|].
    + eapply spec_bind; [apply spec_part; discriminate|apply silent_part|]. intros [[ip ic]|]; [|apply spec_throw].
      eapply spec_bind; [apply spec_end|apply silent_end|]. intros brief. apply spec_call_ret.
      intros n0 n1 u1 E1 K1 n2 u2 E2 K2 n3 u3 E3 K3.
      destruct K1 as (_ & ob & K1 & ->). destruct K3 as [_ ->]. destruct K2 as (_ & c' & K2 & ->). subst. cbn [app length] in *. rewrite app_nil_r.
      eexists. split; [reflexivity|]. apply (d_constant false denotes n3 d name u2 ip c' u1 ob); [exact K2|exact K1].
    + apply spec_ret. intros n0 n1 u1 E1 K1. destruct K1 as [_ ->]. split; [reflexivity|]. left. reflexivity.
  - unfold is_logic_cell_decl. eapply spec_bind; [apply spec_named_decl|apply silent_named_decl|].
    intros [[[[name p] c] b]|].
    + apply spec_call_ret. intros n0 n u _ (_ & ud & ue & ob & -> & D & E & ->). eexists. split; [reflexivity|]. rewrite app_nil_r.
      apply d_named; [reflexivity|assumption|assumption].
    + eapply spec_bind; [apply spec_relate_decl|apply silent_relate_decl|]. intros [[[[p c] rs] b]|].
      * apply spec_call_ret. intros n0 n1 u1 E1 K1 n2 u2 E2 K2. destruct K2 as [_ ->]. destruct K1 as (_ & ob & K1 & ->). subst.
        eexists. split; [reflexivity|]. cbn [app length] in *. rewrite app_nil_r, Nat.add_0_r in *. apply d_relate. exact K1.
      * apply spec_ret. intros n0 n1 u1 E1 K1 n2 u2 E2 K2. destruct K2 as [_ ->]. destruct K1 as [_ ->]. split; [reflexivity|]. left. reflexivity.
  - unfold is_external_cell_decl. step. intros p. step. intros [name|].
    + eapply spec_bind; [apply spec_end|apply silent_end|]. intros brief. apply spec_call_ret.
      intros n0 n1 u1 E1 K1 n2 u2 E2 K2 n3 u3 E3 K3. destruct K1 as (_ & ob & K1 & ->). destruct K2 as [_ ->]. destruct K3 as (_ & -> & ->).
      subst. cbn [app length] in *. rewrite app_nil_r. eexists. split; [reflexivity|]. apply (d_external false denotes n3 d name u1 ob). exact K1.
    + apply spec_ret. intros n0 n1 u1 E1 K1 n2 u2 E2 K2. destruct K1 as [_ ->]. destruct K2 as (_ & -> & _). split; [reflexivity|]. left. reflexivity.
Qed.

(** *** sequences *)
Inductive star (G : nat -> tokens -> events -> bool -> Prop) (F : nat -> tokens -> events -> Prop) : nat -> tokens -> events -> Prop :=
| star_end n u evs : F n u evs -> star G F n u evs
| star_more n u1 e1 u2 e2 : G n u1 e1 true -> star G F (n + length u1) u2 e2 -> star G F n (u1 ++ u2) (e1 ++ e2).
Lemma spec_while body G E : spec body G E -> (forall n u evs, G n u evs true -> u <> []) ->
  spec (while body) (fun n u evs _ => star G (fun n u evs => G n u evs false) n u evs) (star G E).
Proof.
  intros Hb HG n ts Hn HL. unfold while. assert (Hm : length ts < S (length ts)) by lia. revert Hm. generalize (S (length ts)) as m.
  intros m. revert n ts Hn HL. induction m as [|m IH]; intros n ts Hn HL Hm; [lia|]. cbn [while_fuel]. unfold bind.
  specialize (Hb n ts Hn HL). destruct (body ts) as [e1 b r1|e1|]; [| |contradiction].
  2:{ destruct Hb as (u & v & E1 & Q). exists u, v. split; [exact E1|]. constructor. exact Q. }
  destruct Hb as (u1 & -> & G1). destruct b; cbn [after ret].
  2:{ exists u1. split; [reflexivity|]. rewrite app_nil_r. constructor. exact G1. }
  pose proof (HG _ _ _ G1) as N. apply Forall_app in HL. destruct HL as [_ HL]. rewrite app_length in *.
  assert (0 < length u1) by (destruct u1; [contradiction|cbn [length]; lia]).
  specialize (IH (n + length u1) r1 ltac:(lia) HL ltac:(lia)). destruct (while_fuel m body r1) as [e2 [] rest|e2|]; [| |contradiction]; cbn [after].
  - destruct IH as (u & -> & S). exists (u1 ++ u). split; [apply app_assoc|]. apply star_more; assumption.
  - destruct IH as (u & v & -> & S). exists (u1 ++ u), v. split; [apply app_assoc|]. apply star_more; assumption.
Qed.

(** sequencing when callbacks may have been made before an error *)
Lemma spec_bindE {A B} (p : P A) (f : A -> P B) G Ep (R : nat -> tokens -> events -> B -> Prop) (E : nat -> tokens -> events -> Prop) :
  spec p G Ep -> (forall n u evs, Ep n u evs -> E n u evs) ->
  (forall a, spec (f a)
     (fun n' u' evs' b => forall n u evs, n' = n + length u -> G n u evs a -> R n (u ++ u') (evs ++ evs') b)
     (fun n' u' evs' => forall n u evs, n' = n + length u -> G n u evs a -> E n (u ++ u') (evs ++ evs'))) ->
  spec (bind p f) R E.
Proof.
  intros Hp HE Hf n ts Hn HL. pose proof (spec_bind_gen p f G Ep _ _ Hp Hf n ts Hn HL) as S.
  destruct (bind p f ts) as [evs b rest|evs|]; [| |exact S].
  - destruct S as (u & E1 & (a & u1 & u2 & e1 & e2 & -> & -> & G1 & K)). exists (u1 ++ u2). split; [exact E1|]. apply K; [reflexivity|exact G1].
  - destruct S as (u & v & E1 & [Q|(a & u1 & u2 & e1 & e2 & -> & -> & G1 & K)]).
    + exists u, v. split; [exact E1|]. apply HE. exact Q.
    + exists (u1 ++ u2), v. split; [exact E1|]. apply K; [reflexivity|exact G1].
Qed.
Lemma spec_quiet {A} (p : P A) G (E : nat -> tokens -> events -> Prop) : spec p G quiet -> (forall n, E n [] []) -> spec p G E.
Proof. intros H HE. eapply spec_conseq; [exact H|auto|]. intros n u evs [-> ->]. apply HE. Qed.

Lemma declaration_text n d d' s u ev : text d = text d' -> declaration false denotes n d s u ev -> declaration false denotes n d' s u ev.
Proof. intros T H. destruct H; rewrite T; econstructor; eassumption. Qed.
Definition a_turn (s : section) (n : nat) (u : tokens) (evs : events) (b : bool) : Prop :=
  if b then exists ul d u' ev, u = ul ++ u' /\ evs = [ev] /\ opt_comment lead_comment_k ul d /\ declaration false denotes (n + length ul) d s u' ev
  else evs = [] /\ section_leftover false s u.
Lemma spec_turn s : spec (detailed <- comment lead_comment_k "" ;; cell s detailed) (a_turn s) quiet.
Proof.
  step. intros detailed. eapply spec_conseq; [exact (spec_cell s (Some detailed))| |auto].
  cbn beta. intros n' u' evs' b H n u -> (_ & d & C & T). destruct b; cbn [a_cell a_turn] in *.
  - destruct H as (ev & -> & D). exists u, d, u', ev. split; [reflexivity|]. split; [reflexivity|]. split; [exact C|].
    apply (declaration_text _ (Some detailed)); [exact T|exact D].
  - destruct H as [-> [->|[-> ->]]]; (split; [reflexivity|]).
    + rewrite app_nil_r. apply plain_leftover. exact (opt_leftover _ _ C).
    + apply stray_unlink; [reflexivity|exact (opt_leftover _ _ C)].
Qed.
Lemma declaration_nonempty n d s u ev : declaration false denotes n d s u ev -> u <> [].
Proof. intros [? ? ? ? ? ? ? ? ? ue b U _ _ E| | | |? ? ? ? ? []|]; try discriminate. intros H. apply app_eq_nil in H. destruct H as [_ H]. discriminate. Qed.
Lemma star_declarations s F n u evs : star (a_turn s) F n u evs ->
  exists us evs1 ul evs2, u = us ++ ul /\ evs = evs1 ++ evs2 /\ declarations false denotes n s us evs1 /\ F (n + length us) ul evs2.
Proof.
  intros H. induction H as [n u evs H|n u1 e1 u2 e2 G1 S (us & evs1 & ul & evs2 & -> & -> & D & L)].
  - exists [], [], u, evs. repeat split; [constructor|]. cbn [length]. rewrite Nat.add_0_r. exact H.
  - destruct G1 as (ul1 & d & u' & ev & -> & -> & C & De). exists ((ul1 ++ u') ++ us), (ev :: evs1), ul, evs2.
    split; [apply app_assoc|]. split; [reflexivity|]. rewrite !app_length, !Nat.add_assoc in *. split; [|exact L].
    rewrite <- app_assoc. econstructor; eassumption.
Qed.
Definition a_set_decl (ss : list section) (n : nat) (u : tokens) (evs : events) (b : bool) : Prop :=
  if b then set_decl false denotes ss n u evs else u = [] /\ evs = [].
Definition set_error (ss : list section) (n : nat) (u : tokens) (evs : events) : Prop :=
  (u = [] /\ evs = []) \/ set_decl false denotes ss n u evs.
(** when nothing was called, nothing was declared *)
Lemma spec_norm {A} (p : P A) G (E E' : nat -> tokens -> events -> Prop) :
  spec p G (fun n u evs => E n u evs \/ exists u1 u2, u = u1 ++ u2 /\ E' n u1 evs) -> (forall n u evs, E n u evs -> E' n u evs) -> spec p G E'.
Proof.
  intros H HE n ts Hn HL. specialize (H n ts Hn HL). destruct (p ts) as [evs a rest|evs|]; [exact H| |exact H].
  destruct H as (u & v & -> & [Q|(u1 & u2 & -> & Q)]); [exists u, v; auto|]. exists u1, (u2 ++ v). split; [symmetry; apply app_assoc|exact Q].
Qed.
Lemma spec_cut {A} (p : P A) G (E' : nat -> tokens -> events -> Prop) :
  spec p G (fun n u evs => exists u1 u2, u = u1 ++ u2 /\ E' n u1 evs) -> spec p G E'.
Proof. intros H. apply (spec_norm _ _ (fun _ _ _ => False)); [|contradiction]. eapply spec_conseq; [exact H|auto|]. intros n u evs Q. right. exact Q. Qed.

Lemma spec_set s : spec (is_set_decl (section_name s) (cell s)) (a_set_decl [s]) (set_error [s]).
Proof.
  apply spec_cut. unfold is_set_decl. eapply spec_bindE; [apply spec_keyword| |].
  { intros n u evs [-> ->]. exists [], []. split; [reflexivity|]. left. split; reflexivity. }
  intros [|].
  2:{ eapply spec_quiet; [apply spec_ret|]; intros n n0 u evs _ [-> ->]; [split; reflexivity|]. exists [], []. split; [reflexivity|]. left. split; reflexivity. }
  eapply spec_bindE with (Ep := quiet); [prim| |].
  { intros n u evs [-> ->] n0 u0 evs0 _ [-> ->]. exists [], [kw (section_name s)]. split; [reflexivity|]. left. split; reflexivity. }
  intros []. eapply spec_bindE; [apply spec_while; [apply (spec_turn s)|]| |].
  { intros n u evs (ul & d & u' & ev & -> & _ & _ & D) H. apply app_eq_nil in H. exact (declaration_nonempty _ _ _ _ _ D (proj2 H)). }
  { intros n u evs H n0 u0 evs0 -> K1 n1 u1 evs1 -> K2. destruct K1 as (-> & t & -> & Ht & _). destruct K2 as [-> ->].
    destruct (star_declarations _ _ _ _ _ H) as (us & e1 & ul & e2 & -> & -> & D & [-> ->]). cbn [app length] in *.
    exists (kw (section_name s) :: t :: us), []. split; [rewrite !app_nil_r; reflexivity|]. right. rewrite !app_nil_r.
    replace us with (us ++ []) by apply app_nil_r. constructor; [left; reflexivity|exact Ht| |apply plain_leftover; constructor].
    replace (n1 + 2) with (n1 + 1 + 1) by lia. exact D. }
  intros []. eapply spec_quiet; [apply spec_ret|].
  - intros n n0 u0 evs0 -> H n1 u1 evs1 -> K1 n2 u2 evs2 -> K2. destruct K1 as (-> & t & -> & Ht & _). destruct K2 as [-> ->].
    destruct (star_declarations _ _ _ _ _ H) as (us & e1 & ul & e2 & -> & -> & D & -> & L). cbn [app length] in *. rewrite !app_nil_r.
    constructor; [left; reflexivity|exact Ht| |exact L]. replace (n2 + 2) with (n2 + 1 + 1) by lia. exact D.
  - intros n n0 u0 evs0 -> H n1 u1 evs1 -> K1 n2 u2 evs2 -> K2. destruct K1 as (-> & t & -> & Ht & _). destruct K2 as [-> ->].
    destruct (star_declarations _ _ _ _ _ H) as (us & e1 & ul & e2 & -> & -> & D & -> & L). cbn [app length] in *. rewrite !app_nil_r.
    exists (kw (section_name s) :: t :: us ++ ul), []. split; [rewrite app_nil_r; reflexivity|]. right.
    constructor; [left; reflexivity|exact Ht| |exact L]. replace (n2 + 2) with (n2 + 1 + 1) by lia. exact D.
Qed.
Lemma set_weaken strict ss ss' n u evs : set_decl strict denotes ss n u evs -> incl ss ss' -> set_decl strict denotes ss' n u evs.
Proof. intros [s c us evs' ul H1 H2 H3 H4] I. constructor; auto. Qed.
Lemma spec_or s ss q : spec q (a_set_decl ss) (set_error ss) ->
  spec (or_p (is_set_decl (section_name s) (cell s)) q) (a_set_decl (s :: ss)) (set_error (s :: ss)).
Proof.
  intros Hq. unfold or_p. eapply spec_bindE; [apply spec_set| |].
  { intros n u evs [H|H]; [left; exact H|right]. apply (set_weaken _ [s]); [exact H|]. intros x [<-|[]]. left. reflexivity. }
  intros [|].
  - eapply spec_quiet; [apply spec_ret|]; intros n n0 u evs _ H; rewrite !app_nil_r; [|right]; (apply (set_weaken _ [s]); [exact H|]; intros x [<-|[]]; left; reflexivity).
  - eapply spec_conseq; [exact Hq| |].
    + intros n u evs [|] H n0 u0 evs0 -> [-> ->]; cbn [app length a_set_decl] in *; rewrite ?Nat.add_0_r in *; [|exact H].
      apply (set_weaken _ ss); [exact H|]. intros x I. right. exact I.
    + intros n u evs H n0 u0 evs0 -> [-> ->]; cbn [app length] in *; rewrite ?Nat.add_0_r in *.
      destruct H as [H|H]; [left; exact H|right]. apply (set_weaken _ ss); [exact H|]. intros x I. right. exact I.
Qed.
Lemma set_nonempty ss n u evs : a_set_decl ss n u evs true -> u <> [].
Proof. intros S E. destruct S. discriminate. Qed.
Lemma star_sets ss F n u evs : star (a_set_decl ss) F n u evs ->
  exists us evs1 ul evs2, u = us ++ ul /\ evs = evs1 ++ evs2 /\ set_decls false denotes ss n us evs1 /\ F (n + length us) ul evs2.
Proof.
  intros H. induction H as [n u evs H|n u1 e1 u2 e2 G1 S (us & evs1 & ul & evs2 & -> & -> & D & L)].
  - exists [], [], u, evs. repeat split; [constructor|]. cbn [length]. rewrite Nat.add_0_r. exact H.
  - exists (u1 ++ us), (e1 ++ evs1), ul, evs2.
    split; [apply app_assoc|]. split; [apply app_assoc|]. rewrite app_length, Nat.add_assoc. split; [|exact L]. constructor; assumption.
Qed.
Lemma sets_snoc ss n us evs u e : set_decls false denotes ss n us evs -> set_decl false denotes ss (n + length us) u e ->
  set_decls false denotes ss n (us ++ u) (evs ++ e).
Proof.
  intros H. revert u e. induction H as [n|n u1 e1 us e2 H1 H IH]; intros u e D.
  - cbn [app length] in *. rewrite Nat.add_0_r in D. rewrite <- (app_nil_r u), <- (app_nil_r e). constructor; [exact D|constructor].
  - rewrite <- !app_assoc. constructor; [exact H1|]. apply IH. rewrite app_length, Nat.add_assoc in D. exact D.
Qed.
(** { qualified_cell_decl }, and what was declared when it failed *)
Lemma spec_sets ss q : spec q (a_set_decl ss) (set_error ss) ->
  spec (while q) (fun n u evs _ => set_decls false denotes ss n u evs) (set_decls false denotes ss).
Proof.
  intros Hq. eapply spec_conseq; [apply spec_while; [exact Hq|apply set_nonempty]| |].
  - intros n u evs [] H. destruct (star_sets _ _ _ _ _ H) as (us & e1 & ul & e2 & -> & -> & D & -> & ->). rewrite !app_nil_r. exact D.
  - intros n u evs H. destruct (star_sets _ _ _ _ _ H) as (us & e1 & ul & e2 & -> & -> & D & [[-> ->]|S]); [rewrite !app_nil_r; exact D|].
    apply sets_snoc; assumption.
Qed.
End Reset.

(** *** Property models *)
Lemma adam_carried r ws : r = new_relation -> carried adam_reset r ws = map as_written ws.
Proof. revert r. induction ws as [|w ws IH]; intros r ->; [reflexivity|]. cbn [carried map]. rewrite merged_new, IH; reflexivity. Qed.
Lemma adam_handed ws rs : handed adam_reset ws rs -> faithful ws rs.
Proof. destruct ws as [|w1 [|w2 ws]]; cbn [handed]; [tauto|tauto|]. intros ->. unfold faithful. rewrite adam_carried by reflexivity. reflexivity. Qed.
Lemma spec_adam_qualified : spec (adam_qualified_cell_decl total) (a_set_decl faithful adam_sections) (set_error faithful adam_sections).
Proof.
  unfold adam_qualified_cell_decl, adam_sections.
  assert (L : spec (is_set_decl "external" (is_external_cell_decl total)) (a_set_decl faithful [external_s]) (set_error faithful [external_s]))
    by exact (spec_set adam_reset faithful adam_handed external_s).
  apply (spec_or adam_reset faithful adam_handed invariant_s) in L. apply (spec_or adam_reset faithful adam_handed logic_s) in L.
  apply (spec_or adam_reset faithful adam_handed constant_s) in L. apply (spec_or adam_reset faithful adam_handed output_s) in L.
  apply (spec_or adam_reset faithful adam_handed input_s) in L. exact (spec_or adam_reset faithful adam_handed interface_s _ _ L).
Qed.
Notation unit_sets := (set_decls false faithful adam_sections).
Definition closing : token := mk_token close_brace_k VEmpty.
Definition a_sheet_specifier (n : nat) (u : tokens) (evs : events) (b : bool) : Prop :=
  if b then sheet_specifier false faithful n u evs else evs = [] /\ leftover false u.
Definition sheet_error (n : nat) (u : tokens) (evs : events) : Prop :=
  (u = [] /\ evs = []) \/ sheet_specifier false faithful n (u ++ [closing]) evs.
Lemma lexed_comment k t : lexed_decl t -> t_name t = k -> k = lead_comment_k \/ k = trail_comment_k -> exists s, t = mk_token k (VStr s).
Proof.
  intros [_ L] E K. destruct t as [tn tv]. cbn [t_name t_value] in *. subst tn. destruct K as [-> | ->]; destruct L as [s ->]; exists s; reflexivity.
Qed.
Lemma token_comment k n u b : a_token k n u [] b -> k = lead_comment_k \/ k = trail_comment_k -> exists d, opt_comment k u d.
Proof.
  intros [_ H] K. destruct b.
  - destruct H as (t & -> & Ht & L). destruct (lexed_comment _ _ L Ht K) as [s ->]. exists (Some s). constructor.
  - subst u. exists None. constructor.
Qed.
Lemma spec_adam_sets : spec (while (adam_qualified_cell_decl total)) (fun n u evs _ => unit_sets n u evs) unit_sets.
Proof. apply spec_sets. exact spec_adam_qualified. Qed.
Lemma spec_sheet : spec (is_sheet_specifier total) a_sheet_specifier sheet_error.
Proof.
  apply spec_cut. unfold is_sheet_specifier.
  assert (N : forall n u, exists u1 u2, u = u1 ++ u2 /\ sheet_error n u1 []).
  { intros n u. exists [], u. split; [reflexivity|]. left. split; reflexivity. }
  eapply spec_bindE; [apply spec_token; discriminate| |]. { intros n u evs [-> ->]. apply N. }
  intros lead. eapply spec_bindE; [apply spec_keyword| |]. { intros n u evs [-> ->] n0 u0 evs0 _ [-> K]. apply N. }
  intros [|].
  2:{ eapply spec_quiet; [apply spec_ret|].
      - intros n n0 u0 evs0 _ [-> ->] n1 u1 evs1 _ [-> K]. rewrite !app_nil_r. split; [reflexivity|].
        destruct (token_comment lead_comment_k n u1 lead (conj eq_refl K) ltac:(auto)) as [d C]. exact (opt_leftover _ _ C).
      - intros n n0 u0 evs0 _ [-> ->] n1 u1 evs1 _ [-> K]. apply N. }
  eapply spec_bindE; [apply spec_identifier| |]. { intros n u evs [-> ->] n0 u0 evs0 _ [-> ->] n1 u1 evs1 _ [-> K]. apply N. }
  intros [name|].
  2:{ eapply spec_quiet; [apply spec_throw|]. intros n n0 u0 evs0 _ [-> ->] n1 u1 evs1 _ [-> ->] n2 u2 evs2 _ [-> K]. apply N. }
  eapply spec_bindE with (Ep := quiet); [prim| |].
  { intros n u evs [-> ->] n0 u0 evs0 _ [-> ->] n1 u1 evs1 _ [-> ->] n2 u2 evs2 _ [-> K]. apply N. }
  intros [].
  assert (CL : forall n3 u3 t us evs tc ut b, a_token lead_comment_k n3 u3 [] lead -> t_name t = open_brace_k ->
    unit_sets (n3 + length u3 + length [kw "sheet"] + length [ident name] + length [t]) us evs -> t_name tc = close_brace_k ->
    opt_comment trail_comment_k ut b ->
    sheet_specifier false faithful n3 (u3 ++ [kw "sheet"] ++ [ident name] ++ [t] ++ us ++ tc :: ut) evs).
  { intros n3 u3 t us evs tc ut b K3 Ht D Hc Ct. destruct (token_comment _ _ _ _ K3 ltac:(auto)) as [d C]. cbn [app length] in *.
    econstructor; try eassumption. replace (n3 + length u3 + 3) with (n3 + length u3 + 1 + 1 + 1) by lia. exact D. }
  eapply spec_bindE; [apply spec_adam_sets| |].
  { intros n u evs D n0 u0 evs0 -> K0 n1 u1 evs1 -> K1 n2 u2 evs2 -> K2 n3 u3 evs3 -> K3.
    destruct K0 as (-> & t & -> & Ht & _). destruct K1 as [-> ->]. destruct K2 as [-> ->]. destruct K3 as [-> K3].
    exists (u3 ++ [kw "sheet"] ++ [ident name] ++ [t] ++ u), []. split; [rewrite app_nil_r; reflexivity|]. right. cbn [app].
    rewrite <- app_assoc. cbn [app]. apply (CL n3 u3 t u evs closing [] None); auto; [split; auto|constructor]. }
  intros []. eapply spec_bindE with (Ep := quiet); [prim| |].
  { intros n u evs [-> ->] na ua evsa -> D n0 u0 evs0 -> K0 n1 u1 evs1 -> K1 n2 u2 evs2 -> K2 n3 u3 evs3 -> K3.
    destruct K0 as (-> & t & -> & Ht & _). destruct K1 as [-> ->]. destruct K2 as [-> ->]. destruct K3 as [-> K3].
    exists (u3 ++ [kw "sheet"] ++ [ident name] ++ [t] ++ ua), []. split; [rewrite !app_nil_r; reflexivity|]. right. cbn [app]. rewrite !app_nil_r.
    rewrite <- app_assoc. cbn [app]. apply (CL n3 u3 t ua evsa closing [] None); auto; [split; auto|constructor]. }
  intros []. eapply spec_bindE with (Ep := fun _ _ _ => False) (G := a_token trail_comment_k); [|contradiction|].
  { intros n ts Hn HL. pose proof (spec_token trail_comment_k ltac:(discriminate) n ts Hn HL) as T. unfold token_ in *.
    destruct (is_token trail_comment_k ts); exact T. }
  intros trail. 
  assert (FIN : forall n n0 u0 evs0, n = n0 + length u0 -> a_token trail_comment_k n0 u0 evs0 trail ->
    forall n1 u1 evs1, n0 = n1 + length u1 -> required (a_token close_brace_k) n1 u1 evs1 tt ->
    forall n2 u2 evs2, n1 = n2 + length u2 -> unit_sets n2 u2 evs2 ->
    forall n3 u3 evs3, n2 = n3 + length u3 -> required (a_token open_brace_k) n3 u3 evs3 tt ->
    forall n4 u4 evs4, n3 = n4 + length u4 -> an_identifier n4 u4 evs4 (Some name) ->
    forall n5 u5 evs5, n4 = n5 + length u5 -> a_keyword "sheet" n5 u5 evs5 true ->
    forall n6 u6 evs6, n5 = n6 + length u6 -> a_token lead_comment_k n6 u6 evs6 lead ->
    a_sheet_specifier n6 (u6 ++ u5 ++ u4 ++ u3 ++ u2 ++ u1 ++ u0 ++ []) (evs6 ++ evs5 ++ evs4 ++ evs3 ++ evs2 ++ evs1 ++ evs0 ++ []) true).
  { intros n n0 u0 evs0 -> K0 n1 u1 evs1 -> K1 n2 u2 evs2 -> D n3 u3 evs3 -> K3 n4 u4 evs4 -> K4 n5 u5 evs5 -> K5 n6 u6 evs6 -> K6.
    destruct K0 as [-> K0]. destruct K1 as (-> & tc & -> & Hc & _). destruct K3 as (-> & t & -> & Ht & _). destruct K4 as [-> ->].
    destruct K5 as [-> ->]. destruct K6 as [-> K6]. rewrite !app_nil_r. cbn [app a_sheet_specifier].
    destruct (token_comment trail_comment_k n6 u0 trail (conj eq_refl K0) ltac:(auto)) as [b Cb].
    apply (CL n6 u6 t u2 evs2 tc u0 b); auto. split; auto. }
  eapply spec_quiet; [apply spec_ret; exact FIN|].
  intros n n0 u0 evs0 -> K0 n1 u1 evs1 -> K1 n2 u2 evs2 -> D n3 u3 evs3 -> K3 n4 u4 evs4 -> K4 n5 u5 evs5 -> K5 n6 u6 evs6 -> K6.
  destruct K0 as [-> K0]. destruct K1 as (-> & tc & -> & Hc & _). destruct K3 as (-> & t & -> & Ht & _). destruct K4 as [-> ->].
  destruct K5 as [-> ->]. destruct K6 as [-> K6]. 
  exists (u6 ++ [kw "sheet"] ++ [ident name] ++ [t] ++ u2), ([tc] ++ u0). split; [rewrite app_nil_r, <- !app_assoc; reflexivity|]. right. cbn [app].
  rewrite !app_nil_r, <- app_assoc. cbn [app]. apply (CL n6 u6 t u2 evs2 closing [] None); auto; [split; auto|constructor].
Qed.
Lemma sheet_nonempty n u evs : a_sheet_specifier n u evs true -> u <> [].
Proof. intros S E. destruct S. apply app_eq_nil in E. destruct E as [_ E]. discriminate. Qed.
Lemma star_sheets F n u evs : star a_sheet_specifier F n u evs ->
  exists us evs1 ul evs2, u = us ++ ul /\ evs = evs1 ++ evs2 /\ sheet_specifiers false faithful n us evs1 /\ F (n + length us) ul evs2.
Proof.
  intros H. induction H as [n u evs H|n u1 e1 u2 e2 G1 S (us & evs1 & ul & evs2 & -> & -> & D & L)].
  - exists [], [], u, evs. repeat split; [constructor|]. cbn [length]. rewrite Nat.add_0_r. exact H.
  - exists (u1 ++ us), (e1 ++ evs1), ul, evs2.
    split; [apply app_assoc|]. split; [apply app_assoc|]. rewrite app_length, Nat.add_assoc. split; [|exact L]. constructor; assumption.
Qed.
Lemma sheets_snoc n us evs u e : sheet_specifiers false faithful n us evs -> sheet_specifier false faithful (n + length us) u e ->
  sheet_specifiers false faithful n (us ++ u) (evs ++ e).
Proof.
  intros H. revert u e. induction H as [n|n u1 e1 us e2 H1 H IH]; intros u e D.
  - cbn [app length] in *. rewrite Nat.add_0_r in D. rewrite <- (app_nil_r u), <- (app_nil_r e). constructor; [exact D|constructor].
  - rewrite <- !app_assoc. constructor; [exact H1|]. apply IH. rewrite app_length, Nat.add_assoc in D. exact D.
Qed.
Definition sheets_read (n : nat) (u : tokens) (evs : events) : Prop :=
  exists us ul, u = us ++ ul /\ sheet_specifiers false faithful n us evs /\ leftover false ul.
Definition sheets_error (n : nat) (u : tokens) (evs : events) : Prop :=
  sheet_specifiers false faithful n u evs \/ sheet_specifiers false faithful n (u ++ [closing]) evs.
Lemma spec_sheets : spec (while (is_sheet_specifier total)) (fun n u evs _ => sheets_read n u evs) sheets_error.
Proof.
  eapply spec_conseq; [apply spec_while; [exact spec_sheet|apply sheet_nonempty]| |].
  - intros n u evs [] H. destruct (star_sheets _ _ _ _ H) as (us & e1 & ul & e2 & -> & -> & D & -> & L). rewrite app_nil_r. exists us, ul. auto.
  - intros n u evs H. destruct (star_sheets _ _ _ _ H) as (us & e1 & ul & e2 & -> & -> & D & [[-> ->]|S]); [left; rewrite !app_nil_r; exact D|].
    right. rewrite <- app_assoc. apply sheets_snoc; assumption.
Qed.
End Text.

Lemma adam_sound ts : Forall lexed_decl ts ->
  match adam_parse ts with
  | Ok evs _ rest => rest = [] /\ translation_unit false faithful ts evs
  | Err evs => exists u v, ts = u ++ v /\ (translation_unit false faithful u evs \/ translation_unit false faithful (u ++ [closing]) evs)
  | Fuel => False
  end.
Proof.
  intros HL. unfold adam_parse, adam_parse_text. set (total := length ts).
  pose proof (spec_sheets total 0 ts eq_refl HL) as S. unfold bind at 1. destruct (while (is_sheet_specifier total) ts) as [evs [] rest|evs|]; [| |contradiction].
  - destruct S as (u & -> & us & ul & -> & D & L). apply Forall_app in HL. destruct HL as [_ HL].
    unfold require, bind, token_, is_token, get. destruct rest as [|t rest].
    + cbn [eof t_name tk_beq after ret app]. split; [reflexivity|]. rewrite !app_nil_r. constructor; assumption.
    + apply Forall_inv in HL. destruct HL as [_ HL]. destruct (tk_beq (t_name t) eof_k) eqn:E.
      * apply tk_beq_spec in E. rewrite E in HL. contradiction.
      * cbn [after ret app throw]. exists (us ++ ul), (t :: rest). split; [reflexivity|]. left. rewrite app_nil_r. constructor; assumption.
  - destruct S as (u & v & -> & [D|D]); exists u, v; (split; [reflexivity|]); [left|right].
    + rewrite <- (app_nil_r u). constructor; [exact D|constructor].
    + rewrite <- (app_nil_r (u ++ [closing])). constructor; [exact D|constructor].
Qed.
