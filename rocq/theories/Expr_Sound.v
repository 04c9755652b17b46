(** The parser is sound: what it accepts is in the grammar and it emits the compiled expression. *)
From Coq Require Import String ZArith List.
From Verif Require Import Prelude Vm_Value Vm_Model Vm_Spec Vm_Proofs Expr_Model Expr_Spec.
Import ListNotations.

Lemma tk_beq_spec a b : tk_beq a b = true <-> a = b.
Proof. split; [apply internal_tk_dec_bl|apply internal_tk_dec_lb]. Qed.
Lemma is_token_inv k ts ts' : is_token k ts = Some ts' -> k <> eof_k -> exists t, ts = t :: ts' /\ t_name t = k.
Proof.
  unfold is_token, get. destruct ts as [|t ts0]; cbn [t_name eof].
  - destruct (tk_beq eof_k k) eqn:E; [|discriminate]. apply tk_beq_spec in E. congruence.
  - destruct (tk_beq (t_name t) k) eqn:E; [|discriminate]. apply tk_beq_spec in E. intros H _.
    injection H as <-. exists t. split; [reflexivity|exact E].
Qed.
Lemma is_token_value_inv k ts v ts' : is_token_value k ts = Some (v, ts') -> k <> eof_k ->
  ts = mk_token k v :: ts'.
Proof.
  unfold is_token_value, get. destruct ts as [|[n w] ts0]; cbn [t_name t_value eof].
  - destruct (tk_beq eof_k k) eqn:E; [|discriminate]. apply tk_beq_spec in E. congruence.
  - destruct (tk_beq n k) eqn:E; [|discriminate]. apply tk_beq_spec in E. intros H _.
    injection H as <- <-. subst n. reflexivity.
Qed.
Lemma is_keyword_inv n ts ts' : is_keyword n ts = Some ts' -> ts = mk_token keyword_k (VName n) :: ts'.
Proof.
  unfold is_keyword, get. destruct ts as [|[k w] ts0]; cbn [t_name t_value eof]; [discriminate|].
  destruct (tk_beq k keyword_k) eqn:E; [|discriminate]. apply tk_beq_spec in E. subst k. cbn [andb].
  destruct w; try discriminate. destruct (String.eqb_spec n0 n) as [->|]; [|discriminate].
  intros H. injection H as <-. reflexivity.
Qed.
Lemma match_token_inv ks ts k ts' : match_token ks ts = Some (k, ts') -> ~ In eof_k ks ->
  In k ks /\ exists t, ts = t :: ts' /\ t_name t = k.
Proof.
  induction ks as [|k0 ks IH]; cbn [match_token]; [discriminate|]. intros H N.
  destruct (is_token k0 ts) as [ts0|] eqn:E.
  - injection H as <- <-. split; [left; reflexivity|]. apply is_token_inv; [exact E|].
    intros ->. apply N. left. reflexivity.
  - destruct (IH H) as [I R]; [intros I; apply N; right; exact I|]. split; [right; exact I|exact R].
Qed.

(** the parser [p] for the construct [P] *)
Definition found {A} (P : list token -> A -> Prop) (emit : A -> list value) (s : stack) (ts : list token) (r : pres) : Prop :=
  match r with
  | PRet true s' ts' => exists u e, ts = u ++ ts' /\ P u e /\ s' = s ++ emit e
  | PRet false s' ts' => s' = s /\ ts' = ts
  | _ => True
  end.
Definition sound {A} (P : list token -> A -> Prop) (emit : A -> list value) (p : parser) : Prop :=
  forall s ts, Forall lexed ts -> found P emit s ts (p s ts).

Lemma lexed_app u ts : Forall lexed (u ++ ts) -> Forall lexed ts.
Proof. intros H. apply Forall_app in H. tauto. Qed.
Lemma lexed_tail t ts : Forall lexed (t :: ts) -> Forall lexed ts.
Proof. intros H. exact (Forall_inv_tail H). Qed.
Lemma lexed_ident v ts : Forall lexed (mk_token identifier_k v :: ts) -> exists n, v = VName n.
Proof. intros H. exact (Forall_inv H). Qed.
Lemma lexed_kw v ts : Forall lexed (mk_token keyword_k v :: ts) -> exists n, v = VName n.
Proof. intros H. exact (Forall_inv H). Qed.

(** the operators of a level *)
Definition level_ops (l : level) : list tk :=
  match l with
  | LOr => [or_k] | LAnd => [and_k] | LBitOr => [bitwise_or_k] | LBitXor => [bitwise_xor_k]
  | LBitAnd => [bitwise_and_k] | LEquality => [equal_k; not_equal_k]
  | LRelational => [less_k; greater_k; less_equal_k; greater_equal_k]
  | LShift => [bitwise_lshift_k; bitwise_rshift_k] | LAdditive => [add_k; subtract_k]
  | LMultiplicative => [multiply_k; divide_k; modulus_k] | LUnary => []
  end.
Definition is_logical_level (l : level) : bool := match l with LOr | LAnd => true | _ => false end.
Lemma level_ops_eof l : ~ In eof_k (level_ops l).
Proof. destruct l; cbn; intuition discriminate. Qed.
Lemma level_operator l k : In k (level_ops l) -> exists mk, operator l k = Some mk /\
  forall a b, compile (mk a b) =
    if is_logical_level l then compile a ++ [VArr (compile b); VName (tk_name k)]
    else compile a ++ compile b ++ [VName (tk_name k)].
Proof.
  destruct l; cbn; intros H;
    repeat match goal with H : _ \/ _ |- _ => destruct H | H : _ = k |- _ => subst k | H : False |- _ => contradiction end;
    eexists; (split; [reflexivity|]); intros; reflexivity.
Qed.

Lemma sound_binary_loop l l' n operand : tighter l = Some l' -> is_logical_level l = false ->
  sound (glevel l') compile operand ->
  forall ta a s ts, glevel l ta a -> Forall lexed ts ->
    match binary_loop n operand (level_ops l) (s ++ compile a) ts with
    | PRet b s' ts' => b = true /\ exists u e, ts = u ++ ts' /\ glevel l (ta ++ u) e /\ s' = s ++ compile e
    | _ => True
    end.
Proof.
  intros T NL S. induction n as [|n IH]; intros ta a s ts Ha Hx; cbn [binary_loop]; [exact I|].
  destruct (match_token (level_ops l) ts) as [[k ts1]|] eqn:M.
  - destruct (match_token_inv _ _ _ _ M (level_ops_eof l)) as (Hk & t & -> & Ht).
    destruct (level_operator l k Hk) as (mk & Hmk & Hc). rewrite NL in Hc.
    pose proof (S (s ++ compile a) ts1 (lexed_tail _ _ Hx)) as F. unfold found in F.
    destruct (operand (s ++ compile a) ts1) as [[|] s1 ts2| |]; cbn [must]; try exact I.
    destruct F as (u & b & -> & Hb & ->).
    assert (G : glevel l (ta ++ t :: u) (mk a b)) by (eapply g_binary; [exact T|exact Ha|rewrite Ht; exact Hmk|exact Hb]).
    specialize (IH (ta ++ t :: u) (mk a b) s ts2 G (lexed_app _ _ (lexed_tail _ _ Hx))).
    rewrite Hc in IH. rewrite <- !app_assoc.
    destruct (binary_loop n operand (level_ops l) _ ts2) as [b' s' ts'| |]; try exact I.
    destruct IH as (-> & u' & e & -> & Ge & ->). split; [reflexivity|].
    exists (t :: u ++ u'), e. split; [cbn; rewrite <- app_assoc; reflexivity|]. split; [|reflexivity].
    rewrite <- app_assoc in Ge. exact Ge.
  - split; [reflexivity|]. exists [], a. rewrite app_nil_r. repeat split. exact Ha.
Qed.
Lemma sound_logical_loop l l' n operand : tighter l = Some l' -> is_logical_level l = true ->
  sound (glevel l') compile operand ->
  forall ta a s ts, glevel l ta a -> Forall lexed ts ->
    match logical_loop n operand (level_ops l) (s ++ compile a) ts with
    | PRet b s' ts' => b = true /\ exists u e, ts = u ++ ts' /\ glevel l (ta ++ u) e /\ s' = s ++ compile e
    | _ => True
    end.
Proof.
  intros T NL S. induction n as [|n IH]; intros ta a s ts Ha Hx; cbn [logical_loop]; [exact I|].
  destruct (match_token (level_ops l) ts) as [[k ts1]|] eqn:M.
  - destruct (match_token_inv _ _ _ _ M (level_ops_eof l)) as (Hk & t & -> & Ht).
    destruct (level_operator l k Hk) as (mk & Hmk & Hc). rewrite NL in Hc.
    pose proof (S [] ts1 (lexed_tail _ _ Hx)) as F. unfold found in F.
    destruct (operand [] ts1) as [[|] s1 ts2| |]; cbn [must]; try exact I.
    destruct F as (u & b & -> & Hb & ->). cbn [app].
    assert (G : glevel l (ta ++ t :: u) (mk a b)) by (eapply g_binary; [exact T|exact Ha|rewrite Ht; exact Hmk|exact Hb]).
    specialize (IH (ta ++ t :: u) (mk a b) s ts2 G (lexed_app _ _ (lexed_tail _ _ Hx))).
    rewrite Hc in IH. rewrite <- !app_assoc.
    destruct (logical_loop n operand (level_ops l) _ ts2) as [b' s' ts'| |]; try exact I.
    destruct IH as (-> & u' & e & -> & Ge & ->). split; [reflexivity|].
    exists (t :: u ++ u'), e. split; [cbn; rewrite <- app_assoc; reflexivity|]. split; [|reflexivity].
    rewrite <- app_assoc in Ge. exact Ge.
  - split; [reflexivity|]. exists [], a. rewrite app_nil_r. repeat split. exact Ha.
Qed.
Lemma sound_binary l l' n operand : tighter l = Some l' -> is_logical_level l = false ->
  sound (glevel l') compile operand -> sound (glevel l) compile (is_binary n operand (level_ops l)).
Proof.
  intros T NL S s ts Hx. unfold is_binary. pose proof (S s ts Hx) as F. unfold found in F.
  destruct (operand s ts) as [[|] s1 ts1| |]; cbn [try]; try exact F.
  destruct F as (u & a & -> & Ha & ->).
  pose proof (sound_binary_loop l l' n operand T NL S u a s ts1 (g_tighter l l' u a T Ha) (lexed_app _ _ Hx)) as L.
  destruct (binary_loop n operand (level_ops l) (s ++ compile a) ts1) as [b s' ts'| |]; try exact I.
  destruct L as (-> & u' & e & -> & Ge & ->). exists (u ++ u'), e. rewrite app_assoc. auto.
Qed.
Lemma sound_logical l l' n operand : tighter l = Some l' -> is_logical_level l = true ->
  sound (glevel l') compile operand -> sound (glevel l) compile (is_logical n operand (level_ops l)).
Proof.
  intros T NL S s ts Hx. unfold is_logical. pose proof (S s ts Hx) as F. unfold found in F.
  destruct (operand s ts) as [[|] s1 ts1| |]; cbn [try]; try exact F.
  destruct F as (u & a & -> & Ha & ->).
  pose proof (sound_logical_loop l l' n operand T NL S u a s ts1 (g_tighter l l' u a T Ha) (lexed_app _ _ Hx)) as L.
  destruct (logical_loop n operand (level_ops l) (s ++ compile a) ts1) as [b s' ts'| |]; try exact I.
  destruct L as (-> & u' & e & -> & Ge & ->). exists (u ++ u'), e. rewrite app_assoc. auto.
Qed.

Section Sound.
Variable expression : parser.
Variable fuel : nat.
Hypothesis EX : sound gexpr compile expression.

Lemma sound_require s ts c (Q : pres -> Prop) : Forall lexed ts -> Q PThrow -> Q PFuel ->
  (forall u e ts', ts = u ++ ts' -> gexpr u e -> Q (c (s ++ compile e) ts')) ->
  Q (require_expression expression s ts c).
Proof.
  intros Hx QT QF K. pose proof (EX s ts Hx) as F. unfold found in F. unfold require_expression, must.
  destruct (expression s ts) as [[|] s1 ts1| |]; try assumption.
  destruct F as (u & e & -> & Ge & ->). apply (K u e ts1 eq_refl Ge).
Qed.
Lemma sound_token k ts c (Q : pres -> Prop) : k <> eof_k -> Q PThrow ->
  (forall t ts', ts = t :: ts' -> t_name t = k -> Q (c ts')) -> Q (require_token k ts c).
Proof.
  intros Hk QT K. unfold require_token. destruct (is_token k ts) as [ts'|] eqn:E; [|exact QT].
  destruct (is_token_inv _ _ _ E Hk) as (t & -> & Ht). apply (K t ts' eq_refl Ht).
Qed.

(** argument lists; the loop appends to what was read *)
Lemma gargs_snoc ts es : gargs ts es -> forall comma u e, t_name comma = comma_k -> gexpr u e ->
  gargs (ts ++ comma :: u) (es ++ [e]).
Proof.
  induction 1 as [ts e0 H0|ts e0 c ts' es H0 Hc H IH]; intros comma u e Hcm He.
  - cbn. apply g_args; [exact H0|exact Hcm|]. constructor. exact He.
  - rewrite <- app_assoc. cbn. apply g_args; [exact H0|exact Hc|]. apply IH; assumption.
Qed.
Lemma gnamed_snoc ts kes : gnamed ts kes -> forall comma n colon u e, t_name comma = comma_k -> t_name colon = colon_k ->
  gexpr u e -> gnamed (ts ++ comma :: mk_token identifier_k (VName n) :: colon :: u) (kes ++ [(n, e)]).
Proof.
  induction 1 as [m c0 ts e0 Hc0 H0|m c0 ts e0 cm ts' kes Hc0 H0 Hcm H IH]; intros comma n colon u e Hc Hcol He.
  - cbn. apply g_named; [exact Hc0|exact H0|exact Hc|]. constructor; assumption.
  - cbn. rewrite <- app_assoc. cbn. apply g_named; [exact Hc0|exact H0|exact Hcm|]. apply IH; assumption.
Qed.
Lemma items_snoc es e : items (es ++ [e]) = items es ++ compile e.
Proof. induction es as [|x es IH]; cbn; [apply app_nil_r|]. rewrite IH, app_assoc. reflexivity. Qed.
Lemma named_snoc kes k e : named (kes ++ [(k, e)]) = named kes ++ VName k :: compile e.
Proof.
  induction kes as [|[k' x] kes IH]; cbn; [rewrite app_nil_r; reflexivity|].
  rewrite IH, app_assoc. reflexivity.
Qed.
Lemma gargs_nonempty ts es : gargs ts es -> c_array es = items es ++ [count (length es); VName ".array"].
Proof. destruct 1; reflexivity. Qed.
Lemma gnamed_nonempty ts es : gnamed ts es -> c_dict es = named es ++ [count (length es); VName ".dictionary"].
Proof. destruct 1; reflexivity. Qed.

Lemma sound_argument_loop n : forall ta es s ts, gargs ta es -> Forall lexed ts ->
  match argument_loop expression n (length es) (s ++ items es) ts with
  | PRet b s' ts' => b = true /\ exists u es', ts = u ++ ts' /\ gargs (ta ++ u) es' /\ s' = s ++ c_array es'
  | _ => True
  end.
Proof.
  induction n as [|n IH]; intros ta es s ts Ga Hx; cbn [argument_loop]; [exact I|].
  destruct (is_token comma_k ts) as [ts1|] eqn:E.
  - destruct (is_token_inv _ _ _ E) as (t & -> & Ht); [discriminate|].
    apply sound_require; try exact I; [exact (lexed_tail _ _ Hx)|]. intros u e ts2 -> Ge.
    pose proof (gargs_snoc ta es Ga t u e Ht Ge) as G.
    specialize (IH (ta ++ t :: u) (es ++ [e]) s ts2 G (lexed_app _ _ (lexed_tail _ _ Hx))).
    rewrite items_snoc, app_assoc in IH. rewrite app_length, Nat.add_comm in IH. cbn [length Nat.add] in IH.
    destruct (argument_loop expression n (S (length es)) ((s ++ items es) ++ compile e) ts2) as [b s' ts'| |]; try exact I.
    destruct IH as (-> & u' & es' & -> & G' & ->). split; [reflexivity|].
    exists (t :: u ++ u'), es'. split; [cbn; rewrite <- app_assoc; reflexivity|]. split; [|reflexivity].
    rewrite <- app_assoc in G'. cbn in G' |- *. exact G'.
  - split; [reflexivity|]. exists [], es. rewrite app_nil_r. split; [reflexivity|]. split; [exact Ga|].
    rewrite (gargs_nonempty ta es Ga), <- app_assoc. reflexivity.
Qed.
Lemma sound_argument_list : sound gargs c_array (is_argument_list expression fuel).
Proof.
  intros s ts Hx. unfold is_argument_list. pose proof (EX s ts Hx) as F. unfold found in F.
  destruct (expression s ts) as [[|] s1 ts1| |]; cbn [try]; try exact F.
  destruct F as (u & a & -> & Ha & ->).
  pose proof (sound_argument_loop fuel u [a] s ts1 (g_arg u a Ha) (lexed_app _ _ Hx)) as L.
  cbn [items length] in L. rewrite app_nil_r in L.
  destruct (argument_loop expression fuel 1 (s ++ compile a) ts1) as [b s' ts'| |]; try exact I.
  destruct L as (-> & u' & e & -> & Ge & ->). exists (u ++ u'), e. rewrite app_assoc. auto.
Qed.
Definition named1 (ts : list token) (ke : string * expr) : Prop :=
  exists colon u, ts = mk_token identifier_k (VName (fst ke)) :: colon :: u /\ t_name colon = colon_k /\ gexpr u (snd ke).
Lemma sound_named_argument : sound named1 (fun ke => VName (fst ke) :: compile (snd ke)) (is_named_argument expression).
Proof.
  intros s ts Hx. unfold is_named_argument.
  destruct (is_token_value identifier_k ts) as [[v ts1]|] eqn:E; [|split; reflexivity].
  apply is_token_value_inv in E; [|discriminate]. subst ts. destruct (lexed_ident _ _ Hx) as [n ->].
  destruct (is_token colon_k ts1) as [ts2|] eqn:E; [|split; reflexivity].
  destruct (is_token_inv _ _ _ E) as (t & -> & Ht); [discriminate|].
  apply sound_require; try exact I; [exact (lexed_tail _ _ (lexed_tail _ _ Hx))|]. intros u e ts3 -> Ge.
  exists (mk_token identifier_k (VName n) :: t :: u), (n, e). split; [reflexivity|].
  split; [exists t, u; auto|]. rewrite <- app_assoc. reflexivity.
Qed.
Lemma sound_named_loop n : forall ta es s ts, gnamed ta es -> Forall lexed ts ->
  match named_loop expression n (length es) (s ++ named es) ts with
  | PRet b s' ts' => b = true /\ exists u es', ts = u ++ ts' /\ gnamed (ta ++ u) es' /\ s' = s ++ c_dict es'
  | _ => True
  end.
Proof.
  induction n as [|n IH]; intros ta es s ts Ga Hx; cbn [named_loop]; [exact I|].
  destruct (is_token comma_k ts) as [ts1|] eqn:E.
  - destruct (is_token_inv _ _ _ E) as (t & -> & Ht); [discriminate|].
    pose proof (sound_named_argument (s ++ named es) ts1 (lexed_tail _ _ Hx)) as F. unfold found in F.
    destruct (is_named_argument expression (s ++ named es) ts1) as [[|] s1 ts2| |]; cbn [must]; try exact I.
    destruct F as (u & [k e] & -> & (colon & u0 & -> & Hcol & Ge) & ->). cbn [fst snd] in *.
    pose proof (gnamed_snoc ta es Ga t k colon u0 e Ht Hcol Ge) as G.
    specialize (IH _ (es ++ [(k, e)]) s ts2 G (lexed_app _ _ (lexed_tail _ _ Hx))).
    rewrite named_snoc, app_assoc in IH. rewrite app_length, Nat.add_comm in IH. cbn [length Nat.add] in IH.
    destruct (named_loop expression n (S (length es)) _ ts2) as [b s' ts'| |]; try exact I.
    destruct IH as (-> & u' & es' & -> & G' & ->). split; [reflexivity|].
    exists (t :: mk_token identifier_k (VName k) :: colon :: u0 ++ u'), es'.
    split; [cbn; rewrite <- app_assoc; reflexivity|]. split; [|reflexivity].
    rewrite <- app_assoc in G'. cbn in G' |- *. exact G'.
  - split; [reflexivity|]. exists [], es. rewrite app_nil_r. split; [reflexivity|]. split; [exact Ga|].
    rewrite (gnamed_nonempty ta es Ga), <- app_assoc. reflexivity.
Qed.
Lemma sound_named_list : sound gnamed c_dict (is_named_argument_list expression fuel).
Proof.
  intros s ts Hx. unfold is_named_argument_list. pose proof (sound_named_argument s ts Hx) as F. unfold found in F.
  destruct (is_named_argument expression s ts) as [[|] s1 ts1| |]; cbn [try]; try exact F.
  destruct F as (u & [k e] & -> & (colon & u0 & -> & Hcol & Ge) & ->). cbn [fst snd] in *.
  pose proof (sound_named_loop fuel _ [(k, e)] s ts1 (g_named1 k colon u0 e Hcol Ge) (lexed_app _ _ Hx)) as L.
  cbn [named length] in L. rewrite app_nil_r in L.
  destruct (named_loop expression fuel 1 (s ++ VName k :: compile e) ts1) as [b s' ts'| |]; try exact I.
  destruct L as (-> & u' & es' & -> & G' & ->). exists ((mk_token identifier_k (VName k) :: colon :: u0) ++ u'), es'.
  rewrite app_assoc. auto.
Qed.

Lemma sound_variable_or_function : sound gprimary compile (is_variable_or_function expression fuel).
Proof.
  intros s ts Hx. unfold is_variable_or_function.
  destruct (is_token_value identifier_k ts) as [[v ts1]|] eqn:E; [|split; reflexivity].
  apply is_token_value_inv in E; [|discriminate]. subst ts. destruct (lexed_ident _ _ Hx) as [f ->].
  apply lexed_tail in Hx.
  destruct (is_token open_parenthesis_k ts1) as [ts2|] eqn:E.
  2:{ exists [mk_token identifier_k (VName f)], (EVar f). split; [reflexivity|]. split; [constructor|reflexivity]. }
  destruct (is_token_inv _ _ _ E) as (o & -> & Ho); [discriminate|]. apply lexed_tail in Hx.
  unfold is_argument_expression_list.
  pose proof (sound_named_list s ts2 Hx) as F. unfold found in F.
  destruct (is_named_argument_list expression fuel s ts2) as [[|] s1 ts3| |]; cbn [or_else]; try exact I.
  - destruct F as (u & kes & -> & G & ->). apply sound_token; [discriminate|exact I|]. intros c ts4 -> Hc.
    exists (mk_token identifier_k (VName f) :: o :: u ++ [c]), (ECallNamed f kes).
    split; [cbn; rewrite <- app_assoc; reflexivity|]. split; [constructor; assumption|].
    rewrite compile_calln, app_assoc. reflexivity.
  - destruct F as [-> ->]. pose proof (sound_argument_list s ts2 Hx) as F. unfold found in F.
    destruct (is_argument_list expression fuel s ts2) as [[|] s1 ts3| |]; try exact I.
    + destruct F as (u & es & -> & G & ->). apply sound_token; [discriminate|exact I|]. intros c ts4 -> Hc.
      exists (mk_token identifier_k (VName f) :: o :: u ++ [c]), (ECall f es).
      split; [cbn; rewrite <- app_assoc; reflexivity|]. split; [constructor; assumption|].
      rewrite compile_call, app_assoc. reflexivity.
    + destruct F as [-> ->]. apply sound_token; [discriminate|exact I|]. intros c ts4 -> Hc.
      exists [mk_token identifier_k (VName f); o; c], (ECall f []).
      split; [reflexivity|]. split; [constructor; assumption|]. rewrite <- app_assoc. reflexivity.
Qed.
Lemma sound_dictionary : sound gprimary compile (is_dictionary expression fuel).
Proof.
  intros s ts Hx. unfold is_dictionary.
  destruct (is_token open_brace_k ts) as [ts2|] eqn:E; [|split; reflexivity].
  destruct (is_token_inv _ _ _ E) as (o & -> & Ho); [discriminate|]. apply lexed_tail in Hx.
  pose proof (sound_named_list s ts2 Hx) as F. unfold found in F.
  destruct (is_named_argument_list expression fuel s ts2) as [[|] s1 ts3| |]; try exact I.
  - destruct F as (u & kes & -> & G & ->). apply sound_token; [discriminate|exact I|]. intros c ts4 -> Hc.
    exists (o :: u ++ [c]), (EDict kes).
    split; [cbn; rewrite <- app_assoc; reflexivity|]. split; [constructor; assumption|reflexivity].
  - destruct F as [-> ->]. apply sound_token; [discriminate|exact I|]. intros c ts4 -> Hc.
    exists [o; c], (EDict []). split; [reflexivity|]. split; [constructor; assumption|reflexivity].
Qed.
Lemma sound_array : sound gprimary compile (is_array expression fuel).
Proof.
  intros s ts Hx. unfold is_array.
  destruct (is_token open_bracket_k ts) as [ts2|] eqn:E; [|split; reflexivity].
  destruct (is_token_inv _ _ _ E) as (o & -> & Ho); [discriminate|]. apply lexed_tail in Hx.
  pose proof (sound_argument_list s ts2 Hx) as F. unfold found in F.
  destruct (is_argument_list expression fuel s ts2) as [[|] s1 ts3| |]; try exact I.
  - destruct F as (u & kes & -> & G & ->). apply sound_token; [discriminate|exact I|]. intros c ts4 -> Hc.
    exists (o :: u ++ [c]), (EArray kes).
    split; [cbn; rewrite <- app_assoc; reflexivity|]. split; [constructor; assumption|reflexivity].
  - destruct F as [-> ->]. apply sound_token; [discriminate|exact I|]. intros c ts4 -> Hc.
    exists [o; c], (EArray []). split; [reflexivity|]. split; [constructor; assumption|reflexivity].
Qed.
Lemma sound_name : sound gprimary compile is_name.
Proof.
  intros s ts Hx. unfold is_name.
  destruct (is_token at_k ts) as [ts2|] eqn:E; [|split; reflexivity].
  destruct (is_token_inv _ _ _ E) as (a & -> & Ha); [discriminate|]. apply lexed_tail in Hx.
  destruct (is_token_value keyword_k ts2) as [[v ts1]|] eqn:E1.
  - apply is_token_value_inv in E1; [|discriminate]. subst ts2. destruct (lexed_kw _ _ Hx) as [n ->].
    exists [a; mk_token keyword_k (VName n)], (ELit (VName n)). split; [reflexivity|].
    split; [constructor; auto|reflexivity].
  - destruct (is_token_value identifier_k ts2) as [[v ts1]|] eqn:E2; [|exact I].
    apply is_token_value_inv in E2; [|discriminate]. subst ts2. destruct (lexed_ident _ _ Hx) as [n ->].
    exists [a; mk_token identifier_k (VName n)], (ELit (VName n)). split; [reflexivity|].
    split; [constructor; auto|reflexivity].
Qed.
Lemma sound_boolean : sound gprimary compile is_boolean.
Proof.
  intros s ts Hx. unfold is_boolean. destruct (is_keyword "true" ts) as [ts1|] eqn:E.
  - apply is_keyword_inv in E. subst ts. exists [mk_token keyword_k (VName "true")], (ELit (VBool true)).
    split; [reflexivity|]. split; [constructor|reflexivity].
  - destruct (is_keyword "false" ts) as [ts1|] eqn:E'; [|split; reflexivity].
    apply is_keyword_inv in E'. subst ts. exists [mk_token keyword_k (VName "false")], (ELit (VBool false)).
    split; [reflexivity|]. split; [constructor|reflexivity].
Qed.
Lemma sound_empty : sound gprimary compile is_empty.
Proof.
  intros s ts Hx. unfold is_empty. destruct (is_keyword "empty" ts) as [ts1|] eqn:E; [|split; reflexivity].
  apply is_keyword_inv in E. subst ts. exists [mk_token keyword_k (VName "empty")], (ELit VEmpty).
  split; [reflexivity|]. split; [constructor|reflexivity].
Qed.
Lemma sound_literal k : k = number_k \/ k = string_k -> sound gprimary compile (is_literal k).
Proof.
  intros Hk s ts Hx. unfold is_literal. destruct (is_token_value k ts) as [[v ts1]|] eqn:E; [|split; reflexivity].
  apply is_token_value_inv in E; [|destruct Hk as [-> | ->]; discriminate]. subst ts.
  exists [mk_token k v], (ELit v). split; [reflexivity|]. split; [|reflexivity].
  destruct Hk as [-> | ->]; constructor.
Qed.
Lemma found_or p s ts next : sound gprimary compile p -> Forall lexed ts ->
  found gprimary compile s ts (next s ts) -> found gprimary compile s ts (or_else (p s ts) next).
Proof.
  intros S Hx N. pose proof (S s ts Hx) as F. destruct (p s ts) as [[|] s1 ts1| |]; try exact F.
  cbn in F. destruct F as [-> ->]. exact N.
Qed.
Lemma sound_primary : sound gprimary compile (is_primary expression fuel).
Proof.
  intros s ts Hx. unfold is_primary.
  apply found_or; [exact sound_name|exact Hx|].
  apply found_or; [apply sound_literal; left; reflexivity|exact Hx|].
  apply found_or; [exact sound_boolean|exact Hx|].
  apply found_or; [apply sound_literal; right; reflexivity|exact Hx|].
  apply found_or; [exact sound_empty|exact Hx|].
  apply found_or; [exact sound_array|exact Hx|].
  apply found_or; [exact sound_dictionary|exact Hx|].
  apply found_or; [exact sound_variable_or_function|exact Hx|].
  destruct (is_token open_parenthesis_k ts) as [ts2|] eqn:E; [|split; reflexivity].
  destruct (is_token_inv _ _ _ E) as (o & -> & Ho); [discriminate|]. apply lexed_tail in Hx.
  apply sound_require; try exact I; [exact Hx|]. intros u e ts3 -> Ge.
  apply sound_token; [discriminate|exact I|]. intros c ts4 -> Hc.
  exists (o :: u ++ [c]), e. split; [cbn; rewrite <- app_assoc; reflexivity|].
  split; [constructor; assumption|reflexivity].
Qed.
Lemma sound_postfix_loop n : forall ta a s ts, gpostfix ta a -> Forall lexed ts ->
  match postfix_loop expression n (s ++ compile a) ts with
  | PRet b s' ts' => b = true /\ exists u e, ts = u ++ ts' /\ gpostfix (ta ++ u) e /\ s' = s ++ compile e
  | _ => True
  end.
Proof.
  induction n as [|n IH]; intros ta a s ts Ga Hx; cbn [postfix_loop]; [exact I|].
  destruct (is_token open_bracket_k ts) as [ts1|] eqn:E.
  - destruct (is_token_inv _ _ _ E) as (o & -> & Ho); [discriminate|]. apply lexed_tail in Hx.
    apply sound_require; try exact I; [exact Hx|]. intros u i ts2 -> Gi.
    apply sound_token; [discriminate|exact I|]. intros c ts3 -> Hc.
    assert (G : gpostfix (ta ++ o :: u ++ [c]) (EIndex a i)) by (constructor; assumption).
    specialize (IH _ _ s ts3 G (lexed_tail _ _ (lexed_app _ _ Hx))).
    cbn [compile] in IH. rewrite <- !app_assoc. cbn [compile] in *. rewrite <- ?app_assoc in IH.
    destruct (postfix_loop expression n _ ts3) as [b s' ts'| |]; try exact I.
    destruct IH as (-> & u' & e & -> & Ge & ->). split; [reflexivity|].
    exists (o :: u ++ c :: u'), e. split; [cbn; rewrite <- app_assoc; reflexivity|]. split; [|reflexivity].
    rewrite <- app_assoc in Ge. cbn in Ge. rewrite <- app_assoc in Ge. exact Ge.
  - destruct (is_token dot_k ts) as [ts1|] eqn:E'.
    + destruct (is_token_inv _ _ _ E') as (d & -> & Hd); [discriminate|]. apply lexed_tail in Hx.
      unfold require_token_value. destruct (is_token_value identifier_k ts1) as [[v ts2]|] eqn:E2; [|exact I].
      apply is_token_value_inv in E2; [|discriminate]. subst ts1. destruct (lexed_ident _ _ Hx) as [m ->].
      apply lexed_tail in Hx.
      assert (G : gpostfix (ta ++ [d; mk_token identifier_k (VName m)]) (EDot a m)) by (constructor; assumption).
      specialize (IH _ _ s ts2 G Hx). cbn [compile] in IH. rewrite <- !app_assoc. rewrite <- ?app_assoc in IH.
      destruct (postfix_loop expression n _ ts2) as [b s' ts'| |]; try exact I.
      destruct IH as (-> & u' & e & -> & Ge & ->). split; [reflexivity|].
      exists (d :: mk_token identifier_k (VName m) :: u'), e. split; [reflexivity|]. split; [|reflexivity].
      rewrite <- app_assoc in Ge. exact Ge.
    + split; [reflexivity|]. exists [], a. rewrite app_nil_r. repeat split. exact Ga.
Qed.
Lemma sound_postfix : sound gpostfix compile (is_postfix expression fuel).
Proof.
  intros s ts Hx. unfold is_postfix. pose proof (sound_primary s ts Hx) as F. unfold found in F.
  destruct (is_primary expression fuel s ts) as [[|] s1 ts1| |]; cbn [try]; try exact F.
  destruct F as (u & a & -> & Ha & ->).
  pose proof (sound_postfix_loop fuel u a s ts1 (g_primary u a Ha) (lexed_app _ _ Hx)) as L.
  destruct (postfix_loop expression fuel (s ++ compile a) ts1) as [b s' ts'| |]; try exact I.
  destruct L as (-> & u' & e & -> & Ge & ->). exists (u ++ u'), e. rewrite app_assoc. auto.
Qed.
Lemma is_unary_operator_inv ts k name ts' : is_unary_operator ts = Some (k, name, ts') ->
  exists t u, ts = t :: ts' /\ t_name t = k /\ unary k = Some u /\
    match un_name u with Some n => n = name /\ k <> add_k | None => k = add_k end.
Proof.
  unfold is_unary_operator, get. destruct ts as [|t ts0]; cbn; [discriminate|].
  destruct t as [k' v]; cbn. destruct k'; intros H; try discriminate; injection H as <- <- <-;
    eexists; eexists; (split; [reflexivity|]); (split; [reflexivity|]); (split; [reflexivity|]); cbn;
    try reflexivity; split; (reflexivity || discriminate).
Qed.
Lemma sound_unary n : sound (glevel LUnary) compile (is_unary expression fuel n).
Proof.
  induction n as [|n IH]; intros s ts Hx; cbn [is_unary]; [exact I|].
  pose proof (sound_postfix s ts Hx) as F. unfold found in F.
  destruct (is_postfix expression fuel s ts) as [[|] s1 ts1| |]; cbn [or_else]; try exact I.
  - destruct F as (u & a & -> & Ha & ->). exists u, a. split; [reflexivity|]. split; [constructor; exact Ha|reflexivity].
  - destruct F as [-> ->]. destruct (is_unary_operator ts) as [[[k name] ts1]|] eqn:E; [|split; reflexivity].
    destruct (is_unary_operator_inv _ _ _ _ E) as (t & op & -> & Ht & Hu & Hn).
    pose proof (IH s ts1 (lexed_tail _ _ Hx)) as G. unfold found in G.
    destruct (is_unary expression fuel n s ts1) as [[|] s1 ts2| |]; cbn [must]; try exact I.
    destruct G as (u & a & -> & Ha & ->). exists (t :: u), (EUn op a). split; [reflexivity|].
    split; [constructor; [rewrite Ht; exact Hu|exact Ha]|]. cbn [compile].
    destruct (un_name op) as [m|].
    + destruct Hn as [-> Hk]. destruct (tk_beq k add_k) eqn:B; [apply tk_beq_spec in B; contradiction|].
      rewrite app_assoc. reflexivity.
    + subst k. cbn. rewrite Hn, app_nil_r. reflexivity.
Qed.
Lemma sound_or : sound (glevel LOr) compile (is_or expression fuel).
Proof.
  unfold is_or. apply (sound_logical LOr LAnd); [reflexivity|reflexivity|].
  unfold is_and. apply (sound_logical LAnd LBitOr); [reflexivity|reflexivity|].
  unfold is_bitwise_or. apply (sound_binary LBitOr LBitXor); [reflexivity|reflexivity|].
  unfold is_bitwise_xor. apply (sound_binary LBitXor LBitAnd); [reflexivity|reflexivity|].
  unfold is_bitwise_and. apply (sound_binary LBitAnd LEquality); [reflexivity|reflexivity|].
  unfold is_equality. apply (sound_binary LEquality LRelational); [reflexivity|reflexivity|].
  unfold is_relational. apply (sound_binary LRelational LShift); [reflexivity|reflexivity|].
  unfold is_bitshift. apply (sound_binary LShift LAdditive); [reflexivity|reflexivity|].
  unfold is_additive. apply (sound_binary LAdditive LMultiplicative); [reflexivity|reflexivity|].
  unfold is_multiplicative. apply (sound_binary LMultiplicative LUnary); [reflexivity|reflexivity|].
  apply sound_unary.
Qed.
Lemma sound_conditional : sound gexpr compile (is_conditional expression fuel).
Proof.
  intros s ts Hx. unfold is_conditional. pose proof (sound_or s ts Hx) as F. unfold found in F.
  destruct (is_or expression fuel s ts) as [[|] s1 ts1| |]; cbn [try]; try exact F.
  destruct F as (tc & c & -> & Hc & ->). apply lexed_app in Hx.
  destruct (is_token question_k ts1) as [ts2|] eqn:E.
  - destruct (is_token_inv _ _ _ E) as (q & -> & Hq); [discriminate|]. apply lexed_tail in Hx.
    apply sound_require; try exact I; [exact Hx|]. intros ta a ts3 -> Ga. apply lexed_app in Hx.
    apply sound_token; [discriminate|exact I|]. intros co ts4 -> Hco. apply lexed_tail in Hx.
    apply sound_require; try exact I; [exact Hx|]. intros tb b ts5 -> Gb.
    exists (tc ++ q :: ta ++ co :: tb), (ECond c a b).
    split; [rewrite <- app_assoc; cbn; rewrite <- app_assoc; reflexivity|].
    split; [constructor; assumption|]. cbn [compile app]. rewrite <- app_assoc. reflexivity.
  - exists tc, c. split; [reflexivity|]. split; [constructor; exact Hc|reflexivity].
Qed.
End Sound.

Theorem sound_expression n : sound gexpr compile (expression_fuel n).
Proof.
  induction n as [|n IH]; cbn [expression_fuel]; [intros s ts _; exact I|].
  apply sound_conditional. exact IH.
Qed.
