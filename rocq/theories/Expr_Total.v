(** The parser terminates within the fuel of the model and refuses only what cannot begin an expression. *)
From Coq Require Import String ZArith List Bool Lia.
From Verif Require Import Prelude Vm_Value Vm_Model Vm_Spec Expr_Model Expr_Spec Expr_Sound Expr_Complete.
Import ListNotations.
Local Open Scope nat_scope.
Ltac Zify.zify_post_hook ::= idtac.

Definition refuses (D : token -> bool) (ts : list token) : Prop :=
  match ts with [] => True | t :: _ => D t = false end.
(** A result that is not out of fuel: a success consumed a token, a refusal consumed none *)
Definition fits (D : token -> bool) (ts : list token) (r : pres) : Prop :=
  match r with
  | PRet true _ ts' => length ts' < length ts
  | PRet false _ ts' => ts' = ts /\ refuses D ts
  | PThrow => True
  | PFuel => False
  end.
(** The same for what goes on after something was found: no refusal, nothing given back *)
Definition fits_on (ts : list token) (r : pres) : Prop :=
  match r with PRet true _ ts' => length ts' <= length ts | PRet false _ _ => False | PThrow => True | PFuel => False end.

Lemma fits_on_le ts ts' r : fits_on ts r -> length ts <= length ts' -> fits_on ts' r.
Proof. destruct r as [[]| |]; cbn [fits_on]; intros; try tauto; lia. Qed.
Lemma fits_of_on D ts ts' r : fits_on ts' r -> length ts' < length ts -> fits D ts r.
Proof. destruct r as [[]| |]; cbn [fits fits_on]; intros; try tauto; lia. Qed.
Lemma fits_weaken (D D' : token -> bool) ts r : fits D ts r -> (forall t, D t = false -> D' t = false) -> fits D' ts r.
Proof.
  destruct r as [[]| |]; cbn [fits]; intros H HD; try tauto. destruct H as [H1 H2]; split; [exact H1|].
  destruct ts; cbn in *; auto.
Qed.
Lemma token_shorter k ts ts' : is_token k ts = Some ts' -> k <> eof_k -> length ts = S (length ts').
Proof. intros H Hk. destruct (is_token_inv _ _ _ H Hk) as (t & -> & _). reflexivity. Qed.
Lemma token_value_shorter k ts v ts' : is_token_value k ts = Some (v, ts') -> k <> eof_k -> length ts = S (length ts').
Proof. intros H Hk. apply is_token_value_inv in H; [|exact Hk]. subst ts. reflexivity. Qed.
Lemma match_shorter ks ts k ts' : match_token ks ts = Some (k, ts') -> ~ In eof_k ks -> length ts = S (length ts').
Proof.
  induction ks as [|k0 ks IH]; cbn [match_token]; [discriminate|]. intros H Hn.
  destruct (is_token k0 ts) as [u|] eqn:E.
  - injection H as -> ->. apply (token_shorter _ _ _ E). intros ->. apply Hn. left; reflexivity.
  - apply IH; [exact H|]. intros Hi. apply Hn. right; exact Hi.
Qed.
Lemma token_refused k ts : is_token k ts = None -> refuses (fun t => tk_beq (t_name t) k) ts.
Proof. unfold is_token. destruct ts as [|t ts]; cbn; [auto|]. destruct (tk_beq (t_name t) k); [discriminate|auto]. Qed.
Lemma token_value_refused k ts : is_token_value k ts = None -> refuses (fun t => tk_beq (t_name t) k) ts.
Proof. unfold is_token_value. destruct ts as [|t ts]; cbn; [auto|]. destruct (tk_beq (t_name t) k); [discriminate|auto]. Qed.

Lemma fits_try D ts r c : fits D ts r ->
  (forall s' ts', length ts' < length ts -> fits_on ts' (c s' ts')) -> fits D ts (try r c).
Proof.
  intros H Hc. destruct r as [[] s' ts'| |]; cbn [try fits] in *; try assumption.
  apply fits_of_on with (ts' := ts'); [apply Hc; assumption|assumption].
Qed.
Lemma fits_on_must D ts r c : fits D ts r ->
  (forall s' ts', length ts' < length ts -> fits_on ts' (c s' ts')) -> fits_on ts (must r c).
Proof.
  intros H Hc. destruct r as [[] s' ts'| |]; cbn [must fits fits_on] in *; try tauto.
  apply fits_on_le with (ts := ts'); [apply Hc; assumption|lia].
Qed.
Lemma fits_or D D' ts r c : fits D ts r -> (forall s', fits D' ts (c s' ts)) ->
  fits (fun t => D t || D' t) ts (or_else r c).
Proof.
  intros H Hc. destruct r as [[] s' ts'| |]; cbn [or_else fits] in *; try tauto.
  destruct H as [-> H]. specialize (Hc s'). destruct (c s' ts) as [[]| |]; cbn [fits] in *; try tauto.
  destruct Hc as [-> Hc]. split; [reflexivity|]. destruct ts; cbn in *; auto. rewrite H, Hc. reflexivity.
Qed.
Lemma fits_on_token k ts c : k <> eof_k -> (forall ts', S (length ts') = length ts -> fits_on ts' (c ts')) ->
  fits_on ts (require_token k ts c).
Proof.
  intros Hk Hc. unfold require_token. destruct (is_token k ts) as [ts'|] eqn:E; [|exact I].
  pose proof (token_shorter _ _ _ E Hk). apply fits_on_le with (ts := ts'); [apply Hc; lia|lia].
Qed.

Lemma fits_binary_loop ops operand n : ~ In eof_k ops ->
  forall N, (forall s ts, length ts <= N -> fits begins ts (operand s ts)) ->
  forall s ts, length ts <= N -> length ts < n -> fits_on ts (binary_loop n operand ops s ts).
Proof.
  intros Ho N Hop. induction n as [|n IH]; intros s ts HN Hn; [lia|]. cbn [binary_loop].
  destruct (match_token ops ts) as [[k ts']|] eqn:E; [|cbn [fits_on]; lia].
  pose proof (match_shorter _ _ _ _ E Ho) as L. apply fits_on_le with (ts := ts'); [|lia].
  apply fits_on_must with (D := begins); [apply Hop; lia|]. intros s' ts'' L'. apply IH; lia.
Qed.
Lemma fits_logical_loop ops operand n : ~ In eof_k ops ->
  forall N, (forall s ts, length ts <= N -> fits begins ts (operand s ts)) ->
  forall s ts, length ts <= N -> length ts < n -> fits_on ts (logical_loop n operand ops s ts).
Proof.
  intros Ho N Hop. induction n as [|n IH]; intros s ts HN Hn; [lia|]. cbn [logical_loop].
  destruct (match_token ops ts) as [[k ts']|] eqn:E; [|cbn [fits_on]; lia].
  pose proof (match_shorter _ _ _ _ E Ho) as L. apply fits_on_le with (ts := ts'); [|lia].
  apply fits_on_must with (D := begins); [apply Hop; lia|]. intros s' ts'' L'. apply IH; lia.
Qed.
Lemma fits_binary ops operand N fuel : ~ In eof_k ops -> N < fuel ->
  (forall s ts, length ts <= N -> fits begins ts (operand s ts)) ->
  forall s ts, length ts <= N -> fits begins ts (is_binary fuel operand ops s ts).
Proof.
  intros Ho Hf Hop s ts HN. unfold is_binary. apply fits_try; [apply Hop; exact HN|].
  intros s' ts' L. apply fits_binary_loop with (N := N); try assumption; lia.
Qed.
Lemma fits_logical ops operand N fuel : ~ In eof_k ops -> N < fuel ->
  (forall s ts, length ts <= N -> fits begins ts (operand s ts)) ->
  forall s ts, length ts <= N -> fits begins ts (is_logical fuel operand ops s ts).
Proof.
  intros Ho Hf Hop s ts HN. unfold is_logical. apply fits_try; [apply Hop; exact HN|].
  intros s' ts' L. apply fits_logical_loop with (N := N); try assumption; lia.
Qed.

Section Fits.
Variable expression : parser.
Variable N : nat.
Variable fuel : nat.
Hypothesis Hfuel : N < fuel.
(** the nested expressions are after a token: they are shorter than N *)
Hypothesis Hexpr : forall s ts, length ts < N -> fits begins ts (expression s ts).

Lemma fits_require s ts c : length ts < N ->
  (forall s' ts', length ts' < length ts -> fits_on ts' (c s' ts')) -> fits_on ts (require_expression expression s ts c).
Proof. intros H Hc. unfold require_expression. apply fits_on_must with (D := begins); [apply Hexpr; exact H|exact Hc]. Qed.
Lemma fits_argument_loop n : forall cnt s ts, length ts < N -> length ts < n -> fits_on ts (argument_loop expression n cnt s ts).
Proof.
  induction n as [|n IH]; intros cnt s ts HN Hn; [lia|]. cbn [argument_loop].
  destruct (is_token comma_k ts) as [ts'|] eqn:E; [|cbn [fits_on]; lia].
  pose proof (token_shorter _ _ _ E ltac:(discriminate)). apply fits_on_le with (ts := ts'); [|lia].
  apply fits_require; [lia|]. intros s' ts'' L. apply IH; lia.
Qed.
Lemma fits_argument_list s ts : length ts < N -> fits begins ts (is_argument_list expression fuel s ts).
Proof.
  intros HN. unfold is_argument_list. apply fits_try; [apply Hexpr; exact HN|].
  intros s' ts' L. apply fits_argument_loop; lia.
Qed.
Definition none (t : token) : bool := false.
Lemma refuses_none ts : refuses none ts. Proof. destruct ts; cbn; auto. Qed.
Lemma fits_named_argument s ts : length ts < N -> fits none ts (is_named_argument expression s ts).
Proof.
  intros HN. unfold is_named_argument.
  destruct (is_token_value identifier_k ts) as [[v ts']|] eqn:E; [|split; [reflexivity|apply refuses_none]].
  pose proof (token_value_shorter _ _ _ _ E ltac:(discriminate)).
  destruct (is_token colon_k ts') as [ts''|] eqn:E'; [|split; [reflexivity|apply refuses_none]].
  pose proof (token_shorter _ _ _ E' ltac:(discriminate)).
  apply fits_of_on with (ts' := ts''); [|lia]. apply fits_require; [lia|].
  intros s' ts3 L. cbn [fits_on]. lia.
Qed.
Lemma fits_named_loop n : forall cnt s ts, length ts < N -> length ts < n -> fits_on ts (named_loop expression n cnt s ts).
Proof.
  induction n as [|n IH]; intros cnt s ts HN Hn; [lia|]. cbn [named_loop].
  destruct (is_token comma_k ts) as [ts'|] eqn:E; [|cbn [fits_on]; lia].
  pose proof (token_shorter _ _ _ E ltac:(discriminate)). apply fits_on_le with (ts := ts'); [|lia].
  apply fits_on_must with (D := none); [apply fits_named_argument; lia|]. intros s' ts'' L. apply IH; lia.
Qed.
Lemma fits_named_list s ts : length ts < N -> fits none ts (is_named_argument_list expression fuel s ts).
Proof.
  intros HN. unfold is_named_argument_list. apply fits_try; [apply fits_named_argument; exact HN|].
  intros s' ts' L. apply fits_named_loop; lia.
Qed.
Definition named (k : tk) (t : token) : bool := tk_beq (t_name t) k.
Lemma fits_variable_or_function s ts : length ts <= N ->
  fits (named identifier_k) ts (is_variable_or_function expression fuel s ts).
Proof.
  intros HN. unfold is_variable_or_function.
  destruct (is_token_value identifier_k ts) as [[v ts']|] eqn:E;
    [|split; [reflexivity|apply token_value_refused; exact E]].
  pose proof (token_value_shorter _ _ _ _ E ltac:(discriminate)).
  destruct (is_token open_parenthesis_k ts') as [ts''|] eqn:E'; [|cbn [fits]; lia].
  pose proof (token_shorter _ _ _ E' ltac:(discriminate)).
  assert (F : forall s ts, fits_on ts (require_token close_parenthesis_k ts (fun ts' => PRet true (s ++ [v; VName ".function"]) ts'))).
  { intros s0 ts0. apply fits_on_token; [discriminate|]. intros u L. cbn [fits_on]. lia. }
  assert (G : fits (fun t => none t || begins t) ts'' (is_argument_expression_list expression fuel s ts'')).
  { unfold is_argument_expression_list. apply fits_or; [apply fits_named_list; lia|].
    intros s'. apply fits_argument_list. lia. }
  destruct (is_argument_expression_list expression fuel s ts'') as [[] s' ts3| |]; cbn [fits] in G.
  - apply fits_of_on with (ts' := ts3); [apply F|lia].
  - destruct G as [-> _]. apply fits_of_on with (ts' := ts''); [apply F|lia].
  - exact I.
  - contradiction.
Qed.
Lemma fits_dictionary s ts : length ts <= N -> fits (named open_brace_k) ts (is_dictionary expression fuel s ts).
Proof.
  intros HN. unfold is_dictionary.
  destruct (is_token open_brace_k ts) as [ts'|] eqn:E; [|split; [reflexivity|apply token_refused; exact E]].
  pose proof (token_shorter _ _ _ E ltac:(discriminate)).
  assert (F : forall s ts, fits_on ts (require_token close_brace_k ts (fun ts' => PRet true s ts'))).
  { intros s0 ts0. apply fits_on_token; [discriminate|]. intros u L. cbn [fits_on]. lia. }
  pose proof (fits_named_list s ts' ltac:(lia)) as G.
  destruct (is_named_argument_list expression fuel s ts') as [[] s' ts3| |]; cbn [fits] in G.
  - apply fits_of_on with (ts' := ts3); [apply F|lia].
  - destruct G as [-> _]. apply fits_of_on with (ts' := ts'); [apply F|lia].
  - exact I.
  - contradiction.
Qed.
Lemma fits_array s ts : length ts <= N -> fits (named open_bracket_k) ts (is_array expression fuel s ts).
Proof.
  intros HN. unfold is_array.
  destruct (is_token open_bracket_k ts) as [ts'|] eqn:E; [|split; [reflexivity|apply token_refused; exact E]].
  pose proof (token_shorter _ _ _ E ltac:(discriminate)).
  assert (F : forall s ts, fits_on ts (require_token close_bracket_k ts (fun ts' => PRet true s ts'))).
  { intros s0 ts0. apply fits_on_token; [discriminate|]. intros u L. cbn [fits_on]. lia. }
  pose proof (fits_argument_list s ts' ltac:(lia)) as G.
  destruct (is_argument_list expression fuel s ts') as [[] s' ts3| |]; cbn [fits] in G.
  - apply fits_of_on with (ts' := ts3); [apply F|lia].
  - destruct G as [-> _]. apply fits_of_on with (ts' := ts'); [apply F|lia].
  - exact I.
  - contradiction.
Qed.
Lemma fits_name s ts : fits (named at_k) ts (is_name s ts).
Proof.
  unfold is_name. destruct (is_token at_k ts) as [ts'|] eqn:E; [|split; [reflexivity|apply token_refused; exact E]].
  pose proof (token_shorter _ _ _ E ltac:(discriminate)).
  destruct (is_token_value keyword_k ts') as [[v ts'']|] eqn:E1.
  - pose proof (token_value_shorter _ _ _ _ E1 ltac:(discriminate)). cbn [fits]. lia.
  - destruct (is_token_value identifier_k ts') as [[v ts'']|] eqn:E2; [|exact I].
    pose proof (token_value_shorter _ _ _ _ E2 ltac:(discriminate)). cbn [fits]. lia.
Qed.
Lemma fits_literal k s ts : k <> eof_k -> fits (named k) ts (is_literal k s ts).
Proof.
  intros Hk. unfold is_literal. destruct (is_token_value k ts) as [[v ts']|] eqn:E.
  - pose proof (token_value_shorter _ _ _ _ E Hk). cbn [fits]. lia.
  - split; [reflexivity|apply token_value_refused; exact E].
Qed.
Definition keyword (n : string) (t : token) : bool :=
  tk_beq (t_name t) keyword_k && match t_value t with VName m => String.eqb m n | _ => false end.
Lemma keyword_shorter n ts ts' : is_keyword n ts = Some ts' -> length ts = S (length ts').
Proof. intros H. apply is_keyword_inv in H. subst. reflexivity. Qed.
Lemma keyword_refused n ts : is_keyword n ts = None -> refuses (keyword n) ts.
Proof.
  unfold is_keyword, keyword. destruct ts as [|t ts]; cbn; [auto|].
  destruct (tk_beq (t_name t) keyword_k && _); [discriminate|auto].
Qed.
Lemma fits_boolean s ts : fits (fun t => keyword "true" t || keyword "false" t) ts (is_boolean s ts).
Proof.
  unfold is_boolean. destruct (is_keyword "true" ts) as [ts'|] eqn:E.
  - apply keyword_shorter in E. cbn [fits]. lia.
  - destruct (is_keyword "false" ts) as [ts'|] eqn:E'.
    + apply keyword_shorter in E'. cbn [fits]. lia.
    + split; [reflexivity|]. apply keyword_refused in E, E'. destruct ts; cbn in *; auto. rewrite E, E'. reflexivity.
Qed.
Lemma fits_empty s ts : fits (keyword "empty") ts (is_empty s ts).
Proof.
  unfold is_empty. destruct (is_keyword "empty" ts) as [ts'|] eqn:E.
  - apply keyword_shorter in E. cbn [fits]. lia.
  - split; [reflexivity|apply keyword_refused; exact E].
Qed.
Lemma fits_paren s ts : length ts <= N -> fits (named open_parenthesis_k) ts
  (match is_token open_parenthesis_k ts with
   | Some ts' => require_expression expression s ts' (fun s ts => require_token close_parenthesis_k ts (fun ts => PRet true s ts))
   | None => PRet false s ts
   end).
Proof.
  intros HN. destruct (is_token open_parenthesis_k ts) as [ts'|] eqn:E; [|split; [reflexivity|apply token_refused; exact E]].
  pose proof (token_shorter _ _ _ E ltac:(discriminate)). apply fits_of_on with (ts' := ts'); [|lia].
  apply fits_require; [lia|]. intros s' ts'' L. apply fits_on_token; [discriminate|]. intros u L'. cbn [fits_on]. lia.
Qed.
Definition begins_primary (t : token) : bool :=
  begins t && match unary (t_name t) with Some _ => false | None => true end.
Lemma fits_primary s ts : length ts <= N -> fits begins_primary ts (is_primary expression fuel s ts).
Proof.
  intros HN. unfold is_primary. eapply fits_weaken.
  - apply fits_or; [apply fits_name|intros s1]. apply fits_or; [apply fits_literal; discriminate|intros s2].
    apply fits_or; [apply fits_boolean|intros s3]. apply fits_or; [apply fits_literal; discriminate|intros s4].
    apply fits_or; [apply fits_empty|intros s5]. apply fits_or; [apply fits_array; exact HN|intros s6].
    apply fits_or; [apply fits_dictionary; exact HN|intros s7].
    apply fits_or; [apply fits_variable_or_function; exact HN|intros s8]. apply fits_paren; exact HN.
  - intros [k v]. unfold named, keyword, begins_primary, begins. cbn [t_name t_value].
    destruct k; cbn; try reflexivity; try discriminate.
    destruct v; try reflexivity. destruct (String.eqb n "true"), (String.eqb n "false"), (String.eqb n "empty"); cbn; congruence.
Qed.
Lemma fits_postfix_loop n : forall s ts, length ts < N -> length ts < n -> fits_on ts (postfix_loop expression n s ts).
Proof.
  induction n as [|n IH]; intros s ts HN Hn; [lia|]. cbn [postfix_loop].
  destruct (is_token open_bracket_k ts) as [ts'|] eqn:E.
  - pose proof (token_shorter _ _ _ E ltac:(discriminate)). apply fits_on_le with (ts := ts'); [|lia].
    apply fits_require; [lia|]. intros s' ts'' L. apply fits_on_token; [discriminate|]. intros u L'. apply IH; lia.
  - destruct (is_token dot_k ts) as [ts'|] eqn:E'; [|cbn [fits_on]; lia].
    pose proof (token_shorter _ _ _ E' ltac:(discriminate)). unfold require_token_value.
    destruct (is_token_value identifier_k ts') as [[v ts'']|] eqn:E''; [|exact I].
    pose proof (token_value_shorter _ _ _ _ E'' ltac:(discriminate)).
    apply fits_on_le with (ts := ts''); [apply IH; lia|lia].
Qed.
Lemma fits_postfix s ts : length ts <= N -> fits begins_primary ts (is_postfix expression fuel s ts).
Proof.
  intros HN. unfold is_postfix. apply fits_try; [apply fits_primary; exact HN|].
  intros s' ts' L. apply fits_postfix_loop; lia.
Qed.
Lemma unary_operator_shorter ts k name ts' : is_unary_operator ts = Some (k, name, ts') -> length ts = S (length ts').
Proof.
  unfold is_unary_operator. destruct ts as [|t ts]; cbn [get]; [discriminate|].
  destruct (t_name t); try discriminate; intros [= <- <- <-]; reflexivity.
Qed.
Lemma unary_operator_refused ts : is_unary_operator ts = None ->
  refuses (fun t => match unary (t_name t) with Some _ => true | None => false end) ts.
Proof.
  unfold is_unary_operator. destruct ts as [|t ts]; cbn [get refuses]; [auto|].
  destruct (t_name t); try discriminate; reflexivity.
Qed.
Lemma fits_unary n : forall s ts, length ts <= N -> length ts < n -> fits begins ts (is_unary expression fuel n s ts).
Proof.
  induction n as [|n IH]; intros s ts HN Hn; [lia|]. cbn [is_unary]. eapply fits_weaken.
  - apply fits_or; [apply fits_postfix; exact HN|]. intros s'.
    destruct (is_unary_operator ts) as [[[k name] ts']|] eqn:E.
    + pose proof (unary_operator_shorter _ _ _ _ E). apply fits_of_on with (ts' := ts'); [|lia].
      apply fits_on_must with (D := begins); [apply IH; lia|]. intros s'' ts'' L. cbn [fits_on]. lia.
    + split; [reflexivity|apply unary_operator_refused; exact E].
  - intros t. unfold begins_primary. destruct (unary (t_name t)); cbn; [rewrite orb_true_r; discriminate|].
    rewrite andb_true_r, orb_false_r. auto.
Qed.
Lemma fits_or_expression s ts : length ts <= N -> fits begins ts (is_or expression fuel s ts).
Proof.
  revert s ts. unfold is_or, is_and, is_bitwise_or, is_bitwise_xor, is_bitwise_and, is_equality, is_relational, is_bitshift, is_additive, is_multiplicative.
  do 2 (apply fits_logical; [cbn; intuition discriminate|exact Hfuel|]).
  do 8 (apply fits_binary; [cbn; intuition discriminate|exact Hfuel|]).
  intros s ts H. apply fits_unary; lia.
Qed.
Lemma fits_conditional s ts : length ts <= N -> fits begins ts (is_conditional expression fuel s ts).
Proof.
  intros HN. unfold is_conditional. apply fits_try; [apply fits_or_expression; exact HN|].
  intros s' ts' L. destruct (is_token question_k ts') as [u|] eqn:E; [|cbn [fits_on]; lia].
  pose proof (token_shorter _ _ _ E ltac:(discriminate)). apply fits_on_le with (ts := u); [|lia].
  apply fits_require; [lia|]. intros s1 t1 L1. apply fits_on_token; [discriminate|]. intros t2 L2.
  apply fits_require; [lia|]. intros s3 t3 L3. cbn [fits_on]. lia.
Qed.
End Fits.

Theorem fits_expression n : forall s ts, length ts < n -> fits begins ts (expression_fuel n s ts).
Proof.
  induction n as [|n IH]; intros s ts H; [lia|]. cbn [expression_fuel].
  apply fits_conditional with (N := n); [lia|exact IH|lia].
Qed.
