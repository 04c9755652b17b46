(** The parser is complete: every expression of the grammar is accepted, wherever it is followed by
    a token that cannot continue it, and the emitted array is the compiled expression. *)
From Coq Require Import String ZArith List Lia.
From Verif Require Import Prelude Vm_Value Vm_Model Vm_Spec Vm_Proofs Expr_Model Expr_Spec Expr_Sound.
Import ListNotations.
Ltac Zify.zify_post_hook ::= idtac.

Scheme gexpr_mut := Induction for gexpr Sort Prop
  with glevel_mut := Induction for glevel Sort Prop
  with gpostfix_mut := Induction for gpostfix Sort Prop
  with gprimary_mut := Induction for gprimary Sort Prop
  with gargs_mut := Induction for gargs Sort Prop
  with gnamed_mut := Induction for gnamed Sort Prop.
Combined Scheme grammar_ind from gexpr_mut, glevel_mut, gpostfix_mut, gprimary_mut, gargs_mut, gnamed_mut.

(** *** one token *)
Lemma is_token_hit k t ts : t_name t = k -> is_token k (t :: ts) = Some ts.
Proof. intros <-. unfold is_token, get. destruct (tk_beq (t_name t) (t_name t)) eqn:E; [reflexivity|].
  assert (tk_beq (t_name t) (t_name t) = true) by (apply tk_beq_spec; reflexivity). congruence. Qed.
Lemma is_token_value_hit k v ts : is_token_value k (mk_token k v :: ts) = Some (v, ts).
Proof. unfold is_token_value, get. cbn [t_name t_value]. destruct (tk_beq k k) eqn:E; [reflexivity|].
  assert (tk_beq k k = true) by (apply tk_beq_spec; reflexivity). congruence. Qed.
Definition hd_is (k : tk) (ts : list token) : bool := match ts with [] => tk_beq eof_k k | t :: _ => tk_beq (t_name t) k end.
Lemma is_token_miss k ts : hd_is k ts = false -> is_token k ts = None.
Proof. unfold is_token, hd_is, get. destruct ts; cbn [eof t_name]; intros ->; reflexivity. Qed.
Lemma is_token_value_miss k ts : hd_is k ts = false -> is_token_value k ts = None.
Proof. unfold is_token_value, hd_is, get. destruct ts; cbn [eof t_name]; intros ->; reflexivity. Qed.
Lemma hd_is_other k t ts : t_name t <> k -> hd_is k (t :: ts) = false.
Proof. intros H. cbn. destruct (tk_beq (t_name t) k) eqn:E; [|reflexivity]. apply tk_beq_spec in E. contradiction. Qed.
Lemma hd_is_name k k' t ts : t_name t = k' -> tk_beq k' k = false -> hd_is k (t :: ts) = false.
Proof. intros <- H. exact H. Qed.

(** *** the parsers of the levels, with fuel for [n] tokens and [k] unary operators *)
Section Levels.
Variables n k : nat.
Let x := expression_fuel n.
Let f := S n.
Definition P_unary : parser := is_unary x f k.
Definition P_mul : parser := is_binary f P_unary (level_ops LMultiplicative).
Definition P_add : parser := is_binary f P_mul (level_ops LAdditive).
Definition P_shift : parser := is_binary f P_add (level_ops LShift).
Definition P_rel : parser := is_binary f P_shift (level_ops LRelational).
Definition P_eq : parser := is_binary f P_rel (level_ops LEquality).
Definition P_band : parser := is_binary f P_eq (level_ops LBitAnd).
Definition P_bxor : parser := is_binary f P_band (level_ops LBitXor).
Definition P_bor : parser := is_binary f P_bxor (level_ops LBitOr).
Definition P_and : parser := is_logical f P_bor (level_ops LAnd).
Definition P_or : parser := is_logical f P_and (level_ops LOr).
Definition P_level (l : level) : parser :=
  match l with
  | LOr => P_or | LAnd => P_and | LBitOr => P_bor | LBitXor => P_bxor | LBitAnd => P_band
  | LEquality => P_eq | LRelational => P_rel | LShift => P_shift | LAdditive => P_add
  | LMultiplicative => P_mul | LUnary => P_unary
  end.
Definition loop_level (l : level) (m : nat) : stack -> list token -> pres :=
  match tighter l with
  | None => fun s ts => PRet true s ts
  | Some l' =>
    if is_logical_level l then logical_loop m (P_level l') (level_ops l)
    else binary_loop m (P_level l') (level_ops l)
  end.
Lemma P_level_unfold l l' s ts : tighter l = Some l' ->
  P_level l s ts = try (P_level l' s ts) (loop_level l (S n)).
Proof. destruct l; cbn [tighter]; intros H; try discriminate; injection H as <-; reflexivity. Qed.
End Levels.
Lemma P_or_is n : P_level n (S n) LOr = is_or (expression_fuel n) (S n).
Proof.
  unfold P_level, P_or, P_and, P_bor, P_bxor, P_band, P_eq, P_rel, P_shift, P_add, P_mul, P_unary,
    is_or, is_and, is_bitwise_or, is_bitwise_xor, is_bitwise_and, is_equality, is_relational, is_bitshift,
    is_additive, is_multiplicative.
  cbv zeta. cbn [level_ops]. reflexivity.
Qed.

Definition rank (l : level) : nat :=
  match l with
  | LOr => 0 | LAnd => 1 | LBitOr => 2 | LBitXor => 3 | LBitAnd => 4 | LEquality => 5
  | LRelational => 6 | LShift => 7 | LAdditive => 8 | LMultiplicative => 9 | LUnary => 10
  end.
Definition op_rank (k : tk) : option nat :=
  match k with
  | or_k => Some 0 | and_k => Some 1 | bitwise_or_k => Some 2 | bitwise_xor_k => Some 3
  | bitwise_and_k => Some 4 | equal_k | not_equal_k => Some 5
  | less_k | greater_k | less_equal_k | greater_equal_k => Some 6
  | bitwise_lshift_k | bitwise_rshift_k => Some 7 | add_k | subtract_k => Some 8
  | multiply_k | divide_k | modulus_k => Some 9
  | open_bracket_k | dot_k | open_parenthesis_k => Some 11
  | _ => None
  end.
(** no tighter operator, and no postfix, comes next *)
Definition stops (l : level) (ts : list token) : Prop :=
  match ts with [] => True | t :: _ => match op_rank (t_name t) with Some r => r <= rank l | None => True end end.
Lemma stops_tighter l l' ts : tighter l = Some l' -> stops l ts -> stops l' ts.
Proof.
  intros T. destruct ts as [|t ts]; [trivial|]. cbn. destruct (op_rank (t_name t)); [|trivial].
  assert (rank l <= rank l') by (destruct l; cbn in T; try discriminate; injection T as <-; cbn; lia). lia.
Qed.
Lemma stops_no_op l l' ts : tighter l = Some l' -> stops l ts -> match_token (level_ops l') ts = None.
Proof.
  intros T S. assert (A : forall k, In k (level_ops l') -> hd_is k ts = false).
  { intros k Hk. destruct ts as [|t ts].
    - cbn. destruct l'; cbn in Hk; intuition (subst; reflexivity).
    - cbn in S |- *. destruct (tk_beq (t_name t) k) eqn:E; [|reflexivity]. apply tk_beq_spec in E.
      rewrite E in S. exfalso.
      destruct l; cbn in T; try discriminate; injection T as <-; cbn in Hk;
        repeat (destruct Hk as [<-|Hk]; [cbn in S; lia|]); contradiction. }
  induction (level_ops l') as [|k ks IH]; [reflexivity|]. cbn [match_token].
  rewrite is_token_miss; [|apply A; left; reflexivity]. apply IH. intros k' Hk'. apply A. right. exact Hk'.
Qed.
Lemma operator_stops l k mk ts t : operator l k = Some mk -> t_name t = k -> stops l (t :: ts).
Proof. intros H Ht. cbn. rewrite Ht. destruct l; destruct k; cbn in H |- *; try discriminate; lia. Qed.
Lemma operator_match l k mk t ts : operator l k = Some mk -> t_name t = k ->
  match_token (level_ops l) (t :: ts) = Some (k, ts).
Proof.
  intros H Ht. destruct t as [k0 v]. cbn in Ht. subst k0.
  destruct l; destruct k; cbn in H; try discriminate; reflexivity.
Qed.
Lemma operator_in l k mk : operator l k = Some mk -> In k (level_ops l).
Proof. destruct l; destruct k; cbn; intros; try discriminate; auto 10. Qed.
Lemma operator_compile l k mk a b : operator l k = Some mk -> compile (mk a b) =
    if is_logical_level l then compile a ++ [VArr (compile b); VName (tk_name k)]
    else compile a ++ compile b ++ [VName (tk_name k)].
Proof.
  intros H. destruct (level_operator l k (operator_in l k mk H)) as (mk' & H' & C).
  rewrite H in H'. injection H' as <-. apply C.
Qed.
Lemma loop_stop l n k m s ts l' : tighter l' = Some l -> stops l' ts -> 0 < m ->
  loop_level n k l m s ts = PRet true s ts.
Proof.
  intros T S M. unfold loop_level. destruct (tighter l) as [l0|] eqn:E; [|reflexivity].
  pose proof (stops_no_op l' l ts T S) as N. destruct m as [|m]; [lia|].
  destruct (is_logical_level l); cbn [logical_loop binary_loop]; rewrite N; reflexivity.
Qed.

(** *** tokens that do not begin an expression *)
Definition quiet (t : token) : Prop := begins t = false.
Ltac kw t := destruct t as [k v]; destruct k; try discriminate; try reflexivity.
Lemma primary_no n t ts s : (begins t = false \/ unary (t_name t) <> None) ->
  is_primary (expression_fuel n) (S n) s (t :: ts) = PRet false s (t :: ts).
Proof.
  intros H. destruct t as [k v]. destruct k; try reflexivity;
    try (exfalso; destruct H as [H|H]; [discriminate H|apply H; reflexivity]).
  destruct H as [H|H]; [|exfalso; apply H; reflexivity].
  destruct v; try reflexivity. cbn in H. apply Bool.orb_false_iff in H. destruct H as [H H3].
  apply Bool.orb_false_iff in H. destruct H as [H1 H2].
  unfold is_primary. cbn [is_name is_token get t_name tk_beq or_else is_literal is_token_value].
  unfold is_boolean, is_empty, is_keyword. cbn [get t_name t_value tk_beq andb].
  rewrite H1, H2. cbn [or_else is_literal is_token_value get t_name tk_beq t_value andb]. rewrite H3. reflexivity.
Qed.
Lemma primary_nil n s : is_primary (expression_fuel n) (S n) s [] = PRet false s [].
Proof. reflexivity. Qed.
Lemma level_no l n k t ts s : begins t = false -> P_level n (S k) l s (t :: ts) = PRet false s (t :: ts).
Proof.
  intros H. assert (U : P_unary n (S k) s (t :: ts) = PRet false s (t :: ts)).
  { unfold P_unary. cbn [is_unary]. unfold is_postfix. rewrite primary_no by (left; exact H). cbn [try or_else].
    destruct t as [kk v]. destruct kk; try discriminate; reflexivity. }
  assert (M : forall l l', tighter l = Some l' -> P_level n (S k) l' s (t :: ts) = PRet false s (t :: ts) ->
    P_level n (S k) l s (t :: ts) = PRet false s (t :: ts)).
  { intros l0 l' T Hl. rewrite (P_level_unfold n (S k) l0 l' _ _ T), Hl. reflexivity. }
  assert (L10 : P_level n (S k) LUnary s (t :: ts) = PRet false s (t :: ts)) by exact U.
  pose proof (M LMultiplicative LUnary eq_refl L10) as L9.
  pose proof (M LAdditive LMultiplicative eq_refl L9) as L8.
  pose proof (M LShift LAdditive eq_refl L8) as L7.
  pose proof (M LRelational LShift eq_refl L7) as L6.
  pose proof (M LEquality LRelational eq_refl L6) as L5.
  pose proof (M LBitAnd LEquality eq_refl L5) as L4.
  pose proof (M LBitXor LBitAnd eq_refl L4) as L3.
  pose proof (M LBitOr LBitXor eq_refl L3) as L2.
  pose proof (M LAnd LBitOr eq_refl L2) as L1.
  pose proof (M LOr LAnd eq_refl L1) as L0.
  destruct l; assumption.
Qed.
Lemma expression_no n t ts s : begins t = false -> expression_fuel (S n) s (t :: ts) = PRet false s (t :: ts).
Proof.
  intros H. cbn [expression_fuel]. unfold is_conditional. rewrite <- P_or_is.
  rewrite level_no by exact H. reflexivity.
Qed.
Lemma expression_nil n s : expression_fuel (S n) s [] = PRet false s [].
Proof. reflexivity. Qed.

(** *** an expression that begins with an identifier does not go on with a colon *)
Definition shape (ts : list token) : Prop :=
  match ts with
  | [] => False
  | [t] => True
  | t :: t' :: _ => t_name t = identifier_k -> t_name t' <> colon_k
  end.
Lemma shape_app ts t r : shape ts -> t_name t <> colon_k -> shape (ts ++ t :: r).
Proof.
  destruct ts as [|a [|b ts]]; cbn; intros H Ht; [contradiction| |exact H]. intros _. exact Ht.
Qed.
Lemma operator_not_colon l t mk : operator l (t_name t) = Some mk -> t_name t <> colon_k.
Proof. intros H E. rewrite E in H. destruct l; discriminate. Qed.
Lemma shapes :
  (forall ts e, gexpr ts e -> shape ts) /\ (forall l ts e, glevel l ts e -> shape ts) /\
  (forall ts e, gpostfix ts e -> shape ts) /\ (forall ts e, gprimary ts e -> shape ts) /\
  (forall ts es, gargs ts es -> shape ts) /\ (forall ts kes, gnamed ts kes -> True).
Proof.
  apply grammar_ind; intros; auto;
    try (apply shape_app; [assumption|]; congruence).
  - apply shape_app; [assumption|]. eapply operator_not_colon; eassumption.
  - destruct ts as [|t ts]; [contradiction|]. cbn. intros Hop. rewrite Hop in e0. discriminate.
  - exact I. - exact I. - exact I. - exact I. - exact I.
  - cbn. intros Ha. congruence.
  - exact I.
  - cbn. congruence.
  - cbn. congruence.
  - cbn. congruence.
  - cbn. congruence.
  - destruct ts; cbn; congruence.
  - cbn. congruence.
  - destruct ts; cbn; congruence.
  - destruct ts; cbn; congruence.
Qed.
Lemma not_named n s ts rest : shape ts -> match rest with [] => True | t :: _ => t_name t <> colon_k end ->
  is_named_argument (expression_fuel n) s (ts ++ rest) = PRet false s (ts ++ rest).
Proof.
  intros S R. unfold is_named_argument. destruct ts as [|t ts]; [contradiction|]. cbn [app].
  destruct (is_token_value identifier_k (t :: ts ++ rest)) as [[v ts']|] eqn:E; [|reflexivity].
  apply is_token_value_inv in E; [|discriminate]. injection E as -> <-.
  replace (is_token colon_k (ts ++ rest)) with (@None (list token)); [reflexivity|].
  symmetry. apply is_token_miss. destruct ts as [|t' ts]; cbn [app].
  - destruct rest as [|t' rest]; [reflexivity|]. apply hd_is_other. exact R.
  - apply hd_is_other. cbn in S. apply S. reflexivity.
Qed.

(** *** completeness *)
Definition no_paren (ts : list token) : Prop := hd_is open_parenthesis_k ts = false.
Definition args_from (n m cnt : nat) (s : stack) (ts : list token) : pres :=
  must (expression_fuel n s ts) (argument_loop (expression_fuel n) m (S cnt)).
Definition named_from (n m cnt : nat) (s : stack) (ts : list token) : pres :=
  must (is_named_argument (expression_fuel n) s ts) (named_loop (expression_fuel n) m (S cnt)).

Lemma ends_stops l rest : ends rest -> stops l rest.
Proof.
  destruct rest as [|t rest]; [trivial|]. cbn. destruct (t_name t); cbn; intros; try discriminate; exact I.
Qed.
Lemma stops_no_paren l rest : stops l rest -> no_paren rest.
Proof.
  unfold no_paren. destruct rest as [|t rest]; [reflexivity|]. cbn.
  destruct (t_name t); cbn; try reflexivity. destruct l; cbn; lia.
Qed.
Lemma stops_postfix l rest : stops l rest -> hd_is open_bracket_k rest = false /\ hd_is dot_k rest = false.
Proof.
  destruct rest as [|t rest]; [split; reflexivity|]. cbn.
  destruct (t_name t); cbn; try (split; reflexivity); destruct l; cbn; lia.
Qed.
Lemma ends_question rest : ends rest -> hd_is question_k rest = false.
Proof. destruct rest as [|t rest]; [reflexivity|]. cbn. destruct (t_name t); cbn; intros; try discriminate; reflexivity. Qed.
Lemma ends_name k t rest : t_name t = k -> continues k = false -> ends (t :: rest).
Proof. intros <- H. exact H. Qed.

Lemma tk_add_beq k u : unary k = Some u -> forall s' name,
  (if tk_beq k add_k then s' else s' ++ [VName name]) = s' ++ (if tk_beq k add_k then [] else [VName name]) .
Proof. intros _ s' name. destruct (tk_beq k add_k); [rewrite app_nil_r|]; reflexivity. Qed.

Lemma complete_all :
  (forall ts e, gexpr ts e -> forall n s rest, ends rest -> length (ts ++ rest) < n ->
     expression_fuel n s (ts ++ rest) = PRet true (s ++ compile e) rest) /\
  (forall l ts e, glevel l ts e -> forall n k s rest r, stops l rest -> length (ts ++ rest) <= n ->
     length (ts ++ rest) < k ->
     (forall m, length rest < m -> loop_level n k l m (s ++ compile e) rest = r) ->
     P_level n k l s (ts ++ rest) = r) /\
  (forall ts e, gpostfix ts e -> forall n s rest r, no_paren rest -> length (ts ++ rest) <= n ->
     (forall m, length rest < m -> postfix_loop (expression_fuel n) m (s ++ compile e) rest = r) ->
     is_postfix (expression_fuel n) (S n) s (ts ++ rest) = r) /\
  (forall ts e, gprimary ts e -> forall n s rest, no_paren rest -> length (ts ++ rest) <= n ->
     is_primary (expression_fuel n) (S n) s (ts ++ rest) = PRet true (s ++ compile e) rest) /\
  (forall ts es, gargs ts es -> forall n m cnt s rest, ends rest -> hd_is comma_k rest = false ->
     length (ts ++ rest) < n -> length (ts ++ rest) < m ->
     args_from n m cnt s (ts ++ rest) = PRet true (s ++ items es ++ [count (cnt + length es); VName ".array"]) rest) /\
  (forall ts kes, gnamed ts kes -> forall n m cnt s rest, ends rest -> hd_is comma_k rest = false ->
     length (ts ++ rest) < n -> length (ts ++ rest) < m ->
     named_from n m cnt s (ts ++ rest) = PRet true (s ++ named kes ++ [count (cnt + length kes); VName ".dictionary"]) rest).
Proof.
  apply grammar_ind.
  - (* or *)
    intros ts e G IH n s rest Hr Hn. destruct n as [|n]; [lia|]. cbn [expression_fuel]. unfold is_conditional.
    rewrite <- P_or_is.
    rewrite (IH n (S n) s rest (PRet true (s ++ compile e) rest)); [|apply ends_stops; exact Hr|lia|lia|].
    + cbn [try]. rewrite is_token_miss by (apply ends_question; exact Hr). reflexivity.
    + intros m Hm. destruct m as [|m]; [lia|].
      unfold loop_level. cbn [tighter is_logical_level logical_loop level_ops match_token].
      rewrite is_token_miss; [reflexivity|]. destruct rest as [|t rest]; [reflexivity|].
      apply hd_is_other. intros E. cbn in Hr. rewrite E in Hr. discriminate.
  - (* cond *)
    intros tc c q ta a co tb b Gc IHc Hq Ga IHa Hco Gb IHb n s rest Hr Hn.
    rewrite <- app_assoc in *. cbn [app] in *. rewrite <- app_assoc in *. cbn [app] in *.
    repeat (rewrite app_length in Hn; cbn [length] in Hn).
    destruct n as [|n]; [lia|]. cbn [expression_fuel]. unfold is_conditional.
    rewrite <- P_or_is.
    assert (LL : length (tc ++ q :: ta ++ co :: tb ++ rest) <= n).
    { rewrite app_length. cbn [length]. rewrite app_length. cbn [length]. rewrite app_length. lia. }
    rewrite (IHc n (S n) s (q :: ta ++ co :: tb ++ rest) (PRet true (s ++ compile c) (q :: ta ++ co :: tb ++ rest))).
    + cbn [try]. rewrite is_token_hit by exact Hq. unfold require_expression.
      rewrite IHa; [|exact (ends_name colon_k co _ Hco eq_refl)|rewrite app_length; cbn [length]; rewrite app_length; lia].
      cbn [must app]. unfold require_token. rewrite is_token_hit by exact Hco.
      rewrite IHb; [|exact Hr|rewrite app_length; lia]. cbn [must app compile]. rewrite <- app_assoc. reflexivity.
    + cbn. rewrite Hq. exact I.
    + exact LL.
    + lia.
    + intros m Hm. destruct m as [|m]; [cbn in Hm; lia|].
      unfold loop_level. cbn [tighter is_logical_level logical_loop level_ops match_token].
      rewrite is_token_miss by (apply (hd_is_name _ question_k); [exact Hq|reflexivity]). reflexivity.
  - (* tighter *)
    intros l l' ts e T G IH n k s rest r Hs Hn Hk K.
    rewrite (P_level_unfold n k l l' _ _ T).
    rewrite (IH n k s rest (PRet true (s ++ compile e) rest)).
    + cbn [try]. apply K. rewrite app_length in Hn. lia.
    + exact (stops_tighter l l' rest T Hs).
    + exact Hn.
    + exact Hk.
    + intros m Hm. apply (loop_stop l' n k m _ rest l T Hs). lia.
  - (* binary *)
    intros l l' ta a op mk tb b T Ga IHa Hop Gb IHb n k s rest r Hs Hn Hk K.
    rewrite <- app_assoc in *. cbn [app] in *. rewrite app_length in Hn, Hk. cbn [length] in Hn, Hk. rewrite app_length in Hn, Hk.
    apply IHa; [exact (operator_stops l _ mk _ op Hop eq_refl)|rewrite app_length; cbn [length]; rewrite app_length; lia|rewrite app_length; cbn [length]; rewrite app_length; lia|].
    intros m Hm. cbn [length] in Hm. rewrite app_length in Hm.
    pose proof (operator_match l (t_name op) mk op (tb ++ rest) Hop eq_refl) as M.
    pose proof (operator_compile l (t_name op) mk a b Hop) as C.
    assert (B : forall s0, P_level n k l' s0 (tb ++ rest) = PRet true (s0 ++ compile b) rest).
    { intros s0. apply IHb; [exact (stops_tighter l l' rest T Hs)|rewrite app_length; lia|rewrite app_length; lia|].
      intros m' Hm'. apply (loop_stop l' n k m' _ rest l T Hs). lia. }
    destruct m as [|m]; [lia|].
    unfold loop_level in *. rewrite T in *. destruct (is_logical_level l); cbn [logical_loop binary_loop]; rewrite M, B; cbn [must app].
    + rewrite <- app_assoc, <- C. apply K. lia.
    + rewrite <- !app_assoc, <- C. apply K. lia.
  - (* postfix *)
    intros ts e G IH n k s rest r Hs Hn Hk K. cbn [P_level]. unfold P_unary. destruct k as [|k]; [lia|]. cbn [is_unary].
    rewrite (IH n s rest (PRet true (s ++ compile e) rest)).
    + cbn [or_else]. apply (K (S (length rest))). lia.
    + exact (stops_no_paren LUnary rest Hs).
    + exact Hn.
    + intros m Hm. destruct m as [|m]; [lia|]. cbn [postfix_loop].
      destruct (stops_postfix LUnary rest Hs) as [S1 S2]. rewrite (is_token_miss _ _ S1), (is_token_miss _ _ S2). reflexivity.
  - (* unary *)
    intros op u ts e Hu G IH n k s rest r Hs Hn Hk K. cbn [app length] in Hn, Hk |- *. cbn [P_level].
    destruct k as [|k]; [lia|].
    assert (R : r = PRet true ((s ++ compile e) ++ match un_name u with Some x => [VName x] | None => [] end) rest).
    { specialize (K (S (length rest))). unfold loop_level in K. cbn [tighter] in K. rewrite <- K by lia.
      cbn [compile]. rewrite app_assoc. reflexivity. }
    rewrite R. clear R K.
    assert (D : is_unary (expression_fuel n) (S n) k s (ts ++ rest) = PRet true (s ++ compile e) rest).
    { apply (IH n k s rest); [exact Hs|lia|lia|]. intros m Hm. reflexivity. }
    unfold P_unary. cbn [is_unary]. unfold is_postfix. rewrite primary_no by (right; rewrite Hu; discriminate).
    cbn [try or_else]. destruct op as [kk v]. cbn [t_name] in Hu. unfold is_unary_operator. cbn [get t_name].
    destruct kk; cbn in Hu; try discriminate; injection Hu as <-; rewrite D; cbn [must tk_beq un_name tk_name];
      rewrite ?app_nil_r; reflexivity.
  - (* primary *)
    intros ts e G IH n s rest r Hp Hn K. unfold is_postfix. rewrite IH; [|exact Hp|exact Hn]. cbn [try].
    apply K. rewrite app_length in Hn. lia.
  - (* index *)
    intros ta a o ti i c Ga IHa Ho Gi IHi Hc n s rest r Hp Hn K.
    rewrite <- app_assoc in *. cbn [app] in *. rewrite <- app_assoc in *. cbn [app] in *.
    repeat (rewrite app_length in Hn; cbn [length] in Hn).
    apply IHa; [apply (hd_is_name _ open_bracket_k); [exact Ho|reflexivity]| |].
    { repeat (rewrite app_length; cbn [length]). lia. }
    intros m Hm. cbn [length] in Hm. rewrite app_length in Hm. cbn [length] in Hm.
    destruct m as [|m]; [lia|]. cbn [postfix_loop]. rewrite is_token_hit by exact Ho. unfold require_expression.
    rewrite IHi; [|exact (ends_name close_bracket_k c _ Hc eq_refl)|rewrite app_length; cbn [length]; lia].
    cbn [must]. unfold require_token. rewrite is_token_hit by exact Hc.
    rewrite <- !app_assoc. specialize (K m). cbn [compile] in K. rewrite <- ?app_assoc in K. apply K. lia.
  - (* dot *)
    intros ta a d m0 Ga IHa Hd n s rest r Hp Hn K.
    rewrite <- app_assoc in *. cbn [app] in *. rewrite app_length in Hn. cbn [length] in Hn.
    apply IHa; [apply (hd_is_name _ dot_k); [exact Hd|reflexivity]| |].
    { rewrite app_length. cbn [length]. lia. }
    intros m Hm. cbn [length] in Hm. destruct m as [|m]; [lia|]. cbn [postfix_loop].
    rewrite is_token_miss by (apply (hd_is_name _ dot_k); [exact Hd|reflexivity]).
    rewrite is_token_hit by exact Hd. unfold require_token_value. rewrite is_token_value_hit.
    rewrite <- !app_assoc. specialize (K m). cbn [compile] in K. apply K. lia.
  - (* number *) intros v n s rest Hp Hn. reflexivity.
  - (* string *) intros v n s rest Hp Hn. reflexivity.
  - (* true *) intros n s rest Hp Hn. reflexivity.
  - (* false *) intros n s rest Hp Hn. reflexivity.
  - (* empty *) intros n s rest Hp Hn. reflexivity.
  - (* name *)
    intros a k n Ha Hk m s rest Hp Hn. destruct a as [ka va]. cbn in Ha. subst ka.
    destruct Hk as [-> | ->]; reflexivity.
  - (* variable *)
    intros x n s rest Hp Hn. cbn [app]. unfold is_primary.
    cbn [is_name is_token get t_name tk_beq or_else is_literal is_token_value is_boolean is_keyword andb is_empty is_array is_dictionary].
    unfold is_variable_or_function. rewrite is_token_value_hit. rewrite is_token_miss by exact Hp. reflexivity.
  - (* call0 *)
    intros f o c Ho Hc n s rest Hp Hn. cbn [app length] in *.
    unfold is_primary.
    cbn [is_name is_token get t_name tk_beq or_else is_literal is_token_value is_boolean is_keyword andb is_empty is_array is_dictionary].
    unfold is_variable_or_function. rewrite is_token_value_hit. rewrite is_token_hit by exact Ho.
    destruct n as [|n]; [lia|].
    assert (N : is_argument_expression_list (expression_fuel (S n)) (S (S n)) s (c :: rest) = PRet false s (c :: rest)).
    { unfold is_argument_expression_list, is_named_argument_list, is_named_argument.
      rewrite is_token_value_miss by (apply (hd_is_name _ close_parenthesis_k); [exact Hc|reflexivity]). cbn [try or_else].
      unfold is_argument_list. rewrite expression_no; [reflexivity|]. unfold begins. rewrite Hc. reflexivity. }
    rewrite N. unfold require_token. rewrite is_token_hit by exact Hc. cbn [or_else]. rewrite <- app_assoc. reflexivity.
  - (* call *)
    intros f o ts es c Ho G IH Hc n s rest Hp Hn. cbn [app length] in *. rewrite <- app_assoc in *. cbn [app] in *.
    unfold is_primary.
    cbn [is_name is_token get t_name tk_beq or_else is_literal is_token_value is_boolean is_keyword andb is_empty is_array is_dictionary].
    unfold is_variable_or_function. rewrite is_token_value_hit. rewrite is_token_hit by exact Ho.
    assert (N : is_argument_expression_list (expression_fuel n) (S n) s (ts ++ c :: rest) = PRet true (s ++ c_array es) (c :: rest)).
    { unfold is_argument_expression_list, is_named_argument_list.
      rewrite not_named; [|exact (proj1 (proj2 (proj2 (proj2 (proj2 shapes)))) ts es G)|congruence].
      cbn [try or_else]. unfold is_argument_list.
      pose proof (IH n (S n) 0 s (c :: rest) (ends_name _ c rest Hc eq_refl)) as A.
      unfold args_from in A. destruct (expression_fuel n s (ts ++ c :: rest)) as [[|] s1 ts1| |]; cbn [must try] in A |- *;
        [|exfalso; assert (F : PThrow = PRet true (s ++ items es ++ [count (0 + length es); VName ".array"]) (c :: rest)) by (apply A; [apply (hd_is_name _ close_parenthesis_k); [exact Hc|reflexivity]|lia|lia]); discriminate F| |].
      all: rewrite A; [|apply (hd_is_name _ close_parenthesis_k); [exact Hc|reflexivity]|lia|lia].
      all: rewrite (gargs_nonempty ts es G); reflexivity. }
    rewrite N. unfold require_token. rewrite is_token_hit by exact Hc. cbn [or_else]. rewrite compile_call, <- app_assoc. reflexivity.
  - (* call named *)
    intros f o ts es c Ho G IH Hc n s rest Hp Hn. cbn [app length] in *. rewrite <- app_assoc in *. cbn [app] in *.
    unfold is_primary.
    cbn [is_name is_token get t_name tk_beq or_else is_literal is_token_value is_boolean is_keyword andb is_empty is_array is_dictionary].
    unfold is_variable_or_function. rewrite is_token_value_hit. rewrite is_token_hit by exact Ho.
    assert (N : is_argument_expression_list (expression_fuel n) (S n) s (ts ++ c :: rest) = PRet true (s ++ c_dict es) (c :: rest)).
    { unfold is_argument_expression_list, is_named_argument_list.
      pose proof (IH n (S n) 0 s (c :: rest) (ends_name _ c rest Hc eq_refl)) as A.
      unfold named_from in A. destruct (is_named_argument (expression_fuel n) s (ts ++ c :: rest)) as [[|] s1 ts1| |]; cbn [must try] in A |- *;
        [|exfalso; assert (F : PThrow = PRet true (s ++ named es ++ [count (0 + length es); VName ".dictionary"]) (c :: rest)) by (apply A; [apply (hd_is_name _ close_parenthesis_k); [exact Hc|reflexivity]|lia|lia]); discriminate F| |].
      all: rewrite A; [|apply (hd_is_name _ close_parenthesis_k); [exact Hc|reflexivity]|lia|lia].
      all: rewrite (gnamed_nonempty ts es G); reflexivity. }
    rewrite N. unfold require_token. rewrite is_token_hit by exact Hc. cbn [or_else]. rewrite compile_calln, <- app_assoc. reflexivity.
  - (* array0 *)
    intros o c Ho Hc n s rest Hp Hn. cbn [app length] in *. destruct o as [ko vo]. cbn in Ho. subst ko.
    unfold is_primary.
    cbn [is_name is_token get t_name tk_beq or_else is_literal is_token_value is_boolean is_keyword andb is_empty].
    unfold is_array. rewrite is_token_hit by reflexivity. destruct n as [|n]; [lia|].
    unfold is_argument_list. rewrite expression_no by (unfold begins; rewrite Hc; reflexivity). cbn [try].
    unfold require_token. rewrite is_token_hit by exact Hc. reflexivity.
  - (* array *)
    intros o ts es c Ho G IH Hc n s rest Hp Hn. cbn [app length] in *. rewrite <- app_assoc in *. cbn [app] in *.
    destruct o as [ko vo]. cbn in Ho. subst ko. unfold is_primary.
    cbn [is_name is_token get t_name tk_beq or_else is_literal is_token_value is_boolean is_keyword andb is_empty].
    unfold is_array. rewrite is_token_hit by reflexivity.
    assert (N : is_argument_list (expression_fuel n) (S n) s (ts ++ c :: rest) = PRet true (s ++ c_array es) (c :: rest)).
    { unfold is_argument_list.
      pose proof (IH n (S n) 0 s (c :: rest) (ends_name _ c rest Hc eq_refl)) as A.
      unfold args_from in A. destruct (expression_fuel n s (ts ++ c :: rest)) as [[|] s1 ts1| |]; cbn [must try] in A |- *;
        [|exfalso; assert (F : PThrow = PRet true (s ++ items es ++ [count (0 + length es); VName ".array"]) (c :: rest)) by (apply A; [apply (hd_is_name _ close_bracket_k); [exact Hc|reflexivity]|lia|lia]); discriminate F| |].
      all: rewrite A; [|apply (hd_is_name _ close_bracket_k); [exact Hc|reflexivity]|lia|lia].
      all: rewrite (gargs_nonempty ts es G); reflexivity. }
    rewrite N. unfold require_token. rewrite is_token_hit by exact Hc. reflexivity.
  - (* dict0 *)
    intros o c Ho Hc n s rest Hp Hn. cbn [app length] in *. destruct o as [ko vo]. cbn in Ho. subst ko.
    unfold is_primary.
    cbn [is_name is_token get t_name tk_beq or_else is_literal is_token_value is_boolean is_keyword andb is_empty is_array].
    unfold is_dictionary. rewrite is_token_hit by reflexivity.
    unfold is_named_argument_list, is_named_argument.
    rewrite is_token_value_miss by (apply (hd_is_name _ close_brace_k); [exact Hc|reflexivity]). cbn [try].
    unfold require_token. rewrite is_token_hit by exact Hc. reflexivity.
  - (* dict *)
    intros o ts es c Ho G IH Hc n s rest Hp Hn. cbn [app length] in *. rewrite <- app_assoc in *. cbn [app] in *.
    destruct o as [ko vo]. cbn in Ho. subst ko. unfold is_primary.
    cbn [is_name is_token get t_name tk_beq or_else is_literal is_token_value is_boolean is_keyword andb is_empty is_array].
    unfold is_dictionary. rewrite is_token_hit by reflexivity.
    assert (N : is_named_argument_list (expression_fuel n) (S n) s (ts ++ c :: rest) = PRet true (s ++ c_dict es) (c :: rest)).
    { unfold is_named_argument_list.
      pose proof (IH n (S n) 0 s (c :: rest) (ends_name _ c rest Hc eq_refl)) as A.
      unfold named_from in A. destruct (is_named_argument (expression_fuel n) s (ts ++ c :: rest)) as [[|] s1 ts1| |]; cbn [must try] in A |- *;
        [|exfalso; assert (F : PThrow = PRet true (s ++ named es ++ [count (0 + length es); VName ".dictionary"]) (c :: rest)) by (apply A; [apply (hd_is_name _ close_brace_k); [exact Hc|reflexivity]|lia|lia]); discriminate F| |].
      all: rewrite A; [|apply (hd_is_name _ close_brace_k); [exact Hc|reflexivity]|lia|lia].
      all: rewrite (gnamed_nonempty ts es G); reflexivity. }
    rewrite N. unfold require_token. rewrite is_token_hit by exact Hc. reflexivity.
  - (* paren *)
    intros o ts e c Ho G IH Hc n s rest Hp Hn. cbn [app length] in *. rewrite <- app_assoc in *. cbn [app] in *.
    destruct o as [ko vo]. cbn in Ho. subst ko. unfold is_primary.
    cbn [is_name is_token get t_name tk_beq or_else is_literal is_token_value is_boolean is_keyword andb is_empty is_array is_dictionary is_variable_or_function].
    unfold require_expression. rewrite IH; [|exact (ends_name _ c rest Hc eq_refl)|lia]. cbn [must].
    unfold require_token. rewrite is_token_hit by exact Hc. reflexivity.
  - (* arg *)
    intros ts e G IH n m cnt s rest Hr Hcm Hn Hm. unfold args_from. rewrite IH; [|exact Hr|exact Hn]. cbn [must].
    destruct m as [|m]; [lia|]. cbn [argument_loop]. rewrite is_token_miss by exact Hcm.
    cbn [items length]. rewrite app_nil_r, Nat.add_1_r, app_assoc. reflexivity.
  - (* args *)
    intros ts e cm ts' es G IH Hcm Gs IHs n m cnt s rest Hr Hc Hn Hm. rewrite <- app_assoc in *. cbn [app] in *.
    unfold args_from. rewrite IH; [|exact (ends_name comma_k cm _ Hcm eq_refl)|exact Hn]. cbn [must].
    rewrite app_length in Hm, Hn. cbn [length] in Hm, Hn.
    destruct m as [|m]; [lia|]. cbn [argument_loop]. rewrite is_token_hit by exact Hcm.
    unfold require_expression. change (must (expression_fuel n (s ++ compile e) (ts' ++ rest)) _) with (args_from n m (S cnt) (s ++ compile e) (ts' ++ rest)).
    rewrite IHs; [|exact Hr|exact Hc|lia|lia]. cbn [items length]. rewrite <- !app_assoc. do 5 f_equal. f_equal. lia.
  - (* named1 *)
    intros k co ts e Hco G IH n m cnt s rest Hr Hcm Hn Hm. cbn [app length] in *. unfold named_from, is_named_argument.
    rewrite is_token_value_hit, is_token_hit by exact Hco. unfold require_expression.
    rewrite IH; [|exact Hr|lia]. cbn [must]. destruct m as [|m]; [lia|]. cbn [named_loop]. rewrite is_token_miss by exact Hcm.
    cbn [named length]. rewrite app_nil_r, Nat.add_1_r, <- !app_assoc. reflexivity.
  - (* named *)
    intros k co ts e cm ts' kes Hco G IH Hcm Gs IHs n m cnt s rest Hr Hc Hn Hm. cbn [app length] in *.
    rewrite <- app_assoc in *. cbn [app] in *. unfold named_from, is_named_argument.
    rewrite is_token_value_hit, is_token_hit by exact Hco. unfold require_expression.
    rewrite IH; [|exact (ends_name comma_k cm _ Hcm eq_refl)|lia]. cbn [must].
    rewrite app_length in Hm, Hn. cbn [length] in Hm, Hn.
    destruct m as [|m]; [lia|]. cbn [named_loop]. rewrite is_token_hit by exact Hcm.
    change (must (is_named_argument (expression_fuel n) ((s ++ [VName k]) ++ compile e) (ts' ++ rest)) _) with
      (named_from n m (S cnt) ((s ++ [VName k]) ++ compile e) (ts' ++ rest)).
    rewrite IHs; [|exact Hr|exact Hc|lia|lia]. cbn [named length]. rewrite <- !app_assoc. cbn [app]. rewrite <- !app_assoc.
    do 6 f_equal. f_equal. lia.
Qed.
