(** C57: the expression parser accepts exactly the grammar and emits the expression's code. *)
From Coq Require Import String Ascii ZArith Floats.SpecFloat List Bool Lia.
From Verif Require Import Prelude Vm_Value Vm_Model Vm_Spec Vm_Proofs Expr_Model Expr_Spec Expr_Sound Expr_Complete Expr_Total.
Import ListNotations.
Local Open Scope nat_scope.
Ltac Zify.zify_post_hook ::= idtac.

Lemma is_expression_eq s ts : is_expression s ts = expression_fuel (S (length ts)) s ts.
Proof. reflexivity. Qed.

(** What is_expression returns, for any tokens and any array it appends to: it ends; if it returns
    true the tokens it took are an expression of the grammar and it appended that expression's code and
    nothing else; it returns false exactly when the next token cannot begin an expression, and then
    nothing was taken or appended. *)
Theorem C57_parser_is_sound :
  forall (s s' : stack) (ts rest : list token), Forall lexed ts ->
    is_expression s ts = PRet true s' rest ->
    exists u e, ts = u ++ rest /\ gexpr u e /\ s' = s ++ compile e.
Proof.
  intros s s' ts rest L H. rewrite is_expression_eq in H.
  pose proof (sound_expression (S (length ts)) s ts L) as F. rewrite H in F. cbn [found] in F. exact F.
Qed.
Theorem C57_parser_terminates :
  forall (s : stack) (ts : list token), is_expression s ts <> PFuel.
Proof.
  intros s ts H. pose proof (fits_expression (S (length ts)) s ts ltac:(lia)) as F.
  rewrite is_expression_eq in H. rewrite H in F. exact F.
Qed.
Theorem C57_parser_refuses_exactly :
  forall (s : stack) (ts : list token),
    (match ts with [] => True | t :: _ => begins t = false end -> is_expression s ts = PRet false s ts) /\
    (forall s' rest, is_expression s ts = PRet false s' rest ->
       s' = s /\ rest = ts /\ match ts with [] => True | t :: _ => begins t = false end).
Proof.
  intros s ts.
  assert (A : match ts with [] => True | t :: _ => begins t = false end -> is_expression s ts = PRet false s ts).
  { rewrite is_expression_eq. destruct ts as [|t ts]; intros H; [apply expression_nil|apply expression_no; exact H]. }
  split; [exact A|]. intros s' rest H.
  pose proof (fits_expression (S (length ts)) s ts ltac:(lia)) as F. rewrite <- is_expression_eq in F. rewrite H in F.
  cbn [fits] in F. destruct F as [-> F]. rewrite (A F) in H. injection H as ->. auto.
Qed.
(** Every expression of the grammar is accepted, wherever it ends at a token that cannot continue it *)
Theorem C57_parser_is_complete :
  forall (s : stack) (ts : list token) (e : expr) (rest : list token), gexpr ts e -> ends rest ->
    is_expression s (ts ++ rest) = PRet true (s ++ compile e) rest.
Proof. intros s ts e rest G R. rewrite is_expression_eq. apply (proj1 complete_all _ _ G); [exact R|lia]. Qed.
(** So for a text that must be one expression, the parser decides the grammar *)
Corollary C57_parser_decides_the_grammar :
  forall (ts : list token) (code : list value), Forall lexed ts ->
    (is_expression [] ts = PRet true code [] <-> exists e, gexpr ts e /\ code = compile e).
Proof.
  intros ts code L. split.
  - intros H. destruct (C57_parser_is_sound _ _ _ _ L H) as (u & e & E & G & C). rewrite app_nil_r in E. subst u.
    exists e. split; [exact G|exact C].
  - intros (e & G & ->). pose proof (C57_parser_is_complete [] ts e [] G I) as H. rewrite app_nil_r in H. exact H.
Qed.
(** The grammar has one reading for each text: any two have the same code *)
Corollary C57_grammar_is_unambiguous :
  forall (ts : list token) (e1 e2 : expr), gexpr ts e1 -> gexpr ts e2 -> compile e1 = compile e2.
Proof.
  intros ts e1 e2 G1 G2.
  pose proof (C57_parser_is_complete [] ts e1 [] G1 I) as H1. pose proof (C57_parser_is_complete [] ts e2 [] G2 I) as H2.
  rewrite H1 in H2. injection H2 as H2. exact H2.
Qed.

(** Expressions written with the lexer's tokens are well formed *)
Fixpoint all_wf (l : list expr) : Prop := match l with [] => True | x :: l' => wf x /\ all_wf l' end.
Fixpoint named_wf (l : list (string * expr)) : Prop :=
  match l with [] => True | (k, x) :: l' => plain_name k /\ wf x /\ named_wf l' end.
Ltac parts H := repeat match type of H with
  | Forall _ (_ ++ _) => apply Forall_app in H; let H1 := fresh "L" in destruct H as [H1 H]; parts H1
  | Forall _ (_ :: _) => let H1 := fresh "T" in apply Forall_cons_iff in H; destruct H as [H1 H]
  end.
Lemma wf_grammar :
  (forall ts e, gexpr ts e -> Forall lexed_plain ts -> (Z.of_nat (length ts) < 2 ^ 31)%Z -> wf e) /\
  (forall l ts e, glevel l ts e -> Forall lexed_plain ts -> (Z.of_nat (length ts) < 2 ^ 31)%Z -> wf e) /\
  (forall ts e, gpostfix ts e -> Forall lexed_plain ts -> (Z.of_nat (length ts) < 2 ^ 31)%Z -> wf e) /\
  (forall ts e, gprimary ts e -> Forall lexed_plain ts -> (Z.of_nat (length ts) < 2 ^ 31)%Z -> wf e) /\
  (forall ts es, gargs ts es -> Forall lexed_plain ts -> (Z.of_nat (length ts) < 2 ^ 31)%Z ->
     all_wf es /\ length es <= S (length ts)) /\
  (forall ts kes, gnamed ts kes -> Forall lexed_plain ts -> (Z.of_nat (length ts) < 2 ^ 31)%Z ->
     named_wf kes /\ length kes <= length ts).
Proof.
  assert (LT : forall a b : nat, a <= b -> (Z.of_nat b < 2 ^ 31 -> Z.of_nat a < 2 ^ 31)%Z) by (intros; lia).
  assert (ID : forall n, lexed_plain (mk_token identifier_k (VName n)) -> plain_name n).
  { intros n (m & E & P). cbn in E. injection E as ->. exact P. }
  assert (OP : forall l k mk a b, operator l k = Some mk -> wf a -> wf b -> wf (mk a b)).
  { intros l k mk a b H. destruct l, k; try discriminate; injection H as <-; cbn [wf]; auto. }
  apply grammar_ind; intros; try (match goal with H : Forall _ _ |- _ => parts H end);
    repeat match goal with
    | IH : Forall lexed_plain ?x -> _, L : Forall lexed_plain ?x |- _ => specialize (IH L)
    | IH : (Z.of_nat (length ?x) < 2 ^ 31)%Z -> _, B : (Z.of_nat (length ?y) < 2 ^ 31)%Z |- _ =>
        assert_fails (constr_eq x y); specialize (IH (LT (length x) (length y) ltac:(repeat (rewrite app_length || cbn [length]); lia) B))
    | IH : (Z.of_nat (length ?x) < 2 ^ 31)%Z -> _, B : (Z.of_nat (length ?x) < 2 ^ 31)%Z |- _ => specialize (IH B)
    end; cbn [wf]; auto.
  all: try (eapply OP; eassumption).
  all: unfold short; try (match goal with |- wf (ELit _) => idtac end).
  all: repeat match goal with H : _ /\ _ |- _ => destruct H end.
  all: try (match goal with T : lexed_plain (mk_token number_k _) |- _ => destruct T as [? E]; cbn in E; subst; exact I end).
  all: try (match goal with T : lexed_plain (mk_token string_k _) |- _ => destruct T as [? E]; cbn in E; subst; exact I end).
  all: try (cbn; discriminate).
  all: try (match goal with H : ?k = identifier_k \/ ?k = keyword_k |- _ => destruct H; subst;
        match goal with T : lexed_plain (mk_token _ (VName _)) |- _ => destruct T as (m & E & P); cbn in E; injection E as ->; exact P end end).
  all: try (match goal with |- (plain_name _ /\ True /\ _)%type => split; [apply ID; assumption|split; [exact I|cbn; lia]] end).
  all: repeat split; auto; try (cbn [length] in *; repeat (rewrite app_length in * || cbn [length] in * ); lia).
  all: idtac.
Qed.

(** End to end with C39: the text of an expression, parsed and evaluated, yields its meaning *)
Corollary C57_parse_then_evaluate :
  forall (E : env) (ts rest : list token) (e : expr) (st : list value) (h : list event),
    overrides_binary E -> gexpr ts e -> Forall lexed_plain ts -> (Z.of_nat (length ts) < 2 ^ 31)%Z -> ends rest ->
    exists code, is_expression [] (ts ++ rest) = PRet true code rest /\
      match eval E e h with
      | (Val v, h') => runs E code (mk_state st h) (ROk (mk_state (v :: st) h'))
      | (Exn x, h') => exists junk, runs E code (mk_state st h) (RThrow x (mk_state (junk ++ st) h'))
      | (Undef, _) => runs E code (mk_state st h) RUB
      end.
Proof.
  intros E ts rest e st h O G L B R. exists (compile e). split.
  - exact (C57_parser_is_complete [] ts e rest G R).
  - exact (compile_correct E O e (proj1 wf_grammar ts e G L B) st h).
Qed.

(** *** Concrete cases *)
Definition id (n : string) : token := mk_token identifier_k (VName n).
Definition op (k : tk) : token := mk_token k VEmpty.
(** a - b - c * -d == e is ((a - b) - (c * (-d))) == e *)
Example C57_precedence :
  is_expression [] [id "a"; op subtract_k; id "b"; op subtract_k; id "c"; op multiply_k; op subtract_k; id "d";
                    op equal_k; id "e"; op semicolon_k] =
  PRet true (compile (EBin BEq (EBin BSub (EBin BSub (EVar "a") (EVar "b")) (EBin BMul (EVar "c") (EUn UNegate (EVar "d"))))
                        (EVar "e"))) [op semicolon_k].
Proof. vm_compute. reflexivity. Qed.
(** f(x: a && b, y: [1 ? @p : q.r]) *)
Example C57_nested :
  is_expression [] [id "f"; op open_parenthesis_k; id "x"; op colon_k; id "a"; op and_k; id "b"; op comma_k; id "y"; op colon_k;
                    op open_bracket_k; mk_token number_k (VNum (f_of_Z 1)); op question_k; op at_k; id "p"; op colon_k;
                    id "q"; op dot_k; id "r"; op close_bracket_k; op close_parenthesis_k] =
  PRet true (compile (ECallNamed "f" [("x"%string, EAnd (EVar "a") (EVar "b"));
     ("y"%string, EArray [ECond (ELit (VNum (f_of_Z 1))) (ELit (VName "p")) (EDot (EVar "q") "r")])])) [].
Proof. vm_compute. reflexivity. Qed.
(** the hypotheses of completeness on a concrete text: a + b ; *)
Example C57_complete_case : gexpr [id "a"; op add_k; id "b"] (EBin BAdd (EVar "a") (EVar "b")) /\ ends [op semicolon_k] /\
  Forall lexed_plain [id "a"; op add_k; id "b"].
Proof.
  split; [|split; [reflexivity|]].
  - apply g_or. do 8 (eapply g_tighter; [reflexivity|]).
    apply (g_binary LAdditive LMultiplicative [id "a"] (EVar "a") (op add_k) (EBin BAdd) [id "b"] (EVar "b"));
      [reflexivity| |reflexivity|].
    + do 2 (eapply g_tighter; [reflexivity|]). apply g_postfix, g_primary, g_variable.
    + eapply g_tighter; [reflexivity|]. apply g_postfix, g_primary, g_variable.
  - repeat constructor; eexists; (split; [reflexivity|]); cbn; discriminate.
Qed.
(** an incomplete expression is an error, not a refusal *)
Example C57_dangling_operator : is_expression [] [id "a"; op add_k] = PThrow.
Proof. vm_compute. reflexivity. Qed.
