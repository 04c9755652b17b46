(** C59: token_to_string. *)
From Coq Require Import String Ascii List Lia.
From Verif Require Import Prelude Search_Model Vm_Value Expr_Model Token_Model.
Import ListNotations.
Local Open Scope string_scope.

(** *** Specification: how the tokens of the language are written, by kind *)
Definition spelling (k : tk) : option string :=
  match k with
  | add_k => Some "+" | subtract_k => Some "-" | multiply_k => Some "*" | divide_k => Some "/" | modulus_k => Some "%"
  | and_k => Some "&&" | or_k => Some "||" | not_k => Some "!"
  | bitwise_and_k => Some "&" | bitwise_or_k => Some "|" | bitwise_xor_k => Some "^" | bitwise_negate_k => Some "~"
  | bitwise_lshift_k => Some "<<" | bitwise_rshift_k => Some ">>"
  | equal_k => Some "==" | not_equal_k => Some "!=" | less_k => Some "<" | greater_k => Some ">"
  | less_equal_k => Some "<=" | greater_equal_k => Some ">="
  | at_k => Some "@" | is_k => Some "<==" | to_k => Some "->" | assign_k => Some "="
  | open_brace_k => Some "{" | close_brace_k => Some "}" | open_bracket_k => Some "[" | close_bracket_k => Some "]"
  | open_parenthesis_k => Some "(" | close_parenthesis_k => Some ")"
  | colon_k => Some ":" | comma_k => Some "," | dot_k => Some "." | question_k => Some "?" | semicolon_k => Some ";"
  | identifier_k => Some "identifier" | keyword_k => Some "keyword" | number_k => Some "number" | string_k => Some "string"
  | lead_comment_k => Some "lead_comment" | trail_comment_k => Some "trail_comment"
  | eof_k => None
  end.

(** Every token but the end of the input is named as it is written *)
Theorem C59_tokens_are_named_partial :
  forall k s, spelling k = Some s -> token_to_string (tk_name k) = Some s.
Proof. intros k s H. destruct k; try discriminate; injection H as <-; vm_compute; reflexivity. Qed.

(** For every string at all: the answer is the table's entry for it, and there is none otherwise *)
Fixpoint assoc (n : string) (t : list (string * string)) : option string :=
  match t with [] => None | (k, s) :: t' => if String.eqb n k then Some s else assoc n t' end.
Lemma table_hits : forallb (fun e => match token_to_string (fst e) with Some s => String.eqb s (snd e) | None => false end) token_table = true.
Proof. vm_compute. reflexivity. Qed.
Lemma assoc_in n t s : assoc n t = Some s -> In (n, s) t.
Proof.
  induction t as [|[k s'] t IH]; cbn; [discriminate|]. destruct (String.eqb_spec n k) as [-> | ].
  - intros [= ->]. left. reflexivity.
  - intros H. right. apply IH, H.
Qed.
Lemma assoc_none n t i p : assoc n t = None -> nth_error t i = Some p -> String.eqb (fst p) n = false.
Proof.
  revert i. induction t as [|[k s'] t IH]; intros [|i]; cbn; try discriminate;
    destruct (String.eqb_spec n k) as [-> | E]; try discriminate.
  - intros _ [= <-]. cbn. apply String.eqb_neq. congruence.
  - intros H1 H2. exact (IH i H1 H2).
Qed.
Lemma nth_error_length {A} (l : list A) : nth_error l (List.length l) = None.
Proof. apply nth_error_None. lia. Qed.
Theorem C59_token_to_string_is_the_table :
  forall n, token_to_string n = assoc n token_table.
Proof.
  intros n. destruct (assoc n token_table) as [s|] eqn:E.
  - apply assoc_in in E. pose proof (proj1 (forallb_forall _ _) table_hits _ E) as H. cbn [fst snd] in H.
    destruct (token_to_string n) as [s'|]; [|discriminate]. apply String.eqb_eq in H. subst. reflexivity.
  - unfold token_to_string, binary_search.
    destruct (lower_bound name_less fst token_table n) as [[i k]|]; [|reflexivity].
    destruct (Nat.eqb_spec i (List.length token_table)) as [-> | N]; [rewrite nth_error_length; reflexivity|].
    destruct (nth_error token_table i) as [p|] eqn:Hp; [|reflexivity].
    rewrite (assoc_none _ _ _ _ E Hp). rewrite nth_error_length. reflexivity.
Qed.

(** But the end of the input is a token too: requiring a keyword there dereferences past the table *)
Theorem C59_end_of_input_refuted :
  token_to_string (tk_name eof_k) = None /\
  forall expected, require_keyword_message expected (tk_name eof_k) = None.
Proof. split; [|intros expected; unfold require_keyword_message]; rewrite C59_token_to_string_is_the_table; reflexivity. Qed.

(** The assertion of debug builds holds: the table is sorted, strictly *)
Theorem C59_table_is_sorted :
  forall i a b, nth_error token_table i = Some a -> nth_error token_table (S i) = Some b -> name_less (fst a) (fst b) = true.
Proof.
  assert (H : forall t, (fix go (l : list (string * string)) := match l with
     | a :: ((b :: _) as l') => name_less (fst a) (fst b) && go l' | _ => true end) t = true ->
     forall i a b, nth_error t i = Some a -> nth_error t (S i) = Some b -> name_less (fst a) (fst b) = true).
  { induction t as [|x [|y t] IH]; intros Hs i a b Ha Hb.
    - destruct i; discriminate.
    - destruct i as [|[|i]]; discriminate.
    - apply andb_prop in Hs as [H1 H2]. destruct i as [|i].
      + cbn in Ha, Hb. injection Ha as <-. injection Hb as <-. exact H1.
      + apply (IH H2 i a b Ha Hb). }
  apply H. vm_compute. reflexivity.
Qed.

Example C59_case : require_keyword_message "sheet" ".less_equal" = Some "expected `sheet`, found `<=`.".
Proof. vm_compute. reflexivity. Qed.
