(** C121: loading a property model from its text. *)
From Coq Require Import String.
From Verif Require Import Prelude Vm_Value Expr_Model Decl_Model Decl_Spec Decl_Sound Decl_Complete Decl_Props Adam_Model Adam_Spec Load_Model Load_Spec Load_Proofs.
From Coq Require Import List Lia.
Import ListNotations.
Local Open Scope nat_scope.
Ltac Zify.zify_post_hook ::= idtac.

(** A sheet whose declarations can be read from top to bottom loads; it consists of exactly the declared cells and relations, in
    order, the declared values are in it, and it is a sheet to which everything proved about sheets applies. *)
Theorem C121_what_loads :
  forall meaning bound ts evs sc, translation_unit false faithful ts evs -> reading meaning bound nothing evs sc ->
  exists Sh s, load_text meaning bound ts = Sheet (Loaded Sh s (flat_map external evs)) /\
    map parts (cells Sh) = flat_map (declared meaning) evs /\
    map (fun r => (r_cond r, r_terms r)) (rels Sh) = flat_map (related meaning) evs /\
    (forall n v, In (n, v) (sc_values sc) -> holds Sh s n v) /\
    reachable true Sh s.
Proof.
  intros meaning bound ts evs sc G R. unfold load_text. rewrite (adam_complete ts evs G).
  pose proof (loads meaning bound evs empty_sheet initial nothing [] (agrees_empty initial) (unit_calls false faithful ts evs G)) as H.
  destruct (load meaning bound evs empty_sheet initial []) as [Sh s xs|x Sh s xs|]; [|destruct (H sc R)|destruct (H sc R)].
  destruct H as (sc' & R' & A & C & L & X & P). cbn [app] in X. subst xs. exists Sh, s. split; [reflexivity|]. split; [exact C|]. split; [exact L|]. split; [|exact (P R_empty)].
  intros n v Hv. apply (agrees_holds Sh s sc' n v A).
  - eapply reading_scoped; [exact R'|]. repeat split; try constructor. intros x [].
  - rewrite (reading_det meaning bound _ _ _ _ R' R). exact Hv.
Qed.
(** And nothing else loads *)
Theorem C121_only_what_is_declared_loads :
  forall meaning bound ts Sh s xs, Forall lexed_decl ts -> load_text meaning bound ts = Sheet (Loaded Sh s xs) ->
  exists evs sc, translation_unit false faithful ts evs /\ reading meaning bound nothing evs sc.
Proof.
  intros meaning bound ts Sh s xs L E. unfold load_text in E. destruct (adam_parse ts) as [evs [] rest|evs|] eqn:Ep; try discriminate.
  apply (C88_parser_is_exact ts evs rest L) in Ep. destruct Ep as [-> G].
  pose proof (loads meaning bound evs empty_sheet initial nothing [] (agrees_empty initial) (unit_calls false faithful ts evs G)) as H.
  injection E as E. rewrite E in H. destruct H as (sc & R & _). eauto.
Qed.
(** No text makes loading fail to end, or do something undefined; when a declaration cannot be read an exception says so *)
Theorem C121_every_text_is_answered :
  forall meaning bound ts, Forall lexed_decl ts ->
  (exists r, load_text meaning bound ts = Syntax_error r) \/
  (exists Sh s xs, load_text meaning bound ts = Sheet (Loaded Sh s xs)) \/
  (exists x Sh s xs evs, load_text meaning bound ts = Sheet (Thrown x Sh s xs) /\ translation_unit false faithful ts evs /\ forall sc, ~ reading meaning bound nothing evs sc).
Proof.
  intros meaning bound ts L. unfold load_text. destruct (adam_parse ts) as [evs [] rest|evs|] eqn:Ep; [right|left; eauto|destruct (C88_parser_terminates ts L Ep)].
  apply (C88_parser_is_exact ts evs rest L) in Ep. destruct Ep as [-> G].
  pose proof (loads meaning bound evs empty_sheet initial nothing [] (agrees_empty initial) (unit_calls false faithful ts evs G)) as H.
  pose proof (load_defined meaning bound evs empty_sheet initial [] (unit_nonempty false ts evs G)) as D.
  destruct (load meaning bound evs empty_sheet initial []) as [Sh s xs|x Sh s xs|]; [left; eauto|right; eauto 8|destruct (D eq_refl)].
Qed.
(** A sheet that declares a name twice does not load *)
Theorem C121_names_are_unique :
  forall meaning bound ts evs Sh s xs, translation_unit false faithful ts evs -> load_text meaning bound ts = Sheet (Loaded Sh s xs) -> NoDup (flat_map names_declared evs).
Proof.
  intros meaning bound ts evs Sh s xs G E. unfold load_text in E. rewrite (adam_complete ts evs G) in E.
  pose proof (loads meaning bound evs empty_sheet initial nothing [] (agrees_empty initial) (unit_calls false faithful ts evs G)) as H.
  injection E as E. rewrite E in H. destruct H as (sc & R & _). pose proof (reading_names _ _ _ _ _ R) as N. cbn [nothing sc_names] in N. rewrite app_nil_r in N.
  assert (Sc : scoped sc) by (eapply reading_scoped; [exact R|]; repeat split; try constructor; intros x []). destruct Sc as (Nd & _). rewrite N in Nd. rewrite <- (rev_involutive (flat_map names_declared evs)). apply NoDup_rev. exact Nd.
Qed.

(** A text that is refused leaves the sheet as the declarations before the error make it: those of a text that begins the same way *)
Theorem C121_a_refused_text :
  forall meaning bound ts r, Forall lexed_decl ts -> load_text meaning bound ts = Syntax_error r ->
  exists u v, ts = u ++ v /\ (load_text meaning bound u = Sheet r \/ load_text meaning bound (u ++ [mk_token close_brace_k VEmpty]) = Sheet r).
Proof.
  intros meaning bound ts r L E. unfold load_text in *. destruct (adam_parse ts) as [evs [] rest|evs|] eqn:Ep; try discriminate. injection E as <-.
  destruct (C90_calls_before_an_error_of_a_sheet ts evs L Ep) as (u & v & -> & [H | H]); exists u, v; (split; [reflexivity|]); rewrite H; auto.
Qed.

(** A machine for literals and variables *)
Definition simple (code : list value) : expr := match code with [v] => Ret v | VName n :: _ => Look n Ret | _ => Fail end.
Definition kinds_and_values (r : outcome) : option (list (specifier * name * value) * nat * list name) :=
  match r with
  | Sheet (Loaded Sh s xs) => Some (map (fun ck => (c_spec (snd ck), c_name (snd ck), d_state s (fst ck))) (combine (seq 0 (length (cells Sh))) (cells Sh)), length (rels Sh), xs)
  | _ => None
  end.
Definition thrown (r : outcome) : option exn := match r with Sheet (Thrown x _ _ _) => Some x | _ => None end.
Definition seven_v : value := VNum (f_of_Z 7).
Example C121_a_sheet :
  kinds_and_values (load_text simple true (tokens_of adam_keyword
    "sheet s { input: a: 7; b; interface: x: a; unlink y <== b; constant: k: x; output: r <== y; external: z; logic: w <== a; when (a) relate { x <== y; y <== x; } invariant: i <== a; }"%string)) =
  Some ([(SInput, "a", seven_v); (SInput, "b", VEmpty); (SIfIn, "x", seven_v); (SIfOut, "x", VEmpty); (SIfIn, "y", VEmpty); (SIfOut, "y", VEmpty);
         (SConst, "k", seven_v); (SOutput, "r", VEmpty); (SLogic, "w", VEmpty); (SInvariant, "i", VEmpty)]%string, 1, ["z"%string]).
Proof. vm_compute. reflexivity. Qed.
(** Forward references and names declared twice *)
Example C121_forward_reference : thrown (load_text simple true (tokens_of adam_keyword "sheet s { input: a: b; b: 7; }"%string)) = Some XNotFound.
Proof. vm_compute. reflexivity. Qed.
Example C121_declared_twice : thrown (load_text simple true (tokens_of adam_keyword "sheet s { input: a; output: a <== 7; }"%string)) = Some XExists.
Proof. vm_compute. reflexivity. Qed.
(** An interface cell's initializer may use the cell's own name, which is then empty; an input cell's may not *)
Example C121_own_name :
  kinds_and_values (load_text simple true (tokens_of adam_keyword "sheet s { interface: a: a; }"%string)) = Some ([(SIfIn, "a", VEmpty); (SIfOut, "a", VEmpty)]%string, 0, []) /\
  thrown (load_text simple true (tokens_of adam_keyword "sheet s { input: a: a; }"%string)) = Some XNotFound.
Proof. vm_compute. split; reflexivity. Qed.
(** A suite that is bound to a sheet alone throws at a documented external section, whatever else the sheet says *)
Theorem C121_external_needs_a_model :
  forall meaning ts evs n p b d, translation_unit true faithful ts evs -> In (AddExternal n p b d) evs -> forall Sh s xs, load_text meaning false ts <> Sheet (Loaded Sh s xs).
Proof.
  intros meaning ts evs n p b d G Hin Sh s xs E. pose proof (C88_documented_sheets_are_accepted ts evs G) as Ep. unfold load_text in E. rewrite Ep in E.
  pose proof (loads meaning false evs empty_sheet initial nothing [] (agrees_empty initial) (unit_calls true faithful ts evs G)) as H.
  injection E as E. rewrite E in H. destruct H as (sc & R & _). clear - R Hin. induction R as [|sc e sc1 evs sc2 R1 Rs IH]; [destruct Hin|].
  destruct Hin as [-> | Hin]; [inversion R1; discriminate|auto].
Qed.
Example C121_external_alone : thrown (load_text simple false (tokens_of adam_keyword "sheet s { external: z; }"%string)) = Some XCast.
Proof. vm_compute. reflexivity. Qed.
