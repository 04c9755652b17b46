(** C122: loading a layout from its text. *)
From Coq Require Import String.
From Verif Require Import Prelude Vm_Value Expr_Model Decl_Model Decl_Spec Decl_Sound Decl_Complete Decl_Props Adam_Model Adam_Spec Adam_Example Load_Model Load_Spec Load_Proofs Load_Props LayLoad_Model LayLoad_Spec LayLoad_Proofs.
From Coq Require Import List Lia.
Import ListNotations.
Local Open Scope nat_scope.
Ltac Zify.zify_post_hook ::= idtac.

Section Text.
Variable meaning : list value -> expr.
Variable arguments : sheet -> dyn -> list value -> option (list (string * value)).
Variable accepts : list vcall -> vcall -> bool.
Variable D : sched.
Variable listening : nat -> bool.
Notation lay_text := (lay_text meaning arguments accepts D listening).
Notation lay := (lay meaning arguments accepts D listening).

Lemma lay_parts evs v Sh0 s0 : lay evs empty_sheet initial [] = Laid Sh0 s0 [] -> forall Sh s cs,
  lay (evs ++ FinalizeSheet :: view_calls None 0 v) empty_sheet initial [] = Laid Sh s cs <->
  Sh = Sh0 /\ (exists ns, update Sh0 D listening s0 = Some (ROk ns s)) /\ shows (arguments Sh0 s) None 0 v cs /\ taken_all accepts cs.
Proof.
  intros E Sh s cs. rewrite lay_app, E. cbn [LayLoad_Model.lay act].
  destruct (update Sh0 D listening s0) as [[ns s1|x s1|]|] eqn:U.
  2-4: (split; [discriminate|intros (_ & (ns & H) & _); discriminate]).
  pose proof (lay_views meaning arguments accepts D listening (view_calls None 0 v) Sh0 s1 [] (view_calls_views v None 0)) as V.
  destruct (lay (view_calls None 0 v) Sh0 s1 []) as [Sh' s' vs'|Sh' s' vs'|]; [| |destruct V].
  - destruct V as (-> & -> & cs' & Hc & -> & Ha). cbn [app] in *. split.
    + intros H. injection H as <- <- <-. split; [reflexivity|]. split; [eauto|]. split; [apply calls_shows; exact Hc|exact Ha].
    + intros (-> & (ns' & H) & Hs & Ht). injection H as <- <-. apply (proj1 (shows_calls _)) in Hs as [Hs _]. f_equal.
      clear - Hc Hs. revert cs Hs. induction Hc as [|e c evs cs' H Hc IH]; intros cs Hs; inversion Hs as [|? c2 ? cs2 H2 Hs2]; subst; [reflexivity|]. f_equal; [|now apply IH].
      destruct e; cbn [call_of] in *; try (destruct H; fail). destruct H as (m & Hm & ->), H2 as (m2 & Hm2 & ->). congruence.
  - destruct V as (-> & -> & Hn). split; [discriminate|]. intros (-> & (ns' & H) & Hs & Ht). injection H as <- <-. apply (proj1 (shows_calls _)) in Hs as [Hs _]. destruct (Hn cs Hs Ht).
Qed.
(** A text that begins with a layout whose declarations can be read from top to bottom: its sheet consists of the declared cells and
    relations, holding the declared values.  The layout is then laid out exactly when the sheet can be solved, the parameters of every
    view come to a dictionary in the solved sheet and the client takes every view; the client is shown the views of the text, each
    before those in it, with its class, its parameters and its parent. *)
Theorem C122_what_loads :
  forall u cells v rest sc, layout_specifier false accumulating u cells v -> reading meaning true nothing cells sc ->
  exists Sh0 s0,
    map parts (Adam_Model.cells Sh0) = flat_map (declared meaning) cells /\
    map (fun r => (r_cond r, r_terms r)) (rels Sh0) = flat_map (related meaning) cells /\
    (forall n w, In (n, w) (sc_values sc) -> holds Sh0 s0 n w) /\
    reachable true Sh0 s0 /\
    forall Sh s cs, lay_text (u ++ rest) = Layout (Laid Sh s cs) <->
      Sh = Sh0 /\ (exists ns, update Sh0 D listening s0 = Some (ROk ns s)) /\ shows (arguments Sh0 s) None 0 v cs /\ taken_all accepts cs.
Proof.
  intros u cells v rest sc G R. destruct (layout_cells false u cells v G) as [Le Ln]. destruct (eve_complete u cells v rest G) as (rest' & Ep & _).
  assert (Se : Forall sheet_event cells) by (eapply Forall_impl; [|exact Le]; intros []; cbn; auto).
  pose proof (loads meaning true cells empty_sheet initial nothing [] (agrees_empty initial) Se) as H. pose proof (lay_load meaning arguments accepts D listening cells empty_sheet initial [] [] Le) as El.
  destruct (load meaning true cells empty_sheet initial []) as [Sh s xs|x Sh s xs|]; [|destruct (H sc R)|destruct (H sc R)]. cbn [embed] in El.
  destruct H as (sc' & R' & A & C & L & X & P). exists Sh, s. split; [exact C|]. split; [exact L|]. split; [|split; [exact (P R_empty)|]].
  - intros n w Hv. apply (agrees_holds Sh s sc' n w A).
    + eapply reading_scoped; [exact R'|]. repeat split; try constructor. intros x [].
    + rewrite (reading_det meaning true _ _ _ _ R' R). exact Hv.
  - intros Sh' s' cs. unfold LayLoad_Model.lay_text. rewrite Ep. rewrite <- (lay_parts cells v Sh s El). split; [intros E; injection E as E; exact E|intros ->; reflexivity].
Qed.
(** And nothing else is laid out *)
Theorem C122_only_what_is_declared_loads :
  forall ts Sh s cs, Forall lexed_decl ts -> lay_text ts = Layout (Laid Sh s cs) ->
  exists u cells v rest sc, ts = u ++ rest /\ layout_specifier false accumulating u cells v /\ reading meaning true nothing cells sc.
Proof.
  intros ts Sh s cs L E. unfold LayLoad_Model.lay_text in E. destruct (eve_parse ts) as [evs [] rest0|evs|] eqn:Ep; try discriminate.
  destruct (proj1 (C89_parser_is_exact ts evs L) (ex_intro _ rest0 Ep)) as (u & cells & v & rest & -> & G & ->).
  destruct (layout_cells false u cells v G) as [Le Ln]. assert (Se : Forall sheet_event cells) by (eapply Forall_impl; [|exact Le]; intros []; cbn; auto).
  pose proof (loads meaning true cells empty_sheet initial nothing [] (agrees_empty initial) Se) as H. pose proof (lay_load meaning arguments accepts D listening cells empty_sheet initial [] [] Le) as El.
  injection E as E. rewrite lay_app, El in E. destruct (load meaning true cells empty_sheet initial []) as [Sh1 s1 xs|x Sh1 s1 xs|]; [|discriminate|discriminate].
  destruct H as (sc & R & _). exists u, cells, v, rest, sc. auto.
Qed.
(** The client is shown no view before the sheet has been solved, even when the layout fails *)
Theorem C122_sheet_first :
  forall ts Sh s c cs, Forall lexed_decl ts -> lay_text ts = Layout (Laid Sh s (c :: cs)) \/ lay_text ts = Layout (Failed Sh s (c :: cs)) ->
  exists s0 ns, reachable true Sh s0 /\ update Sh D listening s0 = Some (ROk ns s).
Proof.
  intros ts Sh s c cs L E. unfold LayLoad_Model.lay_text in E. destruct (eve_parse ts) as [evs [] rest0|evs|] eqn:Ep; try (destruct E; discriminate).
  destruct (proj1 (C89_parser_is_exact ts evs L) (ex_intro _ rest0 Ep)) as (u & cells & v & rest & -> & G & ->).
  destruct (layout_cells false u cells v G) as [Le Ln]. assert (Se : Forall sheet_event cells) by (eapply Forall_impl; [|exact Le]; intros []; cbn; auto).
  pose proof (loads meaning true cells empty_sheet initial nothing [] (agrees_empty initial) Se) as H. pose proof (lay_load meaning arguments accepts D listening cells empty_sheet initial [] [] Le) as El.
  rewrite lay_app, El in E. destruct (load meaning true cells empty_sheet initial []) as [Sh1 s1 xs|x Sh1 s1 xs|]; [|destruct E; discriminate|destruct E; discriminate].
  destruct H as (sc & _ & _ & _ & _ & _ & P). cbn [embed LayLoad_Model.lay act] in E. destruct (update Sh1 D listening s1) as [[ns s2|x s2|]|] eqn:U; try (destruct E; discriminate).
  pose proof (lay_views meaning arguments accepts D listening (view_calls None 0 v) Sh1 s2 [] (view_calls_views v None 0)) as V.
  destruct (lay (view_calls None 0 v) Sh1 s2 []) as [Sh' s' vs'|Sh' s' vs'|]; [| |destruct V].
  - destruct E as [E|E]; [|discriminate]. injection E as <- <- _. destruct V as (-> & -> & _). exists s1, ns. split; [exact (P R_empty)|exact U].
  - destruct E as [E|E]; [discriminate|]. injection E as <- <- _. destruct V as (-> & -> & _). exists s1, ns. split; [exact (P R_empty)|exact U].
Qed.
End Text.

(** A machine for dictionaries of one variable, read from the solved sheet *)
Definition one_parameter (Sh : sheet) (s : dyn) (code : list value) : option (list (string * value)) :=
  match code with
  | [VDict d] => Some d
  | VName k :: VName n :: _ => option_map (fun v => [(k, v)]) (Adam_Spec.value_of Sh s n)
  | _ => None
  end.
Definition shown (r : layout_outcome) : option (list vcall) := match r with Layout (Laid _ _ cs) => Some cs | _ => None end.
Definition stopped (r : layout_outcome) : option (list vcall) := match r with Layout (Failed _ _ cs) => Some cs | _ => None end.
Definition a_layout_text : string := "layout l { constant: k: 7; interface: a: k; b <== a; logic: w <== a; view dialog(name: b) { edit(bind: a); row() { x(); } y(); } }"%string.
Example C122_a_layout :
  shown (lay_text simple one_parameter (fun _ _ => true) D0 nolisten (tokens_of eve_keyword a_layout_text)) =
  Some [VCall None "dialog" [("name", seven_v)]; VCall (Some 0) "edit" [("bind", seven_v)]; VCall (Some 0) "row" []; VCall (Some 2) "x" []; VCall (Some 0) "y" []]%string.
Proof. vm_compute. reflexivity. Qed.
Example C122_a_refusal :
  stopped (lay_text simple one_parameter (fun _ c => negb (String.eqb (v_class c) "row")) D0 nolisten (tokens_of eve_keyword a_layout_text)) =
  Some [VCall None "dialog" [("name", seven_v)]; VCall (Some 0) "edit" [("bind", seven_v)]]%string.
Proof. vm_compute. reflexivity. Qed.
