(** The layout parser is sound. *)
From Coq Require Import String ZArith List Lia.
From Verif Require Import Prelude Vm_Value Vm_Model Vm_Spec Vm_Proofs Expr_Model Expr_Spec Expr_Sound Expr_Complete Expr_Total Expr_Props.
From Verif Require Import Decl_Model Decl_Spec Decl_Sound.
Import ListNotations.
Local Open Scope nat_scope.
Ltac Zify.zify_post_hook ::= idtac.

Fixpoint calls_list (parent : option nat) (j : nat) (vs : list view) : list event :=
  match vs with [] => [] | v :: vs => view_calls parent j v ++ calls_list parent (j + views_in v) vs end.
Definition views_of (vs : list view) : nat := fold_right (fun v n => views_in v + n) 0 vs.
Lemma view_calls_eq parent k p c a b d vs :
  view_calls parent k (View p c a b d vs) = AddView parent p c a b d :: calls_list (Some k) (S k) vs.
Proof.
  cbn [view_calls]. f_equal. generalize (S k) as j. induction vs as [|v vs IH]; intros j; [reflexivity|]. cbn [calls_list]. rewrite IH. reflexivity.
Qed.
Lemma views_in_eq p c a b d vs : views_in (View p c a b d vs) = S (views_of vs).
Proof. reflexivity. Qed.
Lemma calls_app parent vs vs' : forall j, calls_list parent j (vs ++ vs') = calls_list parent j vs ++ calls_list parent (j + views_of vs) vs'.
Proof.
  induction vs as [|v vs IH]; intros j; cbn [app calls_list views_of fold_right].
  - rewrite Nat.add_0_r. reflexivity.
  - rewrite IH, <- app_assoc. unfold views_of. rewrite Nat.add_assoc. reflexivity.
Qed.
(** the calls for the view at the start of the text, which is cut off at some token and completed by some others *)
Definition calls_cut (parent : option nat) (k n : nat) (ts : tokens) (evs : events) : Prop :=
  evs = [] \/ exists u v z w, ts = u ++ v /\ view_def false n (u ++ z) w /\ evs = view_calls parent k w.

Section Text.
Variable total : nat.
Lemma after_nil {A} (r : res A) : after [] r = r.
Proof. destruct r; reflexivity. Qed.
Lemma run {A B} (p : P A) (f : A -> P B) G (C : res B -> Prop) n ts :
  spec total p G quiet -> silent G -> n + length ts = total -> Forall lexed_decl ts ->
  (forall u rest a, ts = u ++ rest -> G n u [] a -> n + length u + length rest = total -> Forall lexed_decl rest -> C (f a rest)) ->
  C (Err []) -> C (bind p f ts).
Proof.
  intros Hp Hs Hn HL Hf HE. unfold bind. specialize (Hp n ts Hn HL). destruct (p ts) as [evs a rest|evs|]; [| |contradiction].
  - destruct Hp as (u & E & G1). pose proof (Hs _ _ _ _ G1) as ->. rewrite after_nil. subst ts. rewrite app_length in Hn.
    apply Forall_app in HL. apply (Hf u rest a); [reflexivity|exact G1|lia|tauto].
  - destruct Hp as (u & v & _ & _ & ->). exact HE.
Qed.
Definition some_arguments (n : nat) (u : tokens) (evs : events) (c : list value) : Prop :=
  evs = [] /\ ((u = [] /\ c = [VDict []]) \/ exists kes, gnamed u kes /\ c = compile (EDict kes)).
Lemma spec_arguments : spec total arguments some_arguments quiet.
Proof.
  intros n ts Hn HL. unfold arguments.
  pose proof (fits_named_list (expression_fuel (S (length ts))) (S (length ts)) (S (S (length ts))) ltac:(lia)
    ltac:(intros; apply fits_expression; lia) [] ts ltac:(lia)) as F.
  pose proof (sound_named_list (expression_fuel (S (length ts))) (S (S (length ts))) (sound_expression _) [] ts (lexed_of _ HL)) as S.
  destruct (is_named_argument_list _ _ [] ts) as [[|] c ts'| |]; cbn [fits found] in *; [| | |contradiction].
  - destruct S as (u & kes & E & G & ->). exists u. split; [exact E|]. split; [reflexivity|]. right. exists kes. split; [exact G|]. rewrite compile_dict. reflexivity.
  - destruct S as [-> ->]. exists []. split; [reflexivity|]. split; [reflexivity|]. left. split; reflexivity.
  - exists [], ts. repeat split.
Qed.
Lemma silent_arguments : silent some_arguments. Proof. intros n u evs a H. exact (proj1 H). Qed.
Definition a_view_class (n : nat) (u : tokens) (evs : events) (o : option (string * list value)) : Prop :=
  evs = [] /\ match o with Some (class, args) => view_class u class args | None => u = [] end.
Lemma spec_view_class : spec total is_view_class_decl a_view_class quiet.
Proof.
  unfold is_view_class_decl. eapply spec_bind; [apply spec_identifier|apply silent_identifier|]. intros [class|].
  - eapply spec_bind; [apply spec_require; [apply spec_token; discriminate|apply silent_token]|apply silent_required, silent_token|]. intros [].
    eapply spec_bind; [apply spec_arguments|apply silent_arguments|]. intros c.
    eapply spec_bind; [apply spec_require; [apply spec_token; discriminate|apply silent_token]|apply silent_required, silent_token|]. intros [].
    apply spec_ret. intros n0 n1 u1 E1 K1 n2 u2 E2 K2 n3 u3 E3 K3 n4 u4 E4 K4.
    destruct K1 as (_ & tc & -> & Hc & _). destruct K3 as (_ & to & -> & Ho & _). destruct K4 as [_ ->]. split; [reflexivity|]. cbn [app].
    destruct K2 as [_ [[-> ->]|(kes & G & ->)]]; constructor; assumption.
  - apply spec_ret. intros n0 n u E K. destruct K as [_ ->]. split; reflexivity.
Qed.
Lemma silent_view_class : silent a_view_class. Proof. intros n u evs a H. exact (proj1 H). Qed.

Definition view_post (parent : option nat) (k n : nat) (ts : tokens) (r : res (bool * nat)) : Prop :=
  match r with
  | Ok evs (b, k') rest => exists u, ts = u ++ rest /\
      (if b then exists v, view_def false n u v /\ evs = view_calls parent k v /\ k' = k + views_in v
       else evs = [] /\ k' = k /\ leftover false u)
  | Err evs => calls_cut parent k n ts evs
  | Fuel => False
  end.
Definition views_post (parent : option nat) (k n : nat) (ts : tokens) (r : res nat) : Prop :=
  match r with
  | Ok evs k' rest => exists u1 u2 vs, ts = u1 ++ u2 ++ rest /\ view_defs false n u1 vs /\ leftover false u2 /\
      evs = calls_list parent k vs /\ k' = k + views_of vs
  | Err evs => exists u v z vs, ts = u ++ v /\ view_defs false n (u ++ z) vs /\ evs = calls_list parent k vs
  | Fuel => False
  end.
Lemma view_def_nonempty strict n u v : view_def strict n u v -> u <> [].
Proof.
  intros H E. destruct H as [n ul d uc class args ue b C V E1|n ul d uc class args ut b o us vs ur c C V]; destruct V; destruct ul; discriminate.
Qed.
Lemma views_loop_post view parent m : forall k n ts, length ts < m -> n + length ts = total -> Forall lexed_decl ts ->
  (forall k n ts', length ts' <= length ts -> n + length ts' = total -> Forall lexed_decl ts' -> view_post parent k n ts' (view k ts')) ->
  views_post parent k n ts (views_loop m view k ts).
Proof.
  induction m as [|m IH]; intros k n ts Hm Hn HL HV; [lia|]. cbn [views_loop]. unfold bind.
  pose proof (HV k n ts ltac:(lia) Hn HL) as V. destruct (view k ts) as [evs [b k'] rest|evs|]; cbn [view_post] in V; [| |contradiction].
  2:{ cbn [views_post]. destruct V as [->|(u & v & z & w & -> & D & ->)]; [exists [], ts, [], []; repeat split; constructor|]. exists u, v, z, [w]. cbn [calls_list]. rewrite app_nil_r.
      split; [reflexivity|]. split; [|reflexivity]. rewrite <- (app_nil_r (u ++ z)). constructor; [exact D|constructor]. }
  destruct V as (u & -> & V). destruct b.
  2:{ destruct V as (-> & -> & L). cbn [after ret app]. exists [], u, []. split; [reflexivity|]. split; [constructor|]. split; [exact L|]. split; [reflexivity|].
      cbn [views_of fold_right]. lia. }
  destruct V as (v & G & -> & ->). pose proof (view_def_nonempty _ _ _ _ G) as N. rewrite app_length in *.
  assert (0 < length u) by (destruct u; [contradiction|cbn [length]; lia]). apply Forall_app in HL. destruct HL as [_ HL].
  specialize (IH (k + views_in v) (n + length u) rest ltac:(lia) ltac:(lia) HL ltac:(intros; apply HV; [lia|assumption|assumption])).
  destruct (views_loop m view (k + views_in v) rest) as [e2 k2 rest2|e2|]; cbn [views_post after] in *; [| |contradiction].
  - destruct IH as (u1 & u2 & vs & -> & D & L & -> & ->). exists (u ++ u1), u2, (v :: vs). split; [rewrite <- app_assoc; reflexivity|].
    split; [constructor; assumption|]. split; [exact L|]. split; [reflexivity|]. unfold views_of. cbn [fold_right]. lia.
  - destruct IH as (u1 & v1 & z & vs & -> & D & ->). exists (u ++ u1), v1, z, (v :: vs). split; [apply app_assoc|]. split; [|reflexivity].
    rewrite <- app_assoc. constructor; assumption.
Qed.
Lemma view_definition_post fuel : forall parent k n ts, length ts < fuel -> n + length ts = total -> Forall lexed_decl ts ->
  view_post parent k n ts (is_view_definition total fuel parent k ts).
Proof.
  induction fuel as [|fuel IH]; intros parent k n ts Hf Hn HL; [lia|]. cbn [is_view_definition].
  assert (N : view_post parent k n ts (Err [])) by (left; reflexivity).
  apply (run _ _ _ _ n ts (spec_comment total lead_comment_k "" ltac:(discriminate)) (silent_comment _ _) Hn HL); [|exact N].
  intros ul r1 detailed E1 (_ & d & Cd & ->) Hn1 HL1. subst ts. rewrite app_length in Hf.
  apply (run _ _ _ _ _ r1 (spec_position total) silent_position Hn1 HL1); [|exact N].
  intros u0 r1' p E2 (_ & -> & ->) _ _. cbn [app] in E2. subst r1'.
  apply (run _ _ _ _ _ r1 spec_view_class silent_view_class Hn1 HL1); [|exact N].
  intros uc r2 o E2 (_ & Vc) Hn2 HL2. subst r1. rewrite app_length in *. destruct o as [[class args]|].
  2:{ subst uc. cbn [ret view_post]. exists ul. split; [reflexivity|]. split; [reflexivity|]. split; [reflexivity|]. exact (opt_leftover _ _ Cd). }
  apply (run _ _ _ _ _ r2 (spec_token total semicolon_k ltac:(discriminate)) (silent_token _) Hn2 HL2); [|exact N].
  intros us r3 leaf E3 (_ & Vs) Hn3 HL3. subst r2. rewrite app_length in *.
  apply (run _ _ _ _ _ r3 (spec_comment total trail_comment_k "" ltac:(discriminate)) (silent_comment _ _) Hn3 HL3); [|exact N].
  intros ut r4 brief E4 (_ & b & Cb & ->) Hn4 HL4. subst r3. rewrite app_length in *.
  set (ev := AddView parent (Some (n + length ul)) class args _ _).
  unfold bind at 1. cbn [call after]. destruct leaf.
  - destruct Vs as (s & -> & Hs & _). cbn [ret after app]. exists (ul ++ uc ++ s :: ut). split; [rewrite <- !app_assoc; reflexivity|].
    exists (View (Some (n + length ul)) class args (text b) (text d) []). split; [|split; [reflexivity|cbn; lia]].
    constructor; [exact Cd|exact Vc|]. constructor; assumption.
  - subst us. cbn [app length] in *.
    match goal with |- view_post parent k n ?ts (after [ev] (bind _ _ r4)) =>
      apply (run _ _ _ (fun r => view_post parent k n ts (after [ev] r)) _ r4 (spec_require total _ _ (spec_token total open_brace_k ltac:(discriminate)) (silent_token _)) (silent_required _ (silent_token _)) Hn4 HL4) end.
    2:{ cbn [after view_post app]. right. exists (ul ++ uc ++ ut), r4, [mk_token open_brace_k VEmpty; closing], (View (Some (n + length ul)) class args (text b) (text d) []).
        split; [rewrite <- !app_assoc; reflexivity|]. split; [|reflexivity]. rewrite <- !app_assoc.
        apply (inner_view false n ul d uc class args ut b (mk_token open_brace_k VEmpty) [] [] [] closing); (assumption || reflexivity || constructor). }
    intros uo r5 [] E5 (_ & to & -> & Ho & _) Hn5 HL5. subst r4. cbn [app length] in *.
    assert (VP : views_post (Some k) (S k) (n + length ul + length uc + length ut + 1) r5 (views_loop (S fuel) (is_view_definition total fuel (Some k)) (S k) r5)).
    { apply views_loop_post; [lia|lia|exact HL5|]. intros k1 n1 ts' L1 Hn' HL'. apply IH; [lia|exact Hn'|exact HL']. }
    unfold bind at 1. destruct (views_loop (S fuel) _ (S k) r5) as [evs k2 rest|evs|]; cbn [views_post] in VP; [| |contradiction].
    2:{ destruct VP as (u1 & v1 & z & vs & -> & D & ->). cbn [after view_post app]. right.
        exists (ul ++ uc ++ ut ++ to :: u1), v1, (z ++ [closing]), (View (Some (n + length ul)) class args (text b) (text d) vs).
        split; [repeat (rewrite <- app_assoc; cbn [app]); reflexivity|]. split; [|rewrite view_calls_eq; reflexivity].
        replace ((ul ++ uc ++ ut ++ to :: u1) ++ z ++ [closing]) with (ul ++ uc ++ ut ++ to :: (u1 ++ z) ++ [] ++ [closing]) by (repeat (rewrite <- app_assoc; cbn [app]); reflexivity).
        apply inner_view; (assumption || reflexivity || constructor). }
    destruct VP as (u1 & u2 & vs & -> & D & L & -> & ->). rewrite !app_length in *. apply Forall_app in HL5. destruct HL5 as [_ HL5]. apply Forall_app in HL5. destruct HL5 as [_ HL5].
    match goal with |- view_post parent k n ?ts (after [ev] (after ?E (bind _ _ rest))) =>
      apply (run _ _ _ (fun r => view_post parent k n ts (after [ev] (after E r))) (n + length ul + length uc + length ut + 1 + length u1 + length u2) rest
        (spec_require total _ _ (spec_token total close_brace_k ltac:(discriminate)) (silent_token _)) (silent_required _ (silent_token _)) ltac:(lia) HL5) end.
    2:{ cbn [after view_post app]. rewrite app_nil_r. right.
        exists (ul ++ uc ++ ut ++ to :: u1 ++ u2), rest, [closing], (View (Some (n + length ul)) class args (text b) (text d) vs).
        split; [repeat (rewrite <- app_assoc; cbn [app]); reflexivity|]. split; [|rewrite view_calls_eq; reflexivity].
        replace ((ul ++ uc ++ ut ++ to :: u1 ++ u2) ++ [closing]) with (ul ++ uc ++ ut ++ to :: u1 ++ u2 ++ [closing]) by (repeat (rewrite <- app_assoc; cbn [app]); reflexivity).
        apply inner_view; (assumption || reflexivity). }
    intros uc2 r6 [] E6 (_ & tc & -> & Hc & _) _ _. subst rest. cbn [ret after view_post app]. rewrite app_nil_r.
    exists (ul ++ uc ++ ut ++ to :: u1 ++ u2 ++ [tc]). split.
    { repeat (rewrite <- app_assoc; cbn [app]). reflexivity. }
    exists (View (Some (n + length ul)) class args (text b) (text d) vs). split; [|split; [rewrite view_calls_eq; reflexivity|rewrite views_in_eq; lia]].
    econstructor; try eassumption.
Qed.
End Text.

Lemma eve_carried ns p b d ws : carried eve_reset (mk_relation ns p [] b d) ws = accumulated ns b d ws.
Proof.
  revert ns p b d. induction ws as [|w ws IH]; intros ns p b d; [reflexivity|]. cbn [carried accumulated]. unfold merged. cbn [r_names r_position r_code r_brief r_detailed app].
  f_equal. unfold eve_reset. cbn [r_names r_position r_code r_brief r_detailed]. apply IH.
Qed.
Lemma eve_handed ws rs : handed eve_reset ws rs -> accumulating ws rs.
Proof.
  destruct ws as [|w1 [|w2 ws]]; cbn [handed accumulating]; [tauto|tauto|]. intros ->. unfold eve_reset at 2, as_written at 3.
  cbn [r_names r_position r_code r_brief r_detailed]. rewrite eve_carried. reflexivity.
Qed.
Section Text.
Variable total : nat.
Lemma spec_eve_qualified : spec total (eve_qualified_cell_decl total) (a_set_decl accumulating eve_sections) (set_error accumulating eve_sections).
Proof.
  unfold eve_qualified_cell_decl, eve_sections.
  assert (L : spec total (is_set_decl "logic" (is_logic_cell_decl total eve_reset)) (a_set_decl accumulating [logic_s]) (set_error accumulating [logic_s]))
    by exact (spec_set total eve_reset accumulating eve_handed logic_s).
  apply (spec_or total eve_reset accumulating eve_handed constant_s) in L. exact (spec_or total eve_reset accumulating eve_handed interface_s _ _ L).
Qed.
Notation sets := (set_decls false accumulating eve_sections).
Lemma spec_eve_sets : spec total (while (eve_qualified_cell_decl total)) (fun n u evs _ => sets n u evs) sets.
Proof. apply spec_sets. exact spec_eve_qualified. Qed.

Definition layout_error (ts : tokens) (evs : events) : Prop :=
  evs = [] \/ exists ul d name o u v cells, opt_comment lead_comment_k ul d /\ t_name name = identifier_k /\ t_name o = open_brace_k /\
    ts = ul ++ kw "layout" :: name :: o :: u ++ v /\ sets (length ul + 3) u cells /\
    (evs = cells \/ evs = cells ++ [FinalizeSheet] \/
     exists v' calls, v = kw "view" :: v' /\ evs = cells ++ FinalizeSheet :: calls /\ calls_cut None 0 (length ul + 3 + length u + 1) v' calls).
Definition layout_post (ts : tokens) (r : res bool) : Prop :=
  match r with
  | Ok evs true rest => exists u cells v, ts = u ++ rest /\ layout_specifier false accumulating u cells v /\
      evs = cells ++ FinalizeSheet :: view_calls None 0 v
  | Ok evs false rest => evs = []
  | Err evs => layout_error ts evs
  | Fuel => False
  end.
Lemma layout_sound ts : length ts = total -> Forall lexed_decl ts -> layout_post ts (is_layout_specifier total ts).
Proof.
  intros Hn HL. unfold is_layout_specifier.
  assert (N : layout_post ts (Err [])) by (left; reflexivity).
  apply (run total _ _ _ _ 0 ts (spec_token total lead_comment_k ltac:(discriminate)) (silent_token _) Hn HL); [|exact N].
  intros ul r1 lead E1 K1 Hn1 HL1. destruct (token_comment _ _ _ _ K1 ltac:(auto)) as [d Cd]. cbn [Nat.add] in Hn1.
  apply (run total _ _ _ _ _ r1 (spec_keyword total "layout") (silent_keyword _) Hn1 HL1); [|exact N].
  intros uk r2 b E2 (_ & K2) Hn2 HL2. destruct b; [|cbn [ret layout_post]; reflexivity]. subst uk. cbn [app length] in *.
  apply (run total _ _ _ _ _ r2 (spec_require total _ _ (spec_token total identifier_k ltac:(discriminate)) (silent_token _)) (silent_required _ (silent_token _)) Hn2 HL2); [|exact N].
  intros ui r3 [] E3 (_ & name & -> & Hname & _) Hn3 HL3. cbn [app length] in *.
  apply (run total _ _ _ _ _ r3 (spec_require total _ _ (spec_token total open_brace_k ltac:(discriminate)) (silent_token _)) (silent_required _ (silent_token _)) Hn3 HL3); [|exact N].
  intros uo r4 [] E4 (_ & to & -> & Ho & _) Hn4 HL4. cbn [app length] in *. subst r3 r2 r1. subst ts.
  replace (length ul + 1 + 1 + 1) with (length ul + 3) in * by lia.
  pose proof (spec_eve_sets (length ul + 3) r4 Hn4 HL4) as S. unfold bind at 1.
  destruct (while (eve_qualified_cell_decl total) r4) as [cells [] r5|cells|]; [| |contradiction].
  2:{ destruct S as (u & v & -> & D). cbn [layout_post]. right. exists ul, d, name, to, u, v, cells.
      split; [exact Cd|]. split; [exact Hname|]. split; [exact Ho|]. split; [reflexivity|]. split; [exact D|]. left. reflexivity. }
  destruct S as (us & -> & D). rewrite app_length in Hn4. apply Forall_app in HL4. destruct HL4 as [_ HL5].
  unfold bind at 1. cbn [call after].
  assert (LE : forall calls, calls = [] \/ (exists v', r5 = kw "view" :: v' /\ calls_cut None 0 (length ul + 3 + length us + 1) v' calls) ->
    layout_error (ul ++ kw "layout" :: name :: to :: us ++ r5) (cells ++ FinalizeSheet :: calls)).
  { intros calls C. right. exists ul, d, name, to, us, r5, cells.
    split; [exact Cd|]. split; [exact Hname|]. split; [exact Ho|]. split; [reflexivity|]. split; [exact D|]. right.
    destruct C as [->|(v' & E & C)]; [left; reflexivity|]. right. exists v', calls. auto. }
  match goal with |- layout_post ?ts (after cells (after [FinalizeSheet] (bind _ _ r5))) =>
    apply (run total _ _ _ (fun r => layout_post ts (after cells (after [FinalizeSheet] r))) (length ul + 3 + length us) r5
      (spec_require total _ _ (spec_keyword total "view") (silent_keyword _)) (silent_required _ (silent_keyword _)) ltac:(lia) HL5) end.
  2:{ cbn [after layout_post app]. apply LE. left. reflexivity. }
  intros uv r6 [] E6 (_ & ->) Hn6 HL6. subst r5. cbn [app length] in *.
  pose proof (view_definition_post total (S (length r6)) None 0 (length ul + 3 + length us + 1) r6 ltac:(lia) ltac:(lia) HL6) as V.
  unfold bind at 1. unfold view_definition. destruct (is_view_definition total (S (length r6)) None 0 r6) as [calls [bv kv] r7|calls|]; cbn [view_post] in V; [| |contradiction].
  2:{ cbn [after layout_post]. apply LE. right. exists r6. split; [reflexivity|exact V]. }
  destruct V as (u7 & -> & V). cbn [fst]. destruct bv.
  2:{ destruct V as (-> & _). unfold bind, throw. cbn [after layout_post app]. apply LE. left. reflexivity. }
  destruct V as (v & Gv & -> & _). apply Forall_app in HL6. destruct HL6 as [_ HL7]. rewrite app_length in *.
  unfold bind at 1. cbn [ret]. rewrite after_nil.
  match goal with |- layout_post ?ts (after cells (after [FinalizeSheet] (after ?C (bind _ _ r7)))) =>
    apply (run total _ _ _ (fun r => layout_post ts (after cells (after [FinalizeSheet] (after C r)))) (length ul + 3 + length us + 1 + length u7) r7
      (spec_require total _ _ (spec_token total close_brace_k ltac:(discriminate)) (silent_token _)) (silent_required _ (silent_token _)) ltac:(lia) HL7) end.
  2:{ cbn [after layout_post app]. rewrite app_nil_r. apply LE. right. eexists. split; [reflexivity|]. right. rewrite <- (app_nil_r u7) in Gv. eexists u7, _, [], v. split; [reflexivity|]. split; [exact Gv|reflexivity]. }
  intros uc r8 [] E8 (_ & tc & -> & Hc & _) Hn8 HL8. subst r7. cbn [app length] in *.
  match goal with |- layout_post ?ts (after cells (after [FinalizeSheet] (after ?C (bind _ _ r8)))) =>
    apply (run total _ _ _ (fun r => layout_post ts (after cells (after [FinalizeSheet] (after C r)))) _ r8
      (spec_token total trail_comment_k ltac:(discriminate)) (silent_token _) Hn8 HL8) end.
  2:{ cbn [after layout_post app]. rewrite app_nil_r. apply LE. right. eexists. split; [reflexivity|]. right. rewrite <- (app_nil_r u7) in Gv. eexists u7, _, [], v. split; [reflexivity|]. split; [exact Gv|reflexivity]. }
  intros ut r9 trail E9 K9 _ _. destruct (token_comment _ _ _ _ K9 ltac:(auto)) as [bt Ct]. subst r8. cbn [ret after layout_post app]. rewrite app_nil_r.
  exists (ul ++ kw "layout" :: name :: to :: us ++ kw "view" :: u7 ++ tc :: ut), cells, v. split.
  { repeat (rewrite <- app_assoc; cbn [app]). reflexivity. }
  split; [|reflexivity]. econstructor; eassumption.
Qed.
End Text.
Lemma eve_sound ts : Forall lexed_decl ts ->
  match eve_parse ts with
  | Ok evs _ rest => exists u cells v, ts = u ++ rest /\ layout_specifier false accumulating u cells v /\
      evs = cells ++ FinalizeSheet :: view_calls None 0 v
  | Err evs => layout_error ts evs
  | Fuel => False
  end.
Proof.
  intros HL. unfold eve_parse, eve_parse_text, bind. pose proof (layout_sound (length ts) ts eq_refl HL) as S.
  destruct (is_layout_specifier (length ts) ts) as [evs [|] rest|evs|]; cbn [layout_post] in S; [| | |contradiction].
  - cbn [after ret]. rewrite app_nil_r. exact S.
  - subst evs. cbn [after throw]. left. reflexivity.
  - exact S.
Qed.
