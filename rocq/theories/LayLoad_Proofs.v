(** Proofs about loading a layout *)
From Coq Require Import String.
From Verif Require Import Prelude Vm_Value Decl_Model Decl_Spec Decl_Eve_Sound Adam_Model Adam_Spec Adam_Flow Adam_Build Load_Model Load_Spec Load_Proofs LayLoad_Model LayLoad_Spec.
From Coq Require Import List Lia.
Import ListNotations.
Local Open Scope nat_scope.
Ltac Zify.zify_post_hook ::= idtac.

(** *** the views' calls *)
Definition is_view (e : event) : Prop := match e with AddView _ _ _ _ _ _ => True | _ => False end.
Definition call_of (f : list value -> option (list (string * value))) (e : event) (c : vcall) : Prop :=
  match e with AddView parent _ class args _ _ => exists m, f args = Some m /\ c = VCall parent class m | _ => False end.
Section Views.
Variable f : list value -> option (list (string * value)).
Scheme shows_ind' := Induction for shows Sort Prop with shows_all_ind' := Induction for shows_all Sort Prop.
Combined Scheme shows_mutual from shows_ind', shows_all_ind'.
Lemma shows_calls :
  (forall parent k v cs, shows f parent k v cs -> Forall2 (call_of f) (view_calls parent k v) cs /\ length cs = views_in v) /\
  (forall parent k vs cs, shows_all f parent k vs cs -> Forall2 (call_of f) (calls_list parent k vs) cs /\ length cs = views_of vs).
Proof.
  apply (shows_mutual f (fun parent k v cs _ => Forall2 (call_of f) (view_calls parent k v) cs /\ length cs = views_in v)
    (fun parent k vs cs _ => Forall2 (call_of f) (calls_list parent k vs) cs /\ length cs = views_of vs)).
  - intros parent k p class args b d vs m cs Hm _ [IH L]. rewrite view_calls_eq, views_in_eq. split; [|cbn [length]; now rewrite L].
    constructor; [exists m; auto|]. replace (Datatypes.S k) with (k + 1) by lia. exact IH.
  - intros parent k. split; [constructor|reflexivity].
  - intros parent k v vs c cs _ [H1 L1] _ [H2 L2]. cbn [calls_list views_of fold_right]. rewrite app_length. split; [|rewrite L1, L2; reflexivity].
    apply Forall2_app; [exact H1|]. rewrite <- L1. exact H2.
Qed.
Lemma view_induction (P : view -> Prop) : (forall p c a b d vs, Forall P vs -> P (View p c a b d vs)) -> forall v, P v.
Proof.
  intros H. fix IH 1. intros [p c a b d vs]. apply H. induction vs as [|v vs IHvs]; constructor; [apply IH|exact IHvs].
Qed.
Lemma calls_shows : forall v parent k cs, Forall2 (call_of f) (view_calls parent k v) cs -> shows f parent k v cs.
Proof.
  induction v as [p class args b d vs IH] using view_induction. intros parent k cs H. rewrite view_calls_eq in H. inversion H as [|? c ? cs' Hm H']; subst. cbn [call_of] in Hm. destruct Hm as (m & Hm & ->). constructor; [exact Hm|].
  replace (k + 1) with (Datatypes.S k) by lia. clear H Hm m. revert cs' H'. generalize (Datatypes.S k) as j. generalize (Some k) as pa. induction vs as [|v vs IHvs]; intros pa j cs' H'; cbn [calls_list] in H'.
  - inversion H'; subst. constructor.
  - apply Forall_cons_iff in IH as [IHv IH]. apply Forall2_app_inv_l in H' as (c1 & c2 & H1 & H2 & ->). apply IHv in H1. constructor; [exact H1|].
    destruct shows_calls as [SC _]. destruct (SC _ _ _ _ H1) as [_ L]. rewrite L. apply IHvs; assumption.
Qed.
End Views.
Lemma view_calls_views : forall v parent k, Forall is_view (view_calls parent k v).
Proof.
  induction v as [p class args b d vs IH] using view_induction. intros parent k. rewrite view_calls_eq. constructor; [exact Logic.I|]. generalize (Some k) as pa, (Datatypes.S k) as j.
  induction IH as [|v vs Hv _ IHvs]; intros pa j; cbn [calls_list]; [constructor|]. apply Forall_app. split; [apply Hv|apply IHvs].
Qed.

Section Laying.
Variable meaning : list value -> expr.
Variable arguments : sheet -> dyn -> list value -> option (list (string * value)).
Variable accepts : list vcall -> vcall -> bool.
Variable D : sched.
Variable listening : nat -> bool.
Notation lay := (lay meaning arguments accepts D listening).
Notation act := (act meaning arguments accepts D listening).

Lemma lay_app a b Sh s vs : lay (a ++ b) Sh s vs = match lay a Sh s vs with Laid Sh' s' vs' => lay b Sh' s' vs' | r => r end.
Proof.
  revert Sh s vs. induction a as [|e a IH]; intros Sh s vs; cbn [app LayLoad_Model.lay]; [reflexivity|]. destruct (act e Sh s vs); [apply IH|reflexivity|reflexivity].
Qed.
(** *** the cells *)
Definition layout_event (e : event) : Prop :=
  match e with AddCell constant_c _ _ _ _ _ | AddCell logic_c _ _ _ _ _ | AddInterface _ _ _ _ _ _ _ _ | AddRelation _ _ _ _ _ => True | _ => False end.
Definition embed (vs : list vcall) (r : loaded) : laid := match r with Loaded Sh s _ => Laid Sh s vs | Thrown _ Sh s _ => Failed Sh s vs | Crash => Broken end.
Lemma act_handle e Sh s vs xs : layout_event e -> act e Sh s vs = embed vs (handle meaning true e Sh s xs).
Proof.
  destruct e as [t n p code b d|n p b d|n l ip init ep e b d|p cond rs b d|pa p cl ar b d|]; cbn [layout_event]; try contradiction.
  - destruct t; try contradiction; intros _; cbn [LayLoad_Model.act handle].
    + destruct (add_constant n (meaning code) Sh s); reflexivity.
    + destruct (add_logic n (meaning code) Sh s); reflexivity.
  - intros _. cbn [LayLoad_Model.act handle]. destruct (add_interface n l (optional meaning init) (optional meaning e) Sh s); reflexivity.
  - intros _. cbn [LayLoad_Model.act handle]. destruct rs as [|r rs]; [reflexivity|]. destruct (add_relation _ _ Sh s); reflexivity.
Qed.
Lemma lay_load : forall evs Sh s vs xs, Forall layout_event evs -> lay evs Sh s vs = embed vs (load meaning true evs Sh s xs).
Proof.
  induction evs as [|e evs IH]; intros Sh s vs xs F; cbn [LayLoad_Model.lay load]; [reflexivity|]. apply Forall_cons_iff in F as [Fe F].
  rewrite (act_handle e Sh s vs xs Fe). destruct (handle meaning true e Sh s xs); cbn [embed]; [apply IH; exact F|reflexivity|reflexivity].
Qed.
(** *** the views *)
Lemma lay_views : forall evs Sh s vs, Forall is_view evs ->
  match lay evs Sh s vs with
  | Laid Sh' s' vs' => Sh' = Sh /\ s' = s /\ exists cs, Forall2 (call_of (arguments Sh s)) evs cs /\ vs' = vs ++ cs /\ forall b c a, cs = b ++ c :: a -> accepts (vs ++ b) c = true
  | Failed Sh' s' vs' => Sh' = Sh /\ s' = s /\ forall cs, Forall2 (call_of (arguments Sh s)) evs cs -> ~ (forall b c a, cs = b ++ c :: a -> accepts (vs ++ b) c = true)
  | Broken => False
  end.
Proof.
  induction evs as [|e evs IH]; intros Sh s vs F; cbn [LayLoad_Model.lay].
  - split; [reflexivity|]. split; [reflexivity|]. exists []. split; [constructor|]. split; [now rewrite app_nil_r|]. intros [|? ?] c a E; discriminate.
  - apply Forall_cons_iff in F as [Fe F]. destruct e as [| | | |parent p class args b d|]; try (destruct Fe; fail). cbn [LayLoad_Model.act].
    destruct (arguments Sh s args) as [m|] eqn:Ea.
    2:{ split; [reflexivity|]. split; [reflexivity|]. intros cs Hc. inversion Hc as [|? c0 ? cs' Hm _]; subst. cbn [call_of] in Hm. destruct Hm as (m & Hm & _). congruence. }
    destruct (accepts vs (VCall parent class m)) eqn:Ec.
    2:{ split; [reflexivity|]. split; [reflexivity|]. intros cs Hc. inversion Hc as [|? c ? cs' Hm _]; subst. cbn [call_of] in Hm. destruct Hm as (m' & Hm & ->). replace m' with m in * by congruence.
        intros H. specialize (H [] _ _ eq_refl). rewrite app_nil_r in H. congruence. }
    specialize (IH Sh s (vs ++ [VCall parent class m]) F). destruct (lay evs Sh s (vs ++ [VCall parent class m])) as [Sh' s' vs'|Sh' s' vs'|]; [| |exact IH].
    + destruct IH as (-> & -> & cs & Hc & -> & Ha). split; [reflexivity|]. split; [reflexivity|]. exists (VCall parent class m :: cs). split; [constructor; [exists m; auto|exact Hc]|]. split; [now rewrite <- app_assoc|].
      intros [|c0 b0] c a E; injection E as E1 E2.
      * subst c. rewrite app_nil_r. exact Ec.
      * subst c0. specialize (Ha b0 c a E2). now rewrite <- app_assoc in Ha.
    + destruct IH as (-> & -> & Hn). split; [reflexivity|]. split; [reflexivity|]. intros cs Hc Ha. inversion Hc as [|? c ? cs' Hm Hc']; subst. cbn [call_of] in Hm. destruct Hm as (m' & Hm & ->). replace m' with m in * by congruence.
      apply (Hn cs' Hc'). intros b0 c a E. rewrite <- app_assoc. apply (Ha (VCall parent class m :: b0) c a). now rewrite E.
Qed.
End Laying.
(** *** the parser's calls *)
Section Calls.
Variable strict : bool.
Lemma eve_declaration d n s u ev : In s eve_sections -> declaration strict accumulating n d s u ev -> layout_event ev /\ no_relations_call ev.
Proof.
  intros Hs H. destruct H as [ul l name ui ip ic ud dp dc ue b|name ui ip ic ue b|name ui ip ic ue b|s t name ud dp dc ue b Ht|u p c rs b R|name ue b];
    try (split; exact Logic.I); try (cbn in Hs; intuition discriminate).
  - cbn in Hs. destruct Hs as [<- | [<- | [<- | []]]]; try discriminate Ht. injection Ht as <-. split; exact Logic.I.
  - split; [exact Logic.I|]. cbn [no_relations_call]. unfold accumulating in R. destruct R as [o us ws rs ul c0 ut b E R L A | op ux e cp o us ws rs ul c0 ut b E1 G E2 E3 R L A]; destruct ws as [|w1 [|w2 ws]]; try (destruct A; fail); rewrite A; discriminate.
Qed.
Lemma eve_declarations n s u evs : In s eve_sections -> declarations strict accumulating n s u evs -> Forall layout_event evs /\ Forall no_relations_call evs.
Proof.
  intros Hs H. induction H as [|n s ul d u ev us evs C Dc Ds IH]; [split; constructor|]. destruct (eve_declaration _ _ _ _ _ Hs Dc). destruct (IH Hs). split; constructor; assumption.
Qed.
Lemma eve_sets n u evs : set_decls strict accumulating eve_sections n u evs -> Forall layout_event evs /\ Forall no_relations_call evs.
Proof.
  induction 1 as [|n u evs us evss H Hs [IH1 IH2]]; [split; constructor|]. destruct H as [s c us1 evs1 ul Is Hc Ds L]. destruct (eve_declarations _ _ _ _ Is Ds). split; apply Forall_app; auto.
Qed.
Lemma layout_cells u cells v : layout_specifier strict accumulating u cells v -> Forall layout_event cells /\ Forall no_relations_call cells.
Proof. destruct 1. eapply eve_sets; eauto. Qed.
End Calls.
