(** Value trees: equality and copies. *)
From Verif Require Import Prelude Forest_Model Forest_Spec Forest_WalkSpec Forest_Words Forest_Links Forest_Inv Forest_Ops Forest_Ops2 Forest_Ops3 Forest_Walk.
Ltac Zify.zify_post_hook ::= idtac.

Section Vals.
Context {T : Type}.

Definition closed (b : word) : Prop := forall n c, b <> lead n :: c.

Lemma same_forest_trees (eqb : T -> T -> bool) (vs : list (option T)) :
  (forall x y, eqb x y = true <-> x = y) ->
  forall ts us b c, closed b -> closed c ->
  (forall n, In n (flat_map preorder ts) -> nth n vs None <> None) ->
  same_forest eqb vs (forest_word ts ++ b) (forest_word us ++ c) = true <->
  map (valued vs) ts = map (valued vs) us /\ same_forest eqb vs b c = true.
Proof.
  intros Heq. induction ts as [|n kids ts IH1 IH2] using trees_ind; intros us b c Hb Hc Hv.
  - cbn [forest_word flat_map app map]. destruct us as [|[m kk] us].
    + cbn [forest_word flat_map app map]. tauto.
    + rewrite fw_cons. cbn [map app]. split; [|intros (H & _); discriminate].
      destruct b as [|[n e] b]; [discriminate|]. cbn [same_forest lead]. destruct e; [exfalso; apply (Hb n b); reflexivity|].
      unfold lead. cbn. discriminate.
  - rewrite fw_cons. cbn [app]. destruct us as [|[m kk] us].
    + cbn [forest_word flat_map app map]. split; [|intros (H & _); discriminate].
      destruct c as [|[m e] c]; [discriminate|]. unfold lead. cbn [same_forest]. destruct e; [exfalso; apply (Hc m c); reflexivity|].
      cbn. discriminate.
    + rewrite fw_cons. cbn [app map valued]. unfold lead at 1 2. cbn [same_forest Bool.eqb andb].
      rewrite andb_true_iff, <- !app_assoc.
      cbn [app]. rewrite IH1.
      * unfold trail at 1 2. cbn [same_forest Bool.eqb andb]. rewrite IH2; [|exact Hb|exact Hc|].
        { assert (En : match nth n vs None, nth m vs None with Some a, Some b0 => eqb a b0 | _, _ => false end = true <-> nth n vs None = nth m vs None).
          { assert (Hn : nth n vs None <> None) by (apply Hv; left; reflexivity).
            destruct (nth n vs None) as [x|]; [|congruence]. destruct (nth m vs None) as [y|]; [|split; discriminate].
            rewrite Heq. split; congruence. }
          rewrite En. split.
          - intros (-> & -> & -> & H). auto.
          - intros (H & H'). injection H as -> -> ->. auto. }
        { intros x Hx. apply Hv. cbn [flat_map preorder]. rewrite in_app_iff. auto. }
      * intros x y. discriminate.
      * intros x y. discriminate.
      * intros x Hx. apply Hv. cbn [flat_map preorder]. cbn [app]. right. rewrite in_app_iff. auto.
Qed.

(** Same shape. *)
Inductive shape := Shape (kids : list shape).
Fixpoint shape_of (t : tree) : shape := match t with TNode _ kids => Shape (map shape_of kids) end.

Lemma length_preorder_shape ts : forall us, map shape_of ts = map shape_of us ->
  length (flat_map preorder ts) = length (flat_map preorder us).
Proof.
  induction ts as [|n kids ts IH1 IH2] using trees_ind; intros [|[m kk] us]; cbn [map shape_of]; try discriminate; [reflexivity|].
  intros H. injection H as Hk Hs. cbn [flat_map preorder app length]. rewrite !app_length, (IH1 _ Hk), (IH2 _ Hs). reflexivity.
Qed.

Lemma app_inj_len {A} (a b c d : list A) : length a = length c -> a ++ b = c ++ d -> a = c /\ b = d.
Proof.
  revert c. induction a as [|x a IH]; intros [|y c] L E; cbn in *; try discriminate; [auto|].
  injection E as -> E. destruct (IH c ltac:(lia) E) as (-> & ->). auto.
Qed.

Lemma valued_shape (vs vs' : list (option T)) ts : forall us, map shape_of ts = map shape_of us ->
  map (fun n => nth n vs None) (flat_map preorder ts) = map (fun n => nth n vs' None) (flat_map preorder us) ->
  map (valued vs) ts = map (valued vs') us.
Proof.
  induction ts as [|n kids ts IH1 IH2] using trees_ind; intros [|[m kk] us]; cbn [map shape_of]; try discriminate; [reflexivity|].
  intros H. injection H as Hk Hs. cbn [flat_map preorder app map]. rewrite !map_app. intros E.
  injection E as En E. apply app_inj_len in E; [|rewrite !map_length; now apply length_preorder_shape].
  destruct E as (Ek & Es). cbn [valued]. rewrite En, (IH1 _ Hk Ek), (IH2 _ Hs Es). reflexivity.
Qed.

Lemma renumber_forest ts : forall k ren b, NoDup (flat_map preorder ts) ->
  exists ts' ren', renumber k ren (forest_word ts ++ b) = forest_word ts' ++ renumber (k + length (flat_map preorder ts)) ren' b /\
    map shape_of ts' = map shape_of ts /\
    flat_map preorder ts' = seq k (length (flat_map preorder ts)) /\
    (forall m, ~ In m (flat_map preorder ts) -> ren_of ren' m = ren_of ren m).
Proof.
  induction ts as [|n kids ts IH1 IH2] using trees_ind; intros k ren b Hd.
  - exists [], ren. cbn [forest_word flat_map app length map seq]. rewrite Nat.add_0_r. auto.
  - cbn [flat_map preorder app] in Hd. rewrite NoDup_cons_iff, nodup_app_iff in Hd. destruct Hd as (Hn & Hk & Ht & Hdj).
    rewrite in_app_iff in Hn.
    destruct (IH1 (S k) ((n, k) :: ren) (trail n :: forest_word ts ++ b) Hk) as (kids' & ren1 & E1 & S1 & P1 & R1).
    destruct (IH2 (S k + length (flat_map preorder kids)) ren1 b Ht) as (ts' & ren2 & E2 & S2 & P2 & R2).
    exists (TNode k kids' :: ts'), ren2. split; [|split; [|split]].
    + rewrite !fw_cons. cbn [app]. unfold lead at 1. cbn [renumber]. rewrite <- !app_assoc. cbn [app].
      rewrite E1, renumber_trail, E2. rewrite R1 by tauto.
      unfold ren_of at 1; cbn [find fst snd]. rewrite Nat.eqb_refl. cbn [snd].
      cbn [flat_map preorder app length]. rewrite app_length.
      replace (k + S (length (flat_map preorder kids) + length (flat_map preorder ts)))
        with (S k + length (flat_map preorder kids) + length (flat_map preorder ts)) by lia.
      reflexivity.
    + cbn [map shape_of]. now rewrite S1, S2.
    + cbn [flat_map preorder app length]. rewrite P1, P2, app_length. cbn [seq]. rewrite seq_app. reflexivity.
    + intros m Hm. cbn [flat_map preorder app] in Hm. cbn [In] in Hm. rewrite in_app_iff in Hm.
      rewrite R2, R1 by tauto. unfold ren_of; cbn [find fst snd].
      destruct (Nat.eqb_spec n m); [exfalso; tauto|reflexivity].
Qed.

Lemma nodup_ids ts : NoDup (forest_word ts) -> NoDup (flat_map preorder ts).
Proof.
  intros H. assert (Hf : NoDup (filter snd (forest_word ts))) by now apply NoDup_filter.
  rewrite preorder_word in Hf. now apply NoDup_map_inv in Hf.
Qed.

End Vals.
