(** Preorder, postorder, reverse, depth, child and filtered traversals. *)
From Coq Require Import Permutation.
From Verif Require Import Prelude Forest_Model Forest_Spec Forest_WalkSpec Forest_Words Forest_Links Forest_Inv Forest_Ops Forest_Ops2 Forest_Ops3 Forest_Ops4.
Ltac Zify.zify_post_hook ::= idtac.

(** Induction over lists of trees. *)
Lemma trees_ind (P : list tree -> Prop) :
  P [] -> (forall n kids ts, P kids -> P ts -> P (TNode n kids :: ts)) -> forall ts, P ts.
Proof.
  intros H0 H1.
  assert (Ht : forall t ts, P ts -> P (t :: ts)).
  { fix IH 1. intros [n kids] ts Hts. apply H1; [|exact Hts].
    revert kids. fix IHk 1. intros [|k kids]; [exact H0|]. apply IH. apply IHk. }
  induction ts as [|t ts IH]; [exact H0|]. now apply Ht.
Qed.

Lemma fw_cons n kids ts : forest_word (TNode n kids :: ts) = lead n :: forest_word kids ++ trail n :: forest_word ts.
Proof. rewrite forest_word_cons, tree_word_eq. now lapp. Qed.

(** Words of the derived orders. *)
Lemma preorder_word ts : filter snd (forest_word ts) = map lead (flat_map preorder ts).
Proof.
  induction ts as [|n kids ts IH1 IH2] using trees_ind; [reflexivity|].
  rewrite fw_cons. cbn [filter snd lead flat_map preorder app map].
  f_equal. transitivity (filter snd (forest_word kids) ++ filter snd (trail n :: forest_word ts)); [apply filter_app|].
  cbn [filter snd trail]. rewrite IH1, IH2, map_app. reflexivity.
Qed.
Lemma postorder_word ts : filter (fun i => negb (snd i)) (forest_word ts) = map trail (flat_map postorder ts).
Proof.
  induction ts as [|n kids ts IH1 IH2] using trees_ind; [reflexivity|].
  rewrite fw_cons. cbn [filter snd lead negb flat_map postorder].
  transitivity (filter (fun i => negb (snd i)) (forest_word kids) ++ filter (fun i => negb (snd i)) (trail n :: forest_word ts)); [apply filter_app|].
  cbn [filter snd trail negb]. rewrite IH1, IH2, !map_app, <- app_assoc. reflexivity.
Qed.

Fixpoint dw (H : Z) (w : word) : list (iter * Z) :=
  match w with
  | [] => []
  | (n, true) :: w => (lead n, H) :: dw (H + 1) w
  | (n, false) :: w => (trail n, (H - 1)%Z) :: dw (H - 1) w
  end.
Lemma dw_forest ts : forall H b, dw H (forest_word ts ++ b) = flat_map (depth_word H) ts ++ dw H b.
Proof.
  induction ts as [|n kids ts IH1 IH2] using trees_ind; intros H b; [reflexivity|].
  rewrite fw_cons. cbn [app flat_map depth_word]. unfold lead at 1. cbn [dw]. rewrite <- app_assoc, IH1. cbn [app].
  unfold trail at 1. cbn [dw]. replace (H + 1 - 1)%Z with H by lia. rewrite IH2. now rewrite <- !app_assoc.
Qed.

Lemma rev_flat_map {A B} (f : A -> list B) l : rev (flat_map f l) = flat_map (fun x => rev (f x)) (rev l).
Proof.
  induction l as [|x l IH]; [reflexivity|]. cbn [flat_map rev]. rewrite rev_app_distr, IH, flat_map_app. cbn. now rewrite app_nil_r.
Qed.
Lemma mirror_word ts : forest_word (rev (map mirror ts)) = map pivot_of (rev (forest_word ts)).
Proof.
  induction ts as [|n kids ts IH1 IH2] using trees_ind; [reflexivity|].
  cbn [map rev mirror]. rewrite forest_word_app, IH2, !fw_cons, IH1. cbn [rev].
  change (rev (forest_word kids ++ trail n :: forest_word ts)) with (rev (forest_word kids ++ trail n :: forest_word ts)).
  rewrite rev_app_distr. cbn [rev app].
  rewrite !map_app. cbn [map]. now rewrite <- !app_assoc.
Qed.

(** Loops from a step-by-step description. *)
Fixpoint visits {S : Type} (next : S -> option S) (at_end : S -> bool) (i : S) (l : list S) : Prop :=
  match l with
  | [] => at_end i = true
  | x :: rest => i = x /\ at_end i = false /\ exists j, next i = Some j /\ visits next at_end j rest
  end.
Lemma visits_loop {S : Type} (next : S -> option S) at_end l : forall i fuel, visits next at_end i l -> length l < fuel ->
  visit_loop fuel next at_end i = Some l.
Proof.
  induction l as [|x l IH]; intros i [|fuel] H Hf; cbn [length] in Hf; try lia; cbn [visit_loop visits] in *.
  - now rewrite H.
  - destruct H as (-> & -> & j & -> & H). rewrite (IH j fuel H) by lia. reflexivity.
Qed.

Section Walk.
Context {T : Type}.
Notation store := (store (T := T)).
Notation sstate := (sstate T).
Variables (h : store) (s : sstate) (k r : nat) (w : word).
Hypothesis I : inv h s [].
Hypothesis Hk : nth_error (words s) k = Some (r, w).

Let at_k a b : w = a ++ b -> nth_error (words s) k = Some (r, a ++ b).
Proof. intros <-. exact Hk. Qed.

Let step a i b : w = a ++ i :: b -> increment h i = Some (hd (trail r) b).
Proof. intros E. exact (inv_step _ _ _ _ _ _ _ _ I (at_k _ _ E)). Qed.

Let back a b : w = a ++ b -> decrement h (hd (trail r) b) = Some (last a (lead r)).
Proof. intros E. exact (inv_decr _ _ _ _ _ _ _ I (at_k _ _ E)). Qed.

Let not_root a i b : w = a ++ i :: b -> i <> lead r /\ i <> trail r.
Proof.
  intros E. pose proof (i_nodup _ _ _ I _ _ _ Hk) as Hd. apply nodup_circle in Hd. destruct Hd as (_ & H1 & H2).
  split; intros ->; [apply H1|apply H2]; rewrite E, in_app_iff; right; left; reflexivity.
Qed.

(** Fullorder *)
Lemma fullorder_visits b : forall a, w = a ++ b -> visits (increment h) (fun i => iter_eqb i (trail r)) (hd (trail r) b) b.
Proof.
  induction b as [|i b IH]; intros a E; cbn [visits hd].
  - apply iter_eqb_refl.
  - split; [reflexivity|]. split; [apply iter_eqb_neq; exact (proj2 (not_root _ _ _ E))|].
    exists (hd (trail r) b). split; [exact (step _ _ _ E)|]. apply (IH (a ++ [i])). rewrite E. now lapp.
Qed.

(** Preorder *)
Lemma preorder_visits b : forall a fuel, w = a ++ b -> S (length b) < fuel ->
  visits (edge_increment fuel h true) (fun i => iter_eqb i (lead r)) (next_lead r b) (filter snd b).
Proof.
  induction b as [|[n e] b IH]; intros a fuel E Hf; cbn [filter].
  - apply iter_eqb_refl.
  - assert (E' : w = (a ++ [(n, e)]) ++ b) by (rewrite E; now lapp). cbn [length] in Hf.
    destruct e; cbn [snd].
    + unfold next_lead. cbn [filter snd hd visits]. split; [reflexivity|].
      split; [apply iter_eqb_neq; exact (proj1 (not_root _ _ _ E))|].
      exists (next_lead r b). split.
      * unfold edge_increment. rewrite (step _ _ _ E). apply (find_edge_ok _ _ _ _ _ _ _ I (at_k _ _ E')). lia.
      * apply (IH _ fuel E'). lia.
    + change (next_lead r ((n, false) :: b)) with (next_lead r b). apply (IH _ fuel E'). lia.
Qed.

(** Postorder *)
Definition next_trail (b : word) : iter := hd (trail r) (filter (fun i => negb (snd i)) b).
Lemma find_trail_ok b : forall a fuel, w = a ++ b -> length b < fuel ->
  find_edge fuel h (hd (trail r) b) false = Some (next_trail b).
Proof.
  induction b as [|[n e] b IH]; intros a fuel E Hf; (destruct fuel as [|fuel]; [cbn in Hf; lia|]); cbn [find_edge hd snd trail Bool.eqb].
  - reflexivity.
  - cbn [length] in Hf. destruct e; cbn [Bool.eqb]; [|reflexivity].
    rewrite (step _ _ _ E). change (next_trail ((n, true) :: b)) with (next_trail b).
    apply (IH (a ++ [(n, true)])); [rewrite E; now lapp|lia].
Qed.
Lemma postorder_visits b : forall a fuel, w = a ++ b -> length b < fuel ->
  visits (edge_increment fuel h false) (fun i => iter_eqb i (trail r)) (next_trail b) (filter (fun i => negb (snd i)) b).
Proof.
  induction b as [|[n e] b IH]; intros a fuel E Hf; cbn [filter].
  - apply iter_eqb_refl.
  - assert (E' : w = (a ++ [(n, e)]) ++ b) by (rewrite E; now lapp). cbn [length] in Hf.
    destruct e; cbn [snd negb].
    + change (next_trail ((n, true) :: b)) with (next_trail b). apply (IH _ fuel E'). lia.
    + unfold next_trail. cbn [filter snd negb hd visits]. split; [reflexivity|].
      split; [apply iter_eqb_neq; exact (proj2 (not_root _ _ _ E))|].
      exists (next_trail b). split.
      * unfold edge_increment. rewrite (step _ _ _ E). apply (find_trail_ok _ _ _ E'). lia.
      * apply (IH _ fuel E'). lia.
Qed.

(** Depth *)
Lemma depth_visits b : forall a H d, w = a ++ b ->
  (forall n e b', b = (n, e) :: b' -> d = if e then H else (H - 1)%Z) ->
  visits (depth_increment h) (fun i => iter_eqb (fst i) (trail r)) (hd (trail r) b, d) (dw H b).
Proof.
  induction b as [|[n e] b IH]; intros a H d E Hd; cbn [hd dw visits fst].
  - apply iter_eqb_refl.
  - assert (E' : w = (a ++ [(n, e)]) ++ b) by (rewrite E; now lapp).
    rewrite (Hd n e b eq_refl). clear Hd.
    destruct e; cbn [visits fst].
    + split; [reflexivity|]. split; [apply iter_eqb_neq; exact (proj2 (not_root _ _ _ E))|].
      eexists. split; [unfold depth_increment; cbn [fst snd]; rewrite (step _ _ _ E); reflexivity|].
      apply (IH _ _ _ E'). intros n' e' b' ->. cbn [hd snd]. destruct e'; cbn [Bool.eqb]; lia.
    + split; [reflexivity|]. split; [apply iter_eqb_neq; exact (proj2 (not_root _ _ _ E))|].
      eexists. split; [unfold depth_increment; cbn [fst snd]; rewrite (step _ _ _ E); reflexivity|].
      apply (IH _ _ _ E'). intros n' e' b' ->. cbn [hd snd]. destruct e'; cbn [Bool.eqb]; lia.
Qed.

(** Reverse *)
Definition rstate (i : iter) : iter * bool := (i, negb (snd i)).
Definition rev_end (i : iter * bool) : bool := (iter_eqb (fst i) (lead r) && Bool.eqb (snd i) false)%bool.
Lemma reverse_visits a : forall b, w = a ++ b ->
  visits (reverse_increment h) rev_end (rstate (last a (lead r))) (map rstate (rev a)).
Proof.
  induction a as [|i a IH] using rev_ind; intros b E.
  - cbn [last rev map visits]. unfold rev_end, rstate; cbn [fst snd lead negb]. now rewrite iter_eqb_refl.
  - rewrite rev_app_distr, last_last. cbn [rev app map visits]. split; [reflexivity|]. split.
    + unfold rev_end, rstate; cbn [fst snd]. rewrite iter_eqb_neq; [reflexivity|].
      rewrite <- app_assoc in E. exact (proj1 (not_root _ _ _ E)).
    + exists (rstate (last a (lead r))). split; [|apply (IH (i :: b)); rewrite E; now lapp].
      unfold reverse_increment, rstate; cbn [fst snd]. rewrite negb_involutive, <- surjective_pairing.
      assert (E' : w = a ++ i :: b) by (rewrite E; now lapp).
      pose proof (back _ _ E') as Hb. cbn [hd] in Hb. rewrite Hb. reflexivity.
Qed.

(** Children *)
Let cstep a i j b : circle (r, w) = a ++ i :: j :: b -> increment h i = Some j.
Proof. exact (circle_step _ _ _ _ _ _ _ _ _ _ I Hk). Qed.
Let cback a i j b : circle (r, w) = a ++ i :: j :: b -> decrement h j = Some i.
Proof.
  intros E. eapply ring_decrement;
    [exact (i_nested _ _ _ I _ _ _ Hk)|exact (i_nodup _ _ _ I _ _ _ Hk)|exact (i_ring _ _ _ I _ _ _ Hk)|exact E].
Qed.

Lemma hd_cons_app {A} (d : A) l x c : hd d (l ++ x :: c) = hd x l.
Proof. destruct l; reflexivity. Qed.

Lemma step_to A i l x c : circle (r, w) = A ++ i :: l ++ x :: c -> increment h i = Some (hd x l).
Proof.
  destruct l as [|j l]; cbn [app hd]; intros E; exact (cstep _ _ _ _ E).
Qed.

Lemma children_visits p ts : forall a b, circle (r, w) = a ++ forest_word ts ++ trail p :: b ->
  visits (child_increment h) (fun i => iter_eqb i (trail p)) (hd (trail p) (forest_word ts)) (map (fun t => lead (root_id t)) ts).
Proof.
  induction ts as [|[n kids] ts IH]; intros a b E.
  - cbn [map visits forest_word flat_map hd]. apply iter_eqb_refl.
  - rewrite fw_cons in *. cbn [map visits hd root_id]. split; [reflexivity|]. split; [apply iter_eqb_neq; discriminate|].
    exists (hd (trail p) (forest_word ts)). split.
    + unfold child_increment. change (pivot_of (lead n)) with (trail n).
      apply (step_to (a ++ lead n :: forest_word kids) _ _ (trail p) b). rewrite E. now lapp.
    + apply (IH (a ++ lead n :: forest_word kids ++ [trail n]) b). rewrite E. now lapp.
Qed.

(** Stepping back over child iterators undoes stepping forward. *)
Lemma child_back a n kids c : circle (r, w) = a ++ tree_word (TNode n kids) ++ c -> c <> [] ->
  exists j, child_increment h (lead n) = Some j /\ child_decrement h j = Some (lead n).
Proof.
  intros E Hc. destruct c as [|j c]; [congruence|]. rewrite tree_word_eq in E.
  assert (E' : circle (r, w) = (a ++ lead n :: forest_word kids) ++ trail n :: j :: c) by (rewrite E; now lapp).
  exists j. split; [exact (cstep _ _ _ _ E')|]. unfold child_decrement. rewrite (cback _ _ _ _ E'). reflexivity.
Qed.

(** Preorder iterators step back to where they came from. *)
Lemma find_lead_back b : forall a n c fuel, w = a ++ lead n :: b ++ c -> filter snd b = [] -> length b < fuel ->
  find_edge_reverse fuel h (last b (lead n)) true = Some (lead n).
Proof.
  induction b as [|[m e] b IH] using rev_ind; intros a n c fuel E Hb Hf; (destruct fuel as [|fuel]; [lia|]); cbn [find_edge_reverse].
  - reflexivity.
  - rewrite last_last. rewrite filter_app in Hb. apply app_eq_nil in Hb. destruct Hb as (Hb & He). cbn [filter snd] in He.
    destruct e; [discriminate|]. cbn [snd Bool.eqb].
    assert (E' : w = (a ++ lead n :: b) ++ (m, false) :: c) by (rewrite E; now lapp).
    pose proof (back _ _ E') as Hd. cbn [hd] in Hd. rewrite Hd.
    rewrite last_app_cons. rewrite app_length in Hf. cbn [length] in Hf.
    apply (IH a n ((m, false) :: c) fuel); [rewrite E; now lapp|exact Hb|lia].
Qed.

Lemma preorder_back a n c b fuel : w = a ++ lead n :: c ++ b -> filter snd c = [] -> b = [] \/ (exists m b', b = lead m :: b') ->
  length w + 1 < fuel ->
  exists j, edge_increment fuel h true (lead n) = Some j /\ edge_decrement fuel h true j = Some (lead n).
Proof.
  intros E Hc Hb Hf.
  assert (E1 : w = (a ++ [lead n]) ++ c ++ b) by (rewrite E; now lapp).
  assert (Hlen : length c < fuel) by (rewrite E, app_length in Hf; cbn [length] in Hf; rewrite app_length in Hf; lia).
  exists (next_lead r (c ++ b)). split.
  - unfold edge_increment. rewrite (step _ _ _ E). apply (find_edge_ok _ _ _ _ _ _ _ I (at_k _ _ E1)).
    rewrite E, app_length in Hf. cbn [length] in Hf. lia.
  - assert (En : next_lead r (c ++ b) = hd (lead r) b).
    { unfold next_lead. transitivity (hd (lead r) (filter snd c ++ filter snd b)); [f_equal; apply filter_app|].
      rewrite Hc. cbn [app]. destruct Hb as [->|(m & b' & ->)]; reflexivity. }
    rewrite En. unfold edge_decrement. destruct Hb as [->|(m & b' & ->)]; cbn [hd].
    + assert (Hwrap : decrement h (lead r) = Some (trail r)).
      { pose proof (i_ring _ _ _ I _ _ _ Hk) as Hr. unfold ring, circle in Hr; cbn [fst snd chain] in Hr.
        destruct Hr as ((H1 & H2) & _). unfold trail, lead in *. rewrite decrement_lead, H2. cbn [fst] in *.
        rewrite H1. cbn [fst]. now rewrite Nat.eqb_refl. }
      rewrite Hwrap. destruct fuel as [|fuel]; [lia|]. cbn [find_edge_reverse snd trail Bool.eqb].
      assert (E2 : w = (a ++ lead n :: c) ++ []) by (rewrite E; now lapp).
      change (r, false) with (trail r). pose proof (back _ _ E2) as Hd. cbn [hd] in Hd. rewrite Hd.
      rewrite last_app_cons. apply (find_lead_back c a n [] fuel E Hc).
      rewrite E, app_length in Hf; cbn [length] in Hf; rewrite app_length in Hf; lia.
    + assert (E2 : w = (a ++ lead n :: c) ++ lead m :: b') by (rewrite E; now lapp).
      pose proof (back _ _ E2) as Hd. cbn [hd] in Hd. rewrite Hd.
      rewrite last_app_cons. exact (find_lead_back c a n (lead m :: b') fuel E Hc Hlen).
Qed.

(** Filtering *)
Variable p : T -> bool.
Definition holds (n : nat) : bool := match nth n (vals s) None with Some v => p v | None => false end.

Lemma deref_w a i b : w = a ++ i :: b -> exists v, deref h i = Some v /\ p v = holds (fst i).
Proof.
  intros E. destruct (i_some _ _ _ I i) as (v & Hv).
  { left. exists k, r, w. split; [exact Hk|]. rewrite E, in_app_iff. right; left; reflexivity. }
  exists v. split; [|unfold holds; now rewrite Hv].
  rewrite deref_dat, (i_in _ _ _ I i); [exact Hv|]. left. eapply mem_at; [exact Hk|].
  apply in_circle. right; left. rewrite E, in_app_iff. right; left; reflexivity.
Qed.

Definition filt fuel first := filter_increment fuel h p first (trail r).

Lemma filter_visits fuel first ts : forall a b i l, w = a ++ forest_word ts ++ b -> length w < fuel ->
  (forall g, length b < g -> skip_forward g h p (hd (trail r) b) (trail r) = Some i) ->
  visits (filt fuel first) (fun x => iter_eqb (fst x) (trail r)) (i, true) l ->
  exists i', (forall g, length (forest_word ts ++ b) < g -> skip_forward g h p (hd (trail r) (forest_word ts ++ b)) (trail r) = Some i') /\
    visits (filt fuel first) (fun x => iter_eqb (fst x) (trail r)) (i', true)
      (map (fun x => (x, true)) (forest_word (flat_map (prune holds) ts)) ++ l).
Proof.
  induction ts as [|n kids ts IH1 IH2] using trees_ind; intros a b i l E Hf Hi Hv.
  - exists i. auto.
  - rewrite fw_cons in *.
    assert (E0 : w = a ++ lead n :: forest_word kids ++ trail n :: forest_word ts ++ b) by (rewrite E; now lapp).
    assert (E1 : w = (a ++ [lead n]) ++ forest_word kids ++ (trail n :: forest_word ts ++ b)) by (rewrite E; now lapp).
    assert (E2 : w = (a ++ lead n :: forest_word kids ++ [trail n]) ++ forest_word ts ++ b) by (rewrite E; now lapp).
    assert (E3 : w = (a ++ lead n :: forest_word kids) ++ trail n :: forest_word ts ++ b) by (rewrite E; now lapp).
    destruct (IH2 _ b i l E2 Hf Hi Hv) as (i2 & S2 & V2).
    destruct (deref_w _ _ _ E0) as (v & Hd & Hp). cbn [fst] in Hp.
    pose proof (not_root _ _ _ E0) as (_ & Hne). pose proof (not_root _ _ _ E3) as (_ & Hne3).
    cbn [flat_map prune]. cbn [fst] in Hp. change (fst (lead n)) with n in Hp.
    destruct (holds n) eqn:Eh.
    + (* kept *)
      destruct (IH1 _ (trail n :: forest_word ts ++ b) (trail n) ((trail n, true) :: map (fun x => (x, true)) (forest_word (flat_map (prune holds) ts)) ++ l) E1 Hf) as (i1 & S1 & V1).
      * intros g Hg. destruct g as [|g]; [cbn in Hg; lia|]. reflexivity.
      * cbn [visits fst]. split; [reflexivity|]. split; [now apply iter_eqb_neq|].
        exists (i2, true). split; [|exact V2]. unfold filt, filter_increment.
        rewrite (iter_eqb_neq _ _ Hne3), (step _ _ _ E3).
        rewrite S2 by (rewrite E3, !app_length in Hf; cbn [length] in Hf; rewrite !app_length in *; lia).
        destruct (iter_eqb (hd (trail r) (forest_word ts ++ b)) first); reflexivity.
      * exists (lead n). split.
        { intros g Hg. destruct g as [|g]; [lia|]. cbn [app hd skip_forward]. rewrite (iter_eqb_neq _ _ Hne), Hd, Hp. reflexivity. }
        { cbn [app]. rewrite fw_cons. cbn [map app visits fst]. split; [reflexivity|]. split; [now apply iter_eqb_neq|].
          exists (i1, true). split.
          - unfold filt, filter_increment. rewrite (iter_eqb_neq _ _ Hne), (step _ _ _ E0).
            rewrite S1 by (rewrite E0, !app_length in Hf; cbn [length] in Hf; rewrite !app_length in *; cbn [length] in *; rewrite !app_length in *; lia).
            destruct (iter_eqb _ first); reflexivity.
          - rewrite map_app, <- app_assoc. cbn [map app]. exact V1. }
    + (* pruned *)
      exists i2. split; [|exact V2]. intros g Hg. destruct g as [|g]; [lia|]. cbn [app hd skip_forward snd lead].
      change (n, true) with (lead n). rewrite (iter_eqb_neq _ _ Hne), Hd, Hp. cbn [negb andb].
      change (trailing_of (lead n)) with (trail n). rewrite (step _ _ _ E3). apply S2.
      cbn [app length] in Hg. rewrite !app_length in Hg. cbn [length] in Hg. rewrite !app_length in *. lia.
Qed.

End Walk.
