(** Proofs about the xstring library's model. *)
From Coq Require Import String Ascii.
From Verif Require Import Prelude Entity_Model Unicode_Model Xml_Model Xml_Spec Xml_Attr Xml_Sound Xml_Complete Xstr_Model Xstr_Spec.
From Coq Require Import List ZArith Lia.
Import ListNotations.
Local Open Scope nat_scope.
Ltac Zify.zify_post_hook ::= idtac.

Lemma word_lit s : word s = lit s. Proof. reflexivity. Qed.
Definition eqP := range_equalP.
Lemma own_name_handled h n : handled h n = own_name n.
Proof.
  unfold handled, own_name, XSTR, MARKER. change (lit "xstr") with (word "xstr"). change (lit "marker") with (word "marker"). destruct (range_equalP n (word "xstr")) as [E|E], (list_eq_dec N.eq_dec n (word "xstr")); try contradiction; [reflexivity|].
  destruct (range_equalP n (word "marker")) as [F|F], (list_eq_dec N.eq_dec n (word "marker")); try contradiction; reflexivity.
Qed.
Lemma xstr_not_marker : range_equal XSTR MARKER = false. Proof. reflexivity. Qed.
Lemma own_cases n : own_name n = true -> n = XSTR \/ n = MARKER.
Proof. unfold own_name. destruct (list_eq_dec N.eq_dec n (word "xstr")); [auto|]. destruct (list_eq_dec N.eq_dec n (word "marker")); [auto|discriminate]. Qed.
Lemma own_xstr : own_name XSTR = true. Proof. reflexivity. Qed.
Lemma own_marker : own_name MARKER = true. Proof. reflexivity. Qed.
Lemma not_own n : own_name n = false -> range_equal n XSTR = false /\ range_equal n MARKER = false.
Proof. intros H. rewrite <- (own_name_handled []) in H. unfold handled in H. now apply orb_false_iff in H. Qed.

(** *** attributes *)
Lemma attrs_eqb_spec x : forall y, attrs_eqb x y = true <-> x = y.
Proof.
  induction x as [|[m v] x IH]; intros [|[n w] y]; cbn [attrs_eqb]; try (split; congruence). rewrite !andb_true_iff, IH.
  destruct (range_equalP m n) as [-> |N], (range_equalP v w) as [-> |V]; split; try (intros [[? ?] ?]; congruence); try congruence; intros E; injection E; intros; congruence || auto.
Qed.
Lemma denotes_same x y l : denotes x l -> denotes y l -> forall n, last_value x n = last_value y n.
Proof.
  intros [_ X] [_ Y] n. destruct (last_value x n) as [v|] eqn:E.
  - apply X in E. apply Y in E. auto.
  - destruct (last_value y n) as [v|] eqn:F; [|reflexivity]. apply Y in F. apply X in F. congruence.
Qed.
Lemma same_denotes x y l : denotes x l -> (forall n, last_value x n = last_value y n) -> denotes y l.
Proof. intros [A X] E. split; [exact A|]. intros n v. rewrite X, E. reflexivity. Qed.
Lemma attrs_eqb_same x y l l' : denotes (written x) l -> denotes (written y) l' -> (attrs_eqb l l' = true <-> same_attributes x y).
Proof.
  intros X Y. rewrite attrs_eqb_spec. split.
  - intros ->. exact (denotes_same _ _ _ X Y).
  - intros E. eapply denotes_unique; [exact (same_denotes _ _ _ X E)|exact Y].
Qed.
Lemma range_equal_sym x y : range_equal x y = range_equal y x.
Proof. destruct (range_equalP x y), (range_equalP y x); congruence. Qed.
Lemma attrs_eqb_sym x : forall y, attrs_eqb x y = attrs_eqb y x.
Proof. intros y. destruct (attrs_eqb x y) eqn:E, (attrs_eqb y x) eqn:F; auto; [apply attrs_eqb_spec in E|apply attrs_eqb_spec in F]; subst; rewrite (proj2 (attrs_eqb_spec _ _) eq_refl) in *; discriminate. Qed.

Definition denoting (ms : list marker_t) (given : list (attrs * option bytes)) : Prop :=
  Forall2 (fun m g => denotes (written (fst m)) (fst g) /\ snd m = snd g) ms given.
Lemma replacement_cases ms given : denoting ms given -> forall ats l, denotes (written ats) l ->
  (exists v, first_given ms ats v /\ replacement given l = Some v) \/ (not_given ms ats /\ replacement given l = None).
Proof.
  intros D ats l L. unfold replacement. induction D as [|[ats' v] [l' v'] ms given [A B] D IH]; [right; split; [constructor|reflexivity]|]. cbn [fst snd] in *. subst v'. cbn [find fst].
  destruct (attrs_eqb l' l) eqn:E.
  - left. exists v. split; [|reflexivity]. rewrite attrs_eqb_sym, (attrs_eqb_same ats ats' l l' L A) in E. exists [], ats', ms. auto.
  - assert (N : ~ same_attributes ats ats') by (rewrite <- (attrs_eqb_same ats ats' l l' L A), attrs_eqb_sym, E; discriminate).
    destruct IH as [(w & (a & ats2 & b & -> & S2 & F) & R)|[F R]].
    + left. exists w. split; [|exact R]. exists ((ats', v) :: a), ats2, b. split; [reflexivity|]. split; [exact S2|constructor; auto].
    + right. split; [constructor; auto|exact R].
Qed.
Lemma first_given_unique ms ats v w : first_given ms ats v -> first_given ms ats w -> v = w.
Proof.
  intros (a & x & b & E & S1 & F) (a' & x' & b' & E' & S' & F'). subst ms. revert a' E' F'. induction a as [|m a IH]; intros [|m' a'] E' F'; cbn [app] in *.
  - congruence.
  - injection E' as <- _. apply Forall_cons_iff in F' as [F' _]. destruct F'. exact S1.
  - injection E' as -> _. apply Forall_cons_iff in F as [F _]. destruct F. exact S'.
  - injection E' as <- E'. apply Forall_cons_iff in F as [_ F], F' as [_ F']. eauto.
Qed.
Lemma given_not_given ms ats v : first_given ms ats v -> not_given ms ats -> False.
Proof. intros (a & x & b & -> & S1 & _) N. apply Forall_app in N as [_ N]. apply Forall_cons_iff in N as [N _]. exact (N S1). Qed.

(** *** nothing is read from an empty text *)
Lemma raw_nonempty i next : item_ok i next -> raw i <> [].
Proof. destruct i; cbn [item_ok raw]; try discriminate. intros [H _]. exact H. Qed.
Lemma parsed_nil ni pred cb h o h' : Parsed ni pred cb h [] o h' -> o = [] /\ h' = h.
Proof.
  intros P. remember [] as x eqn:X in P. destruct P as [h is rest o h' O St R]. assert (E := X). apply app_eq_nil in E as [E ->]. destruct is as [|i is].
  - inversion R; subst; auto.
  - exfalso. cbn [raws flat_map] in E. apply app_eq_nil in E as [E _]. exact (raw_nonempty i _ (proj1 O) E).
Qed.
Lemma nil_parsed ni pred cb h : Parsed ni pred cb h [] [] h.
Proof. exact (P_content ni pred cb h [] [] [] h Logic.I (or_introl eq_refl) (R_nil ni pred cb h)). Qed.

Scheme Fill_mut := Minimality for Fill Sort Prop with FillE_mut := Minimality for FillE Sort Prop with FillT_mut := Minimality for FillT Sort Prop.
Combined Scheme Fill_ind3 from Fill_mut, FillE_mut, FillT_mut.

Section Candidate.
Variable ni : list entry.
Variable ms : list marker_t.
Variable given : list (attrs * option bytes).
Hypothesis D : denoting ms given.
Definition points (h : list call) : Z := fold_left (score given) h 0%Z.
Definition st (h : list call) : option nat := if (points h =? -1)%Z then None else Some (Z.to_nat (points h)).
Lemma points_snoc h k : points (h ++ [k]) = score given (points h) k.
Proof. unfold points. now rewrite fold_left_app. Qed.
Lemma points_low h : (-1 <= points h)%Z.
Proof.
  induction h as [|k h IH] using rev_ind; [vm_compute; congruence|]. rewrite points_snoc. unfold score. destruct (range_equal _ _); [|exact IH]. destruct (Z.eqb_spec (points h) (-1)); [lia|].
  destruct (replacement _ _); lia.
Qed.
Lemma st_snoc h k : st (h ++ [k]) = if range_equal (c_name k) MARKER
  then match st h with None => None | Some n => match replacement given (c_attributes k) with Some _ => Some (S n) | None => None end end else st h.
Proof.
  unfold st. rewrite points_snoc. unfold score. assert (L := points_low h). destruct (range_equal _ _); [|reflexivity]. destruct (Z.eqb_spec (points h) (-1)) as [E|E]; [reflexivity|].
  destruct (replacement _ _); [|reflexivity]. destruct (Z.eqb_spec (points h + 1) (-1)); [lia|]. f_equal. lia.
Qed.
Lemma st_answer h k : candidate_answer given h k = if range_equal (c_name k) MARKER
  then match st h with None => Text [] | Some _ => match replacement given (c_attributes k) with Some (Some v) => Text v | Some None => Wild | None => Text [] end end else Text [].
Proof. unfold candidate_answer, st. fold (points h). destruct (range_equal _ _); [|reflexivity]. destruct (points h =? -1)%Z; reflexivity. Qed.
Notation cb := (candidate_answer given).

Lemma tag_named i nm ats kids : tag_of i = Some (nm, ats, kids) -> own_name nm = true -> tag_of i = Some (word "xstr", ats, kids) \/ tag_of i = Some (word "marker", ats, kids).
Proof. intros T O. destruct (own_cases nm O) as [-> | ->]; auto. Qed.
Lemma sound :
  (forall h is o h', Render ni handled cb h is o h' -> Fill ni ms (st h) is o (st h')) /\
  (forall h i o h', RenderE ni handled cb h i o h' -> FillE ni ms (st h) i o (st h')) /\
  (forall h x o h', Parsed ni handled cb h x o h' -> FillT ni ms (st h) x o (st h')).
Proof.
  apply Render_ind3.
  - intros h. constructor.
  - intros; constructor; auto.
  - intros; constructor; auto.
  - intros; constructor; auto.
  - intros; constructor; auto.
  - intros; econstructor; eauto.
  - intros h w0 nm ats w1 l k x P L -> A. rewrite own_name_handled in P. destruct (not_own nm P) as [_ N]. rewrite st_answer in A. cbn [c_name] in A. rewrite N in A. injection A as <-.
    rewrite st_snoc. cbn [c_name]. rewrite N. now constructor.
  - intros h w0 nm ats w1 kids w2 w3 o h' P _ IH. rewrite own_name_handled in P. now constructor.
  - intros h i nm ats kids l k T P L -> A. exfalso. rewrite st_answer in A. cbn [c_name c_attributes] in A. destruct (range_equal nm MARKER), (st h), (replacement given l) as [[?|]|]; discriminate.
  - intros h i nm ats kids l k x o h' T P L -> A Pa IH. rewrite own_name_handled in P. rewrite st_answer in A. rewrite st_snoc in IH. cbn [c_name c_attributes] in *.
    destruct (own_cases nm P) as [-> | ->].
    + rewrite xstr_not_marker in *. injection A as <-. apply parsed_nil in Pa as [-> ->]. rewrite st_snoc. cbn [c_name]. rewrite xstr_not_marker. eapply F_xstr, T.
    + change (range_equal MARKER MARKER) with true in *. cbn iota in *. destruct (st h) as [n|] eqn:Sh.
      * destruct (replacement_cases ms given D ats l L) as [(v & G & R)|[G R]]; rewrite R in *.
        -- destruct v as [v|]; [|discriminate]. injection A as ->. eapply F_marker; eauto.
        -- injection A as <-. apply parsed_nil in Pa as [-> ->]. rewrite st_snoc. cbn [c_name c_attributes]. change (range_equal MARKER MARKER) with true. cbn iota. rewrite Sh, R. eapply F_missing; eauto.
      * injection A as <-. apply parsed_nil in Pa as [-> ->]. rewrite st_snoc. cbn [c_name c_attributes]. change (range_equal MARKER MARKER) with true. cbn iota. rewrite Sh. eapply F_already_missing; eauto.
  - intros h is rest o h' O St R IH. exists is; [|exact IH]. exists rest. auto.
Qed.
Lemma denotes_any ats : exists l, denotes ats l.
Proof.
  assert (H : forall ats0 s, built ats0 s -> exists s', built (ats0 ++ ats) s').
  { induction ats as [|[k v] ats IH]; intros ats0 s B; [exists s; rewrite app_nil_r; exact B|].
    destruct (IH (ats0 ++ [(k, v)]) (aset_insert s k (TR 0 v)) (built_insert ats0 s k (TR 0 v) B)) as (s' & B').
    exists s'. rewrite <- app_assoc in B'. exact B'. }
  destruct (H [] [] built_nil) as (s' & B). exists (texts s'). apply built_denotes. exact B.
Qed.
Lemma complete :
  (forall s is o s', Fill ni ms s is o s' -> forall h, st h = s -> exists h', Render ni handled cb h is o h' /\ st h' = s') /\
  (forall s i o s', FillE ni ms s i o s' -> forall h, st h = s -> exists h', RenderE ni handled cb h i o h' /\ st h' = s') /\
  (forall s x o s', FillT ni ms s x o s' -> forall h, st h = s -> exists h', Parsed ni handled cb h x o h' /\ st h' = s').
Proof.
  apply Fill_ind3.
  - intros s h E. exists h. split; [constructor|exact E].
  - intros s t is o s' _ IH h E. destruct (IH h E) as (h' & R & E'). exists h'. split; [now constructor|exact E'].
  - intros s t is o s' _ IH h E. destruct (IH h E) as (h' & R & E'). exists h'. split; [now constructor|exact E'].
  - intros s t is o s' _ IH h E. destruct (IH h E) as (h' & R & E'). exists h'. split; [now constructor|exact E'].
  - intros s t is o s' _ IH h E. destruct (IH h E) as (h' & R & E'). exists h'. split; [now constructor|exact E'].
  - intros s i is o1 s1 o s' _ IH1 _ IH2 h E. destruct (IH1 h E) as (h1 & R1 & E1). destruct (IH2 h1 E1) as (h' & R & E'). exists h'. split; [econstructor; eauto|exact E'].
  - intros n i ats kids v o s' T G _ IH h E. destruct (denotes_any (written ats)) as (l & L). destruct (replacement_cases ms given D ats l L) as [(v' & G' & R)|[G' R]]; [|destruct (given_not_given _ _ _ G G')].
    rewrite <- (first_given_unique _ _ _ _ G G') in R. set (k := Call (raw i) MARKER l (value_of kids)).
    destruct (IH (h ++ [k])) as (h' & P & E'); [rewrite st_snoc; cbn [k c_name c_attributes]; change (range_equal MARKER MARKER) with true; cbn iota; now rewrite E, R|].
    exists h'. split; [|exact E']. eapply (R_text ni handled cb h i _ ats kids l k); eauto. rewrite st_answer. cbn [k c_name c_attributes]. change (range_equal MARKER MARKER) with true. cbn iota. now rewrite E, R.
  - intros n i ats kids T G h E. destruct (denotes_any (written ats)) as (l & L). destruct (replacement_cases ms given D ats l L) as [(v' & G' & R)|[G' R]]; [destruct (given_not_given _ _ _ G' G)|].
    set (k := Call (raw i) MARKER l (value_of kids)). exists (h ++ [k]). split.
    + eapply (R_text ni handled cb h i _ ats kids l k); eauto; [|apply nil_parsed]. rewrite st_answer. cbn [k c_name c_attributes]. change (range_equal MARKER MARKER) with true. cbn iota. now rewrite E, R.
    + rewrite st_snoc. cbn [k c_name c_attributes]. change (range_equal MARKER MARKER) with true. cbn iota. now rewrite E, R.
  - intros i ats kids T h E. destruct (denotes_any (written ats)) as (l & L). set (k := Call (raw i) MARKER l (value_of kids)). exists (h ++ [k]). split.
    + eapply (R_text ni handled cb h i _ ats kids l k); eauto; [|apply nil_parsed]. rewrite st_answer. cbn [k c_name c_attributes]. change (range_equal MARKER MARKER) with true. cbn iota. now rewrite E.
    + rewrite st_snoc. cbn [k c_name c_attributes]. change (range_equal MARKER MARKER) with true. cbn iota. now rewrite E.
  - intros s i ats kids T h E. destruct (denotes_any (written ats)) as (l & L). set (k := Call (raw i) XSTR l (value_of kids)). exists (h ++ [k]). split.
    + eapply (R_text ni handled cb h i _ ats kids l k); eauto; [|apply nil_parsed]. rewrite st_answer. reflexivity.
    + rewrite st_snoc. exact E.
  - intros s w0 nm ats w1 O h E. destruct (denotes_any (written ats)) as (l & L). set (k := Call (raw (Empty w0 nm ats w1)) nm l (Some [])). destruct (not_own nm O) as [_ N]. exists (h ++ [k]). split.
    + eapply (R_empty ni handled cb h w0 nm ats w1 l k []); eauto; [now rewrite own_name_handled|]. rewrite st_answer. cbn [k c_name]. now rewrite N.
    + rewrite st_snoc. cbn [k c_name]. now rewrite N.
  - intros s w0 nm ats w1 kids w2 w3 o s' O _ IH h E. destruct (IH h E) as (h' & R & E'). exists h'. split; [|exact E']. constructor; [now rewrite own_name_handled|exact R].
  - intros s is x o s' (rest & -> & O & St) _ IH h E. destruct (IH h E) as (h' & R & E'). exists h'. split; [now constructor|exact E'].
Qed.
End Candidate.

(** *** texts whose elements are only looked at *)
Fixpoint seen (i : item) : list item :=
  match i with
  | Empty _ nm _ _ => [i]
  | Elem _ nm _ _ kids _ _ => if own_name nm then [i] else flat_map seen kids
  | _ => []
  end.
Definition call_of (i : item) (k : call) : Prop :=
  exists nm ats kids, tag_of i = Some (nm, ats, kids) /\ c_name k = nm /\ denotes (written ats) (c_attributes k) /\ c_value k = value_of kids.
Section Looking.
Variable ni : list entry.
Variable cb : list call -> call -> answer.
Hypothesis C : forall h k, cb h k = Echo \/ cb h k = Text [].
Lemma looking :
  (forall h is o h', Render ni handled cb h is o h' -> exists d, h' = h ++ d /\ Forall2 call_of (flat_map seen is) d) /\
  (forall h i o h', RenderE ni handled cb h i o h' -> exists d, h' = h ++ d /\ Forall2 call_of (seen i) d) /\
  (forall h x o h', Parsed ni handled cb h x o h' -> exists is d, content_of x is /\ h' = h ++ d /\ Forall2 call_of (flat_map seen is) d).
Proof.
  apply Render_ind3; try (intros; assumption).
  - intros h. exists []. rewrite app_nil_r. split; [reflexivity|constructor].
  - intros h i is o1 h1 o h' _ (d1 & -> & F1) _ (d2 & -> & F2). exists (d1 ++ d2). rewrite app_assoc. split; [reflexivity|]. apply Forall2_app; assumption.
  - intros h w0 nm ats w1 l k x P L -> _. eexists. split; [reflexivity|]. constructor; [|constructor]. exists nm, ats, []. cbn. auto.
  - intros h w0 nm ats w1 kids w2 w3 o h' P _ (d & -> & F). exists d. split; [reflexivity|]. cbn [seen]. rewrite own_name_handled in P. now rewrite P.
  - intros h i nm ats kids l k T P L -> _. rewrite own_name_handled in P. eexists. split; [reflexivity|].
    destruct i; try discriminate; injection T as ? ? ?; subst; cbn [seen]; rewrite ?P; (constructor; [|constructor]); eexists _, _, _; cbn; eauto.
  - intros h i nm ats kids l k x o h' T P L -> A Pa _. rewrite own_name_handled in P. assert (x = []) as -> by (match type of A with cb ?h1 ?k1 = _ => destruct (C h1 k1); congruence end). apply parsed_nil in Pa as [_ ->].
    eexists. split; [reflexivity|]. destruct i; try discriminate; injection T as ? ? ?; subst; cbn [seen]; rewrite ?P; (constructor; [|constructor]); eexists _, _, _; cbn; eauto.
  - intros h is rest o h' O St _ (d & -> & F). exists is, d. split; [exists rest; auto|auto].
Qed.
Lemma render_any is : forall h, exists o h', Render ni handled cb h is o h'.
Proof.
  assert (A : forall i h, tag_of i = None \/ exists o h', RenderE ni handled cb h i o h').
  { intros i. apply (item_rect' (fun i => forall h, tag_of i = None \/ exists o h', RenderE ni handled cb h i o h') (fun is => forall h, exists o h', Render ni handled cb h is o h')); try (intros; left; reflexivity).
    - intros w0 nm ats w1 h. right. destruct (denotes_any (written ats)) as (l & D). destruct (handled h nm) eqn:Ep.
      + set (k := Call (raw (Empty w0 nm ats w1)) nm l (value_of [])). destruct (C h k) as [E|E]; eexists _, _.
        * exact (R_echo ni handled cb h (Empty w0 nm ats w1) nm ats [] l k eq_refl Ep D eq_refl E).
        * exact (R_text ni handled cb h (Empty w0 nm ats w1) nm ats [] l k [] [] _ eq_refl Ep D eq_refl E (nil_parsed _ _ _ _)).
      + set (k := Call (raw (Empty w0 nm ats w1)) nm l (Some [])). destruct (C h k) as [E|E]; eexists _, _; (eapply R_empty; [exact Ep|exact D|reflexivity|unfold k in E; rewrite E; reflexivity]).
    - intros w0 nm ats w1 kids w2 w3 IH h. right. destruct (denotes_any (written ats)) as (l & D). destruct (handled h nm) eqn:Ep.
      + set (k := Call (raw (Elem w0 nm ats w1 kids w2 w3)) nm l (value_of kids)). destruct (C h k) as [E|E]; eexists _, _.
        * exact (R_echo ni handled cb h (Elem w0 nm ats w1 kids w2 w3) nm ats kids l k eq_refl Ep D eq_refl E).
        * exact (R_text ni handled cb h (Elem w0 nm ats w1 kids w2 w3) nm ats kids l k [] [] _ eq_refl Ep D eq_refl E (nil_parsed _ _ _ _)).
      + destruct (IH h) as (o & h' & R). eexists _, _. apply R_inside; [exact Ep|exact R].
    - intros h. eexists _, _. apply R_nil.
    - intros i0 is0 IHi IHs h. destruct i0 as [x|x|x|x|w0 nm ats w1|w0 nm ats w1 kids w2 w3].
      1-4: destruct (IHs h) as (o & h' & R); eexists _, _; constructor; exact R.
      1-2: destruct (IHi h) as [X | (o & h' & R)]; [discriminate|]; destruct (IHs h') as (o2 & h2 & R2); eexists _, _; eapply R_element; eassumption. }
  induction is as [|i is IH]; intros h; [eexists _, _; apply R_nil|].
  destruct (A i h) as [E | (o & h' & R)].
  - destruct (IH h) as (o & h' & R). destruct i; try discriminate; eexists _, _; constructor; exact R.
  - destruct (IH h') as (o2 & h2 & R2). eexists _, _; eapply R_element; eassumption.
Qed.
End Looking.

(** parsing a text, with enough steps *)
Lemma parse_iff ni pred cb x o h : Parsed ni pred cb [] x o h <->
  exists F, forall f, F <= f -> exists s, parse_content ni pred cb f x fresh = Ok tt s /\ p_out s = o /\ p_calls s = h.
Proof.
  split.
  - intros P. destruct (run_all ni pred cb) as (_ & _ & R). destruct (R _ _ _ _ P fresh true eq_refl eq_refl eq_refl) as (F & L & H). exists F. intros f Hf. eexists. split; [apply (H f Hf)|]. split; reflexivity.
  - intros (F & H). destruct (H F (le_n F)) as (s' & E & <- & <-). destruct (all_sound ni pred cb F) as (_ & _ & _ & _ & P).
    destruct (P x fresh true s' eq_refl eq_refl E) as (o & Q & E'). cbn [fresh p_out p_calls app] in *. rewrite E'. exact Q.
Qed.
Lemma parse_one ni pred cb x f s : parse_content ni pred cb f x fresh = Ok tt s -> Parsed ni pred cb [] x (p_out s) (p_calls s).
Proof.
  intros E. destruct (all_sound ni pred cb f) as (_ & _ & _ & _ & P). destruct (P x fresh true s eq_refl eq_refl E) as (o & Q & E'). cbn [fresh p_out p_calls app] in *. rewrite E'. exact Q.
Qed.
Lemma parse_unique ni pred cb x o h o' h' : Parsed ni pred cb [] x o h -> Parsed ni pred cb [] x o' h' -> o = o' /\ h = h'.
Proof.
  intros P P'. apply parse_iff in P as (F & H), P' as (F' & H'). destruct (H (F + F') ltac:(lia)) as (s & E & <- & <-), (H' (F + F') ltac:(lia)) as (s' & E' & <- & <-). rewrite E in E'. injection E' as <-. auto.
Qed.

(** the elements looked for among those seen *)
Lemma named_own n i : own_name n = true -> named n i = true -> exists ats kids, tag_of i = Some (n, ats, kids).
Proof. unfold named. intros _. destruct (tag_of i) as [[[m ats] kids]|]; [|discriminate]. destruct (list_eq_dec N.eq_dec m n) as [-> |]; [eauto|discriminate]. Qed.
Lemma filter_flat_map {A B} (p : B -> bool) (f g : A -> list B) l : (forall x, In x l -> filter p (f x) = filter p (g x)) -> filter p (flat_map f l) = filter p (flat_map g l).
Proof. induction l as [|x l IH]; intros H; [reflexivity|]. cbn. rewrite !filter_app, IH, H; [reflexivity|now left|]. intros y Y. apply H. now right. Qed.
Lemma seen_outermost n is : own_name n = true -> filter (named n) (flat_map seen is) = filter (named n) (flat_map outermost is).
Proof.
  intros O. assert (A : forall i, filter (named n) (seen i) = filter (named n) (outermost i)).
  { intros i. apply (item_rect' (fun i => filter (named n) (seen i) = filter (named n) (outermost i)) (fun is => filter (named n) (flat_map seen is) = filter (named n) (flat_map outermost is))); try (intros; reflexivity).
    - intros w0 nm ats w1. cbn [seen outermost]. destruct (own_name nm) eqn:E; [reflexivity|]. cbn [filter]. unfold named. cbn [tag_of]. destruct (list_eq_dec N.eq_dec nm n) as [-> |]; [congruence|reflexivity].
    - intros w0 nm ats w1 kids w2 w3 IH. cbn [seen outermost]. destruct (own_name nm); [reflexivity|exact IH].
    - intros i0 is0 H1 H2. cbn [flat_map]. rewrite !filter_app. congruence. }
  apply filter_flat_map. auto.
Qed.
Lemma call_of_named i k n : call_of i k -> named n i = range_equal (c_name k) n.
Proof.
  intros (nm & ats & kids & T & <- & _). unfold named. rewrite T. destruct (list_eq_dec N.eq_dec (c_name k) n) as [E|E], (range_equalP (c_name k) n); congruence.
Qed.
Lemma markers_of_calls is d : Forall2 call_of is d -> denoting (flat_map as_marker (filter (named MARKER) is)) (flat_map marker_of d).
Proof.
  induction 1 as [|i k is d H F IH]; [constructor|]. cbn [filter flat_map]. rewrite (call_of_named i k MARKER H). unfold marker_of at 1. destruct (range_equal (c_name k) MARKER); [|exact IH].
  destruct H as (nm & ats & kids & T & _ & L & V). cbn [flat_map app]. unfold as_marker at 1. rewrite T. cbn [app]. constructor; [|exact IH]. cbn. auto.
Qed.
Lemma attr_get_last ats l n : denotes ats l -> attr_get l n = match last_value ats n with Some v => v | None => [] end.
Proof.
  intros [A X]. assert (Y : forall v, In (n, v) l <-> last_value ats n = Some v) by (intros v; apply X). clear X.
  assert (G : forall l, ascending (map fst l) -> (forall v, In (n, v) l -> attr_get l n = v) /\ ((forall v, ~ In (n, v) l) -> attr_get l n = [])).
  { clear. induction l as [|[m w] l IH]; intros A; [split; [intros v []|reflexivity]|]. cbn [map fst ascending] in A. destruct A as [A1 A2]. destruct (IH A2) as [I1 I2]. cbn [attr_get]. destruct (range_equalP m n) as [-> |N].
    - split; [|intros H; destruct (H w); now left]. intros v [E|E]; [congruence|]. exfalso. rewrite Forall_forall in A1. specialize (A1 n (in_map fst _ _ E)).
      unfold name_before in A1. destruct A1 as [A1|[_ A1]]; [lia|]. clear - A1. induction n as [|c n IH]; cbn in A1; [exact A1|]. destruct A1 as [A1|[_ A1]]; [lia|auto].
    - split; [intros v [E|E]; [congruence|auto]|]. intros H. apply I2. intros v E. apply (H v). now right. }
  destruct (G l A) as [G1 G2]. destruct (last_value ats n) as [v|] eqn:E; [apply G1, Y, eq_refl|]. apply G2. intros v H. apply Y in H. discriminate.
Qed.
Lemma id_of_calls is d : Forall2 call_of is d -> forall id0, fold_left harvest d id0 = match filter (named XSTR) is with [] => id0 | _ => id_attribute (last (filter (named XSTR) is) (Chars [])) end.
Proof.
  induction 1 as [|i k is d H F IH]; intros id0; [reflexivity|]. cbn [fold_left filter]. rewrite IH, (call_of_named i k XSTR H). unfold harvest at 1. destruct (range_equal (c_name k) XSTR); [|destruct (filter (named XSTR) is); reflexivity].
  destruct (filter (named XSTR) is) as [|j js] eqn:E; [|reflexivity]. cbn [last]. destruct H as (nm & ats & kids & T & _ & L & V). unfold id_attribute. rewrite T. apply attr_get_last, L.
Qed.

(** *** run *)
Section Run.
Variable ni : list entry.
Variable ms : list marker_t.
Variable given : list (attrs * option bytes).
Hypothesis D : denoting ms given.
Notation readable := (readable ni ms).
Notation filled := (filled ni ms).
Notation cb := (candidate_answer given).

Lemma st_nil : st given [] = Some 0. Proof. reflexivity. Qed.
Lemma fill_parse c o s : FillT ni ms (Some 0) c o s <-> exists h, Parsed ni handled cb [] c o h /\ st given h = s.
Proof.
  split.
  - intros F. exact (proj2 (proj2 (complete ni ms given D)) _ _ _ _ F [] eq_refl).
  - intros (h & P & <-). exact (proj2 (proj2 (sound ni ms given D)) _ _ _ _ P).
Qed.
Lemma fill_unique c o s o' s' : FillT ni ms (Some 0) c o s -> FillT ni ms (Some 0) c o' s' -> o = o' /\ s = s'.
Proof. rewrite !fill_parse. intros (h & P & <-) (h' & P' & <-). destruct (parse_unique _ _ _ _ _ _ _ _ P P') as [-> ->]. auto. Qed.
Lemma st_points h : st given h = None /\ points given h = (-1)%Z \/ exists n, st given h = Some n /\ points given h = Z.of_nat n.
Proof.
  unfold st. assert (L := points_low given h). destruct (Z.eqb_spec (points given h) (-1)); [auto|]. right. eexists. split; [reflexivity|]. lia.
Qed.
(** what [run] makes of the candidates left, [m] being the best score so far *)
Definition good (cs : list bytes) (m : Z) (r : bytes) (out : outcome) : Prop :=
  (out = (if (m <? 0)%Z then No_candidate else Done r) /\ forall c o n, In c cs -> filled c o n -> (Z.of_nat n <= m)%Z) \/
  exists o before c after n, out = Done o /\ cs = before ++ c :: after /\ filled c o n /\ (m < Z.of_nat n)%Z /\
    (forall c' o' n', In c' before -> filled c' o' n' -> n' < n) /\ (forall c' o' n', In c' after -> filled c' o' n' -> n' <= n).
Lemma run_good f : forall cs m r out, (-1 <= m)%Z -> run ni f given cs m r = out -> (exists o, out = Done o) \/ out = No_candidate -> Forall readable cs /\ good cs m r out.
Proof.
  induction cs as [|c cs IH]; intros m r out M E K; cbn [run] in E.
  - split; [constructor|]. left. split; [congruence|intros c o n []].
  - destruct (parse_content ni handled cb f c fresh) as [u s| | |] eqn:P; try (exfalso; cbn [failed] in E; destruct K as [[o ->]| ->]; congruence). destruct u.
    apply parse_one in P. fold (points given (p_calls s)) in E. assert (R : FillT ni ms (Some 0) c (p_out s) (st given (p_calls s))) by (apply fill_parse; eauto).
    destruct (Z.ltb_spec m (points given (p_calls s))) as [L|L].
    + destruct (IH _ _ _ (points_low given (p_calls s)) E K) as [IR G]. split; [constructor; [eexists _, _; exact R|exact IR]|]. right.
      destruct (st_points (p_calls s)) as [[S1 S2]|(n & S1 & S2)].
      * exfalso. lia.
      * rewrite S1 in R. rewrite S2 in *. destruct G as [[G1 G2]|(o & b & c' & a & n' & G1 & -> & G3 & G4 & G5 & G6)].
        -- destruct (Z.ltb_spec (Z.of_nat n) 0) as [?|_]; [lia|]. exists (p_out s), [], c, cs, n. split; [exact G1|]. split; [reflexivity|]. split; [exact R|]. split; [exact L|]. split; [intros ? ? ? []|].
           intros c' o' n' H F. specialize (G2 _ _ _ H F). lia.
        -- exists o, (c :: b), c', a, n'. split; [exact G1|]. split; [reflexivity|]. split; [exact G3|]. split; [lia|]. split; [|exact G6].
           intros c0 o0 n0 [<- |H] F; [|eauto]. destruct (fill_unique _ _ _ _ _ R F) as [_ X]. injection X as ->. lia.
    + destruct (IH _ _ _ M E K) as [IR G]. split; [constructor; [eexists _, _; exact R|exact IR]|].
      assert (X : forall o' n', filled c o' n' -> (Z.of_nat n' <= m)%Z).
      { intros o' n' F. destruct (fill_unique _ _ _ _ _ R F) as [_ X]. destruct (st_points (p_calls s)) as [[S1 S2]|(n & S1 & S2)]; [congruence|]. assert (n' = n) by congruence. lia. }
      destruct G as [[G1 G2]|(o & b & c' & a & n' & G1 & -> & G3 & G4 & G5 & G6)].
      * left. split; [exact G1|]. intros c' o' n' [<- |H] F; eauto.
      * right. exists o, (c :: b), c', a, n'. split; [exact G1|]. split; [reflexivity|]. split; [exact G3|]. split; [exact G4|]. split; [|exact G6].
        intros c0 o0 n0 [<- |H] F; [|eauto]. apply X in F. lia.
Qed.
Lemma run_some : forall cs, Forall readable cs -> exists F, forall f m r, F <= f -> (exists o, run ni f given cs m r = Done o) \/ run ni f given cs m r = No_candidate.
Proof.
  induction cs as [|c cs IH]; intros R.
  - exists 0. intros f m r _. cbn [run]. destruct (m <? 0)%Z; eauto.
  - apply Forall_cons_iff in R as [(o & s & R) R']. destruct (IH R') as (F & H). apply fill_parse in R as (h & P & _). apply parse_iff in P as (F' & H').
    exists (F + F'). intros f m r L. destruct (H' f ltac:(lia)) as (s' & E & _ & _). cbn [run]. rewrite E. destruct (m <? _)%Z; apply H; lia.
Qed.
Lemma split_compare {A} (b : list A) : forall c a b' c' a', b ++ c :: a = b' ++ c' :: a' -> (b = b' /\ c = c' /\ a = a') \/ (In c b' /\ In c' a) \/ (In c' b /\ In c a').
Proof.
  induction b as [|x b IH]; intros c a [|x' b'] c' a' E; cbn [app] in E; injection E as -> E.
  - subst. auto.
  - right. left. subst a. split; [now left|]. apply in_app_iff. right. now left.
  - right. right. subst a'. split; [now left|]. apply in_app_iff. right. now left.
  - destruct (IH _ _ _ _ _ E) as [(-> & -> & ->)|[[X Y]|[X Y]]]; [auto|right; left|right; right]; split; auto; now right.
Qed.
Lemma best_unique cs o o' : best ni ms cs o -> best ni ms cs o' -> o = o'.
Proof.
  intros (b & c & a & n & -> & F & B & A) (b' & c' & a' & n' & E & F' & B' & A'). destruct (split_compare _ _ _ _ _ _ E) as [(-> & -> & ->)|[[X Y]|[X Y]]].
  - apply (fill_unique _ _ _ _ _ F F').
  - exfalso. specialize (B' _ _ _ X F). specialize (A _ _ _ Y F'). lia.
  - exfalso. specialize (B _ _ _ X F'). specialize (A' _ _ _ Y F). lia.
Qed.
Lemma good_start cs out : good cs (-1) [] out -> (out = No_candidate /\ forall c o n, In c cs -> ~ filled c o n) \/ exists o, out = Done o /\ best ni ms cs o.
Proof.
  intros [[G1 G2]|(o & b & c & a & n & G1 & -> & G3 & G4 & G5 & G6)].
  - left. split; [exact G1|]. intros c o n H F. specialize (G2 _ _ _ H F). lia.
  - right. exists o. split; [exact G1|]. exists b, c, a, n. auto.
Qed.
Lemma best_filled cs o : best ni ms cs o -> exists c n, In c cs /\ filled c o n.
Proof. intros (b & c & a & n & -> & F & _). exists c, n. split; [apply in_app_iff; right; now left|exact F]. Qed.
(** with any number of steps large enough *)
Lemma run_iff cs (K : nat -> Prop) : (exists F0, forall f, F0 <= f -> K f) ->
  (forall o, (exists f, K f /\ run ni f given cs (-1)%Z [] = Done o) <-> Forall readable cs /\ best ni ms cs o) /\
  ((exists f, K f /\ run ni f given cs (-1)%Z [] = No_candidate) <-> Forall readable cs /\ forall c o n, In c cs -> ~ filled c o n).
Proof.
  intros (F0 & HK). split; [intros o|]; split.
  - intros (f & _ & E). destruct (run_good f cs (-1)%Z [] _ ltac:(lia) E ltac:(eauto)) as [R G]. split; [exact R|]. apply good_start in G as [[X _]|(o' & X & B)]; congruence.
  - intros [R B]. destruct (run_some cs R) as (F & H). exists (F0 + F). split; [apply HK; lia|]. destruct (run_good (F0 + F) cs (-1)%Z [] _ ltac:(lia) eq_refl (H (F0 + F) (-1)%Z [] ltac:(lia))) as [_ G].
    apply good_start in G as [[X Y]|(o' & X & B')]; [|rewrite X; f_equal; eapply best_unique; eauto]. exfalso. destruct (best_filled _ _ B) as (c & n & I1 & I2). exact (Y _ _ _ I1 I2).
  - intros (f & _ & E). destruct (run_good f cs (-1)%Z [] _ ltac:(lia) E ltac:(eauto)) as [R G]. split; [exact R|]. apply good_start in G as [[_ X]|(o' & X & B)]; [exact X|congruence].
  - intros [R N]. destruct (run_some cs R) as (F & H). exists (F0 + F). split; [apply HK; lia|]. destruct (run_good (F0 + F) cs (-1)%Z [] _ ltac:(lia) eq_refl (H (F0 + F) (-1)%Z [] ltac:(lia))) as [_ G].
    apply good_start in G as [[X _]|(o' & X & B')]; [exact X|]. exfalso. destruct (best_filled _ _ B') as (c & n & I1 & I2). exact (N _ _ _ I1 I2).
Qed.
End Run.

(** *** the markers and the id *)
Lemma marker_looks h k : marker_answer h k = Echo \/ marker_answer h k = Text [].
Proof. unfold marker_answer. destruct (range_equal _ _); auto. Qed.
Lemma harvest_looks h k : harvest_answer h k = Echo \/ harvest_answer h k = Text []. Proof. now right. Qed.
Lemma look ni cb x is : (forall h k, cb h k = Echo \/ cb h k = Text []) -> content_of x is -> exists o d, Parsed ni handled cb [] x o d /\ Forall2 call_of (flat_map seen is) d.
Proof.
  intros C (rest & -> & O & St). destruct (render_any ni cb C is []) as (o & h & R). destruct (proj1 (looking ni cb C) _ _ _ _ R) as (d & E & F). cbn [app] in E. subst h.
  exists o, d. split; [now constructor|exact F].
Qed.
Lemma look_back ni cb x f s : (forall h k, cb h k = Echo \/ cb h k = Text []) -> parse_content ni handled cb f x fresh = Ok tt s -> forall is, content_of x is -> Forall2 call_of (flat_map seen is) (p_calls s).
Proof.
  intros C E is K. destruct (look ni cb x is C K) as (o & d & P & F). apply parse_one in E. destruct (parse_unique _ _ _ _ _ _ _ _ P E) as [_ <-]. exact F.
Qed.
Lemma harvested_ok ni xstr is : content_of xstr is -> (forall f id, harvested ni f xstr = inl id -> id = last_id is) /\ exists F, forall f, F <= f -> harvested ni f xstr = inl (last_id is).
Proof.
  intros K. assert (G : forall d, Forall2 call_of (flat_map seen is) d -> fold_left harvest d [] = last_id is).
  { intros d Fd. rewrite (id_of_calls _ _ Fd). rewrite (seen_outermost XSTR is eq_refl). unfold last_id. change (word "xstr") with XSTR. destruct (filter (named XSTR) (flat_map outermost is)); reflexivity. }
  split.
  - intros f id. unfold harvested. destruct (parse_content _ _ _ _ _ _) as [[] s| | |] eqn:E; try discriminate. intros X. injection X as <-. apply G. exact (look_back ni _ xstr f s harvest_looks E is K).
  - destruct (look ni harvest_answer xstr is harvest_looks K) as (o & d & P & Fd). apply parse_iff in P as (F & H). exists F. intros f L. destruct (H f L) as (s & E & _ & E'). unfold harvested. rewrite E, E', (G d Fd). reflexivity.
Qed.
Lemma markers_of_look is d : Forall2 call_of (flat_map seen is) d -> denoting (markers_in is) (flat_map marker_of d).
Proof. intros F. apply markers_of_calls in F. rewrite (seen_outermost MARKER is eq_refl) in F. exact F. Qed.
Lemma denoting_unique ms g g' : denoting ms g -> denoting ms g' -> g = g'.
Proof.
  intros H. revert g'. induction H as [|[a v] [l w] ms g [A B] H IH]; intros g' H'; inversion H' as [|? [l' w'] ? g2 [A' B'] H2]; subst; [reflexivity|]. cbn in *. subst. f_equal; [|auto]. f_equal. eapply denotes_unique; eauto.
Qed.
Lemma add_markers_ok ni : forall texts iss, Forall2 content_of texts iss -> forall ms0 g0, denoting ms0 g0 ->
  exists g, denoting (ms0 ++ flat_map markers_in iss) g /\ (forall f g', add_markers ni f g0 texts = inl g' -> g' = g) /\ exists F, forall f, F <= f -> add_markers ni f g0 texts = inl g.
Proof.
  induction 1 as [|x is texts iss K H IH]; intros ms0 g0 D0.
  - exists g0. cbn [flat_map]. rewrite app_nil_r. split; [exact D0|]. split; [|exists 0; reflexivity]. intros f g' E. cbn in E. congruence.
  - destruct (look ni marker_answer x is marker_looks K) as (o & d & P & Fd). assert (D1 : denoting (ms0 ++ markers_in is) (g0 ++ flat_map marker_of d)) by (apply Forall2_app; [exact D0|exact (markers_of_look is d Fd)]).
    destruct (IH _ _ D1) as (g & D2 & U & F2 & H2). exists g. cbn [flat_map]. rewrite app_assoc. split; [exact D2|]. split.
    + intros f g' E. cbn [add_markers] in E. unfold add_marker in E. destruct (parse_content _ _ _ _ _ _) as [[] s| | |] eqn:Q; try discriminate. apply parse_one in Q. destruct (parse_unique _ _ _ _ _ _ _ _ P Q) as [_ X]. rewrite <- X in E. eauto.
    + apply parse_iff in P as (F1 & H1). exists (F1 + F2). intros f L. cbn [add_markers]. unfold add_marker. destruct (H1 f ltac:(lia)) as (s & E & _ & E'). rewrite E, E'. apply H2. lia.
Qed.
