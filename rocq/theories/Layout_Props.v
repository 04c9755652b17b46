(** Properties C107-C110: static_table, the parameters of a layout and the
    variables it reserves. *)
From Coq Require Import List ZArith QArith String Ascii Bool Lia Permutation.
From Verif Require Import Prelude Search_Model Search_Props Layout_Model.
Import List ListNotations.
Local Open Scope nat_scope.
Ltac Zify.zify_post_hook ::= idtac.

(** * Specification *)
(** [t] is the table [declared] after sort(): the same entries, no key less than an earlier one. *)
Definition sorted_table {K V} (lt : K -> K -> bool) (declared t : list (K * V)) : Prop :=
  Permutation declared t /\ Sorted lt fst t.
(** == of keys is what < cannot tell apart. *)
Definition agrees {K} (lt eqb : K -> K -> bool) : Prop :=
  forall a b, eqb a b = true <-> lt a b = false /\ lt b a = false.

(** Conversion of a number to an int: towards zero, and only in the range of int. *)
Definition truncates (q : Q) (n : Z) : Prop :=
  ((0 <= inject_Z n /\ inject_Z n <= q /\ q < inject_Z (n + 1)) \/
   (inject_Z n <= 0 /\ q <= inject_Z n /\ inject_Z (n - 1) < q))%Q.
Definition fits (q : Q) (n : Z) : Prop := truncates q n /\ (- 2 ^ 31 <= n < 2 ^ 31)%Z.
Definition is_int (v : lval) (n : Z) : Prop := exists q, v = LNum q /\ fits q n.

(** The names a layout description may use for an alignment and for a placement. *)
Inductive names_alignment : string -> alignment -> Prop :=
  | N_left : names_alignment "align_left" align_forward
  | N_right : names_alignment "align_right" align_reverse
  | N_top : names_alignment "align_top" align_forward
  | N_bottom : names_alignment "align_bottom" align_reverse
  | N_center : names_alignment "align_center" align_center
  | N_proportional : names_alignment "align_proportional" align_proportional
  | N_fill : names_alignment "align_fill" align_forward_fill.
Inductive names_placement : string -> placement -> Prop :=
  | N_row : names_placement "place_row" place_row
  | N_column : names_placement "place_column" place_column
  | N_overlay : names_placement "place_overlay" place_overlay.

Definition given (d : params) (k : string) : Prop := d k <> None.
(** The array parameter [k] contains the name [s]. *)
Definition lists (d : params) (k s : string) : Prop := exists l, d k = Some (LArr l) /\ In (LName s) l.
(** An attribute that parameter [k] chooses by name. *)
Definition chosen {V} (names : string -> V -> Prop) (d : params) (k : string) (old new : V) : Prop :=
  (forall s x, d k = Some (LName s) -> names s x -> new = x) /\
  (forall s, d k = Some (LName s) -> (forall x, ~ names s x) -> new = old) /\
  (d k = None -> new = old).

(** What a successful call does to the attributes: [a] before, [b] after. *)
Record effect (a : attrs) (d : params) (b : attrs) : Prop := {
  E_indent : (forall v n, d "indent"%string = Some v -> is_int v n -> l_indent b = n);
  E_indent_none : (forall v, d "indent"%string = Some v -> ~ (exists q, v = LNum q) -> l_indent b = l_indent a);
  E_indent_absent : d "indent"%string = None -> l_indent b = l_indent a;
  E_horizontal : chosen names_alignment d "horizontal" (l_alignment (l_horz a)) (l_alignment (l_horz b));
  E_vertical : chosen names_alignment d "vertical" (l_alignment (l_vert a)) (l_alignment (l_vert b));
  E_child_horizontal : chosen names_alignment d "child_horizontal" (l_child (l_horz a)) (l_child (l_horz b));
  E_child_vertical : chosen names_alignment d "child_vertical" (l_child (l_vert a)) (l_child (l_vert b));
  E_placement : chosen names_placement d "placement" (l_placement a) (l_placement b);
  E_balance_v : given d "guide_balance" -> (l_balance (l_vert b) = true <-> lists d "guide_balance" "guide_baseline");
  E_balance_h : given d "guide_balance" -> (l_balance (l_horz b) = true <-> lists d "guide_balance" "guide_label");
  E_balance_absent : ~ given d "guide_balance" ->
    l_balance (l_vert b) = l_balance (l_vert a) /\ l_balance (l_horz b) = l_balance (l_horz a);
  E_suppress_h : l_suppress (l_horz b) = true <->
    lists d "guide_mask" "guide_label" \/ lists d "guide_balance" "guide_label" \/
    (~ given d "guide_mask" /\ l_suppress (l_horz a) = true);
  (** a row asked for without a guide mask lets the baselines out *)
  E_suppress_v : l_suppress (l_vert b) = true <->
    (lists d "guide_mask" "guide_baseline" \/ lists d "guide_balance" "guide_baseline" \/
     (~ given d "guide_mask" /\ l_suppress (l_vert a) = true)) /\
    ~ (given d "placement" /\ l_placement b = place_row /\ ~ given d "guide_mask");
  E_spacing_array : forall l, d "spacing"%string = Some (LArr l) ->
    exists ns, Forall2 is_int l ns /\ l_spacing b = hd 0%Z (l_spacing a) :: ns;
  E_spacing_number : forall v n, d "spacing"%string = Some v -> is_int v n ->
    exists x y r, l_spacing a = x :: y :: r /\ l_spacing b = x :: n :: r;
  E_spacing_other : forall v, d "spacing"%string = Some v ->
    ~ (exists q, v = LNum q) -> ~ (exists l, v = LArr l) -> l_spacing b = l_spacing a;
  E_spacing_absent : d "spacing"%string = None -> l_spacing b = l_spacing a;
  E_margin_array : forall t l bo r rest, d "margin"%string = Some (LArr (t :: l :: bo :: r :: rest)) ->
    is_int t (fst (l_margin (l_vert b))) /\ is_int l (fst (l_margin (l_horz b))) /\
    is_int bo (snd (l_margin (l_vert b))) /\ is_int r (snd (l_margin (l_horz b)));
  E_margin_number : forall v n, d "margin"%string = Some v -> is_int v n ->
    l_margin (l_vert b) = (n, n) /\ l_margin (l_horz b) = (n, n);
  E_margin_absent : d "margin"%string = None ->
    l_margin (l_vert b) = l_margin (l_vert a) /\ l_margin (l_horz b) = l_margin (l_horz a) }.

(** Parameters of the documented types, whose numbers are ints. *)
Definition int_if_number (v : lval) : Prop := forall q, v = LNum q -> exists n, fits q n.
Definition an_int (v : lval) : Prop := exists n, is_int v n.
Definition a_name (v : lval) : Prop := exists s, v = LName s.
Record well_formed (a : attrs) (d : params) : Prop := {
  W_indent : forall v, d "indent"%string = Some v -> int_if_number v;
  W_name : forall k v, In k ["horizontal"; "vertical"; "child_horizontal"; "child_vertical"; "placement"]%string ->
    d k = Some v -> a_name v;
  W_guides : forall k v, In k ["guide_mask"; "guide_balance"]%string -> d k = Some v ->
    exists l, v = LArr l /\ Forall a_name l;
  W_spacing_array : forall l, d "spacing"%string = Some (LArr l) -> Forall an_int l;
  W_spacing_other : forall v, d "spacing"%string = Some v -> ~ (exists l, v = LArr l) ->
    int_if_number v /\ 2 <= length (l_spacing a);
  W_margin_array : forall l, d "margin"%string = Some (LArr l) -> 4 <= length l /\ Forall an_int (firstn 4 l);
  W_margin_other : forall v, d "margin"%string = Some v -> ~ (exists l, v = LArr l) -> an_int v }.

(** * static_table *)
Section TableProofs.
Context {K V : Type} (lt : K -> K -> bool) (eqb : K -> K -> bool) (declared t : list (K * V)) (key : K).
Hypothesis (HW : strict_weak_order lt) (Heq : agrees lt eqb) (HS : sorted_table lt declared t).

Lemma entry_cases :
  (exists k v, In (k, v) declared /\ eqb k key = true /\ table_entry lt eqb t key = Some (Some v)) \/
  ((forall k v, In (k, v) declared -> eqb k key = false) /\ table_entry lt eqb t key = Some None).
Proof.
  destruct HS as [HP HSd].
  destruct (C28_searches_of_sorted_ranges lt fst t key HW HSd)
    as (lo & hi & k1 & k2 & k3 & H1 & _ & _ & _ & _ & _ & Hb & Hall).
  unfold table_entry. rewrite H1. destruct (Nat.eqb_spec lo (length t)) as [E|E].
  - right. split; [|reflexivity]. intros k v Hin. destruct (eqb k key) eqn:Ek; [|reflexivity]. exfalso.
    apply Heq in Ek. apply (Permutation_in _ HP) in Hin. apply In_nth_error in Hin as (j & Hj).
    apply (proj2 (proj2 (Hall j _ Hj))) in Ek. lia.
  - destruct (nth_error t lo) as [[k v]|] eqn:Ev; [|apply nth_error_None in Ev; lia].
    destruct (Hall lo _ Ev) as (A1 & A2 & A3). cbn [fst] in *. destruct (eqb k key) eqn:Eq.
    + left. exists k, v. split; [|auto]. apply (Permutation_in _ (Permutation_sym HP)). eapply nth_error_In; eassumption.
    + right. split; [|reflexivity]. intros k' v' Hin. destruct (eqb k' key) eqn:Ek; [|reflexivity]. exfalso.
      apply Heq in Ek. apply (Permutation_in _ HP) in Hin. apply In_nth_error in Hin as (j & Hj).
      apply (proj2 (proj2 (Hall j _ Hj))) in Ek.
      assert (eqb k key = true) as Q; [|congruence]. apply Heq. apply A3. lia.
Qed.

(** C107: a look-up in a sorted table never reads outside it; it finds the value of an entry with that key if
    there is one, and otherwise reports the absence (an exception, or false with the result untouched). *)
Theorem C107_lookup (result : V) :
  (exists k v, In (k, v) declared /\ eqb k key = true /\
     table_get lt eqb t key = Found v /\ table_get_to lt eqb t key result = Some (true, v)) \/
  ((forall k v, In (k, v) declared -> eqb k key = false) /\
     table_get lt eqb t key = Logic_error /\ table_get_to lt eqb t key result = Some (false, result)).
Proof.
  unfold table_get, table_get_to. destruct entry_cases as [(k & v & Hin & Ek & ->)|[Hno ->]]; [left|right].
  - exists k, v. auto.
  - auto.
Qed.

(** With distinct keys it is the value declared for the key. *)
Theorem C107_lookup_distinct (result : V) k v :
  (forall i j x y, i <> j -> nth_error declared i = Some x -> nth_error declared j = Some y -> eqb (fst x) (fst y) = false) ->
  In (k, v) declared -> eqb k key = true ->
  table_get lt eqb t key = Found v /\ table_get_to lt eqb t key result = Some (true, v).
Proof.
  intros Hd Hin Hk. destruct (C107_lookup result) as [(k' & v' & Hin' & Hk' & -> & ->)|[Hno _]].
  - assert (v' = v) as ->; [|auto].
    apply In_nth_error in Hin as (i & Hi). apply In_nth_error in Hin' as (j & Hj).
    destruct (Nat.eq_dec i j) as [->|Hn]; [congruence|]. exfalso.
    pose proof (Hd i j _ _ Hn Hi Hj) as E. cbn in E.
    assert (eqb k k' = true); [|congruence]. apply Heq in Hk as [? ?], Hk' as [? ?]. apply Heq. destruct HW as (_ & _ & He).
    split; eapply He; eassumption.
  - rewrite (Hno k v Hin) in Hk. discriminate.
Qed.
End TableProofs.

(** * Names *)
Lemma name_lt_irrefl s : name_lt s s = false.
Proof. induction s as [|c s IH]; cbn; [reflexivity|]. rewrite Nat.ltb_irrefl. exact IH. Qed.
Lemma nat_of_ascii_inj a b : nat_of_ascii a = nat_of_ascii b -> a = b.
Proof. intros H. rewrite <- (ascii_nat_embedding a), <- (ascii_nat_embedding b). now rewrite H. Qed.
Lemma name_lt_trans : forall a b c, name_lt a b = true -> name_lt b c = true -> name_lt a c = true.
Proof.
  induction a as [|x a IH]; intros [|y b] [|z c]; cbn; try discriminate; auto.
  destruct (Nat.ltb_spec (nat_of_ascii x) (nat_of_ascii y)), (Nat.ltb_spec (nat_of_ascii y) (nat_of_ascii z)),
    (Nat.ltb_spec (nat_of_ascii x) (nat_of_ascii z)); try reflexivity; try lia;
  destruct (Nat.ltb_spec (nat_of_ascii y) (nat_of_ascii x)), (Nat.ltb_spec (nat_of_ascii z) (nat_of_ascii y)),
    (Nat.ltb_spec (nat_of_ascii z) (nat_of_ascii x)); try discriminate; try lia.
  apply IH.
Qed.
Lemma name_lt_total : forall a b, name_lt a b = false -> name_lt b a = false -> a = b.
Proof.
  induction a as [|x a IH]; intros [|y b]; cbn; try discriminate; auto.
  destruct (Nat.ltb_spec (nat_of_ascii x) (nat_of_ascii y)), (Nat.ltb_spec (nat_of_ascii y) (nat_of_ascii x));
    try discriminate; intros H1 H2. f_equal; [|auto]. apply nat_of_ascii_inj. lia.
Qed.
Lemma name_swo : strict_weak_order name_lt.
Proof.
  split; [exact name_lt_irrefl|]. split; [exact name_lt_trans|]. intros a b c H1 H2 H3 H4.
  rewrite (name_lt_total a b H1 H2), (name_lt_total b c H3 H4). apply name_lt_irrefl.
Qed.
Lemma name_agrees : agrees name_lt String.eqb.
Proof.
  intros a b. rewrite String.eqb_eq. split.
  - intros ->. rewrite name_lt_irrefl. auto.
  - intros [H1 H2]. now apply name_lt_total.
Qed.

(** Names compare like strcmp: a strict total order whose equivalence is equality. *)
Theorem C107_names_are_table_keys : strict_weak_order name_lt /\ agrees name_lt String.eqb.
Proof. split; [exact name_swo|exact name_agrees]. Qed.

(** * Conversion to int *)
Lemma truncates_iff q n : truncates q n <-> n = Z.quot (Qnum q) (Zpos (Qden q)).
Proof.
  destruct q as [p d]. unfold truncates, Qle, Qlt, inject_Z. cbn [Qnum Qden].
  rewrite ?Z.mul_1_r, ?Z.mul_1_l. set (D := Z.pos d). assert (HD : (0 < D)%Z) by reflexivity.
  pose proof (Z.quot_rem' p D) as E.
  assert (HR : (Z.abs (Z.rem p D) < D)%Z) by (pose proof (Z.rem_bound_abs p D ltac:(lia)); lia).
  assert (HSg : (0 <= p -> 0 <= Z.rem p D)%Z) by (intros; apply Z.rem_nonneg; lia).
  assert (HSg2 : (p <= 0 -> Z.rem p D <= 0)%Z) by (intros; apply Z.rem_nonpos; lia).
  split.
  - intros [(H1 & H2 & H3)|(H1 & H2 & H3)]; nia.
  - intros ->. set (Q := Z.quot p D) in *. set (R := Z.rem p D) in *. clearbody Q R D. clear - E HR HSg HSg2 HD.
    destruct (Z.le_gt_cases 0 p); [left|right].
    + specialize (HSg ltac:(lia)). assert (0 <= Q)%Z by nia. repeat split; nia.
    + specialize (HSg2 ltac:(lia)). assert (Q <= 0)%Z by nia. repeat split; nia.
Qed.
Lemma to_int_iff q n : to_int q = Some n <-> fits q n.
Proof.
  unfold to_int, fits. rewrite truncates_iff. set (m := Z.quot (Qnum q) (Zpos (Qden q))). cbv zeta.
  change (2 ^ 31)%Z with 2147483648%Z.
  destruct ((-2147483648 <=? m) && (m <=? 2147483647))%Z eqn:E.
  - apply andb_true_iff in E as [E1 E2]. rewrite Z.leb_le in E1, E2. split; [intros [= <-]|intros [-> _]]; [split; [reflexivity|lia]|reflexivity].
  - apply andb_false_iff in E. rewrite !Z.leb_gt in E. split; [discriminate|intros [-> H]; lia].
Qed.
Lemma fits_fun q n m : fits q n -> fits q m -> n = m.
Proof. rewrite <- !to_int_iff. congruence. Qed.
Lemma is_int_fun v n m : is_int v n -> is_int v m -> n = m.
Proof. intros (q & -> & H1) (q' & [= <-] & H2). eapply fits_fun; eassumption. Qed.
Lemma as_int_iff v n : as_int v = CastInt n <-> is_int v n.
Proof.
  unfold is_int. split.
  - destruct v; cbn; try discriminate. destruct (to_int q) eqn:E; [|discriminate]. intros [= <-]. exists q. split; [reflexivity|]. now apply to_int_iff.
  - intros (q & -> & H). apply to_int_iff in H. cbn. now rewrite H.
Qed.

Lemma names_alignment_iff s x : names_alignment s x <-> In (s, x) alignment_table.
Proof.
  split; [destruct 1; cbn; tauto|]. cbn. intros H.
  repeat (destruct H as [[= <- <-]|H]; [constructor|]). contradiction.
Qed.
Lemma names_placement_iff s x : names_placement s x <-> In (s, x) placement_table.
Proof.
  split; [destruct 1; cbn; tauto|]. cbn. intros H.
  repeat (destruct H as [[= <- <-]|H]; [constructor|]). contradiction.
Qed.
Lemma names_alignment_fun s x y : names_alignment s x -> names_alignment s y -> x = y.
Proof. destruct 1; intros H; inversion H; reflexivity. Qed.
Lemma names_placement_fun s x y : names_placement s x -> names_placement s y -> x = y.
Proof. destruct 1; intros H; inversion H; reflexivity. Qed.

(** The choice of an attribute by name. *)
Lemma choose {V} (names : string -> V -> Prop) (declared t : list (string * V)) :
  (forall s x, names s x <-> In (s, x) declared) -> (forall s x y, names s x -> names s y -> x = y) ->
  sorted_table name_lt declared t -> forall s old, exists b x, table_get_to name_lt String.eqb t s old = Some (b, x) /\
    ((forall y, names s y -> x = y) /\ ((forall y, ~ names s y) -> x = old)).
Proof.
  intros Hn Hf HS s old.
  destruct (C107_lookup name_lt String.eqb declared t s name_swo name_agrees HS old) as [(k & v & Hin & Hk & _ & E)|(Hno & _ & E)].
  - apply String.eqb_eq in Hk as ->. exists true, v. split; [exact E|]. apply Hn in Hin. split; [intros; eapply Hf; eassumption|].
    intros H. destruct (H v Hin).
  - exists false, old. split; [exact E|]. split; [|auto]. intros y Hy. apply Hn in Hy. apply Hno in Hy.
    rewrite String.eqb_refl in Hy. discriminate.
Qed.

Section Steps.
Variables (al : list (string * alignment)) (pl : list (string * placement)).
Hypotheses (HA : sorted_table name_lt alignment_table al) (HP : sorted_table name_lt placement_table pl).

Lemma look_step {V} names (declared t : list (string * V)) :
  (forall s x, names s x <-> In (s, x) declared) -> (forall s x y, names s x -> names s y -> x = y) ->
  sorted_table name_lt declared t -> forall (d : params) k v old set a, d k = Some v ->
  (forall b, look t v old set a = Done b -> a_name v /\ exists x, b = set x a /\ chosen names d k old x) /\
  (a_name v -> exists b, look t v old set a = Done b) /\ look t v old set a <> Undefined.
Proof.
  intros Hn Hf HS d k v old set a Hk. unfold look. destruct v as [q|s|l|n];
    try (split; [discriminate|split; [intros [s [=]]|discriminate]]).
  destruct (choose names declared t Hn Hf HS s old) as (b0 & x & E & C1 & C2). rewrite E.
  split; [|split; [eauto|discriminate]]. intros b [= <-]. split; [exists s; reflexivity|]. exists x. split; [reflexivity|].
  split; [|split].
  - intros s' y E' Hy. assert (s' = s) as -> by congruence. auto.
  - intros s' E' Hy. assert (s' = s) as -> by congruence. auto.
  - congruence.
Qed.
Lemma chosen_absent {V} (names : string -> V -> Prop) d k old : d k = None -> chosen names d k old old.
Proof. intros H. repeat split; intros; congruence. Qed.

(** A step that sets one attribute by name. *)
Lemma look_al d k a old set : 
  let step := match d k with Some v => look al v old set a | None => Done a end in
  (forall b, step = Done b -> (forall v, d k = Some v -> a_name v) /\
     exists x, chosen names_alignment d k old x /\ (b = set x a \/ (b = a /\ x = old))) /\
  ((forall v, d k = Some v -> a_name v) -> exists b, step = Done b) /\ step <> Undefined.
Proof.
  cbv zeta. destruct (d k) as [v|] eqn:E.
  - destruct (look_step names_alignment alignment_table al names_alignment_iff names_alignment_fun HA d k v old set a E) as (H1 & H2 & H3).
    split; [|split; auto]. intros b Hb. destruct (H1 b Hb) as (Hv & x & -> & Hc). split; [intros v' [= <-]; exact Hv|].
    exists x. auto.
  - split; [|split; [eauto|discriminate]]. intros b [= <-]. split; [discriminate|]. exists old. split; [now apply chosen_absent|auto].
Qed.

Lemma lists_some d k l s : d k = Some (LArr l) -> (lists d k s <-> In (LName s) l).
Proof. intros H. unfold lists. split; [intros (l' & E & Hin); congruence|eauto]. Qed.
Lemma lists_none d k s : d k = None -> ~ lists d k s.
Proof. intros H (l & E & _). congruence. Qed.

Definition memb (s : string) (l : list lval) : bool :=
  existsb (fun v => match v with LName x => String.eqb x s | _ => false end) l.
Lemma memb_iff s l : memb s l = true <-> In (LName s) l.
Proof.
  unfold memb. rewrite existsb_exists. split.
  - intros (v & Hin & Hv). destruct v; try discriminate. apply String.eqb_eq in Hv. now subst.
  - intros H. exists (LName s). split; [exact H|apply String.eqb_refl].
Qed.

Definition masked (v h : bool) (a : attrs) : attrs :=
  set_horz (set_suppress (l_suppress (l_horz a) || h) (l_horz a)) (set_vert (set_suppress (l_suppress (l_vert a) || v) (l_vert a)) a).
Lemma attrs_eta a : mk_attrs (l_indent a) (l_spacing a) (l_vert a) (l_horz a) (l_placement a) = a.
Proof. now destruct a. Qed.
Lemma mask_name_eq s a : mask_name s a = masked (String.eqb s "guide_baseline") (String.eqb s "guide_label") a.
Proof.
  destruct a as [i sp [va vs vb vm vc] [ha hs hb hm hc] p]. unfold mask_name, masked.
  destruct (String.eqb s "guide_baseline"), (String.eqb s "guide_label"); cbn; rewrite ?orb_true_r, ?orb_false_r; reflexivity.
Qed.
Lemma masked_masked v h v' h' a : masked v' h' (masked v h a) = masked (v || v') (h || h') a.
Proof. destruct a as [i sp [va vs vb vm vc] [ha hs hb hm hc] p]. unfold masked. cbn. now rewrite !orb_assoc. Qed.
Lemma each_mask l : forall a, 
  (forall b, each_name mask_name l a = Done b -> Forall a_name l /\ b = masked (memb "guide_baseline" l) (memb "guide_label" l) a) /\
  (Forall a_name l -> exists b, each_name mask_name l a = Done b) /\ each_name mask_name l a <> Undefined.
Proof.
  induction l as [|v l IH]; intros a; cbn [each_name].
  - split; [|split; [eauto|discriminate]]. intros b [= <-]. split; [constructor|]. cbn. unfold masked.
    destruct a as [i sp [va vs vb vm vc] [ha hs hb hm hc] p]. cbn. now rewrite !orb_false_r.
  - destruct v as [q|s|l'|n]; try (split; [discriminate|split; [intros H; apply Forall_cons_iff in H as [[s [=]] _]|discriminate]]).
    destruct (IH (mask_name s a)) as (H1 & H2 & H3). split; [|split; [|exact H3]].
    + intros b Hb. destruct (H1 b Hb) as [Hl ->]. split; [constructor; [exists s; reflexivity|exact Hl]|].
      rewrite mask_name_eq, masked_masked. reflexivity.
    + intros H. apply Forall_cons_iff in H as [_ H]. auto.
Qed.

Definition balanced (v h : bool) (a : attrs) : attrs :=
  set_horz (set_suppress (l_suppress (l_horz a) || h) (set_balance (l_balance (l_horz a) || h) (l_horz a)))
    (set_vert (set_suppress (l_suppress (l_vert a) || v) (set_balance (l_balance (l_vert a) || v) (l_vert a))) a).
Lemma balance_name_eq s a : balance_name s a = balanced (String.eqb s "guide_baseline") (String.eqb s "guide_label") a.
Proof.
  destruct a as [i sp [va vs vb vm vc] [ha hs hb hm hc] p]. unfold balance_name, balanced.
  destruct (String.eqb s "guide_baseline"), (String.eqb s "guide_label"); cbn; rewrite ?orb_true_r, ?orb_false_r; reflexivity.
Qed.
Lemma balanced_balanced v h v' h' a : balanced v' h' (balanced v h a) = balanced (v || v') (h || h') a.
Proof. destruct a as [i sp [va vs vb vm vc] [ha hs hb hm hc] p]. unfold balanced. cbn. now rewrite !orb_assoc. Qed.
Lemma each_balance l : forall a, 
  (forall b, each_name balance_name l a = Done b -> Forall a_name l /\ b = balanced (memb "guide_baseline" l) (memb "guide_label" l) a) /\
  (Forall a_name l -> exists b, each_name balance_name l a = Done b) /\ each_name balance_name l a <> Undefined.
Proof.
  induction l as [|v l IH]; intros a; cbn [each_name].
  - split; [|split; [eauto|discriminate]]. intros b [= <-]. split; [constructor|]. cbn. unfold balanced.
    destruct a as [i sp [va vs vb vm vc] [ha hs hb hm hc] p]. cbn. now rewrite !orb_false_r.
  - destruct v as [q|s|l'|n]; try (split; [discriminate|split; [intros H; apply Forall_cons_iff in H as [[s [=]] _]|discriminate]]).
    destruct (IH (balance_name s a)) as (H1 & H2 & H3). split; [|split; [|exact H3]].
    + intros b Hb. destruct (H1 b Hb) as [Hl ->]. split; [constructor; [exists s; reflexivity|exact Hl]|].
      rewrite balance_name_eq, balanced_balanced. reflexivity.
    + intros H. apply Forall_cons_iff in H as [_ H]. auto.
Qed.

(** The spacing loop. *)
Lemma put_spacing_ok : forall l pre suf a, l_spacing a = pre ++ suf -> length suf = length l ->
  (forall b, put_spacing l (length pre) a = Done b ->
     exists ns, Forall2 is_int l ns /\ b = set_spacing (pre ++ ns) a) /\
  (Forall an_int l -> exists b, put_spacing l (length pre) a = Done b) /\
  (Forall int_if_number l -> put_spacing l (length pre) a <> Undefined).
Proof.
  induction l as [|v l IH]; intros pre suf a Ha Hs; cbn [put_spacing].
  - destruct suf; [|discriminate]. split; [|split; [eauto|discriminate]]. intros b [= <-]. exists []. split; [constructor|].
    rewrite <- Ha. now destruct a.
  - destruct suf as [|y suf]; [discriminate|]. injection Hs as Hs.
    destruct (as_int v) as [n| |] eqn:En.
    + assert (Hlt : length pre <? length (l_spacing a) = true).
      { apply Nat.ltb_lt. rewrite Ha, app_length. cbn. lia. }
      rewrite Hlt. assert (Hu : upd (l_spacing a) (length pre) n = (pre ++ [n]) ++ suf).
      { rewrite Ha, <- app_assoc. cbn [app]. clear. induction pre; cbn [app length upd]; [reflexivity|]. now rewrite IHpre. }
      destruct (IH (pre ++ [n]) suf (set_spacing (upd (l_spacing a) (length pre) n) a)) as (H1 & H2 & H3);
        [exact Hu|exact Hs|]. rewrite app_length in H1, H2, H3. cbn [length] in H1, H2, H3. rewrite Nat.add_1_r in H1, H2, H3.
      split; [|split].
      * intros b Hb. destruct (H1 b Hb) as (ns & Hns & ->). exists (n :: ns). split; [constructor; [now apply as_int_iff|exact Hns]|].
        rewrite <- app_assoc. reflexivity.
      * intros H. apply Forall_cons_iff in H as [_ H]. auto.
      * intros H. apply Forall_cons_iff in H as [_ H]. auto.
    + split; [discriminate|split; [|discriminate]]. intros H. apply Forall_cons_iff in H as [(n & Hn) _].
      apply as_int_iff in Hn. congruence.
    + split; [discriminate|split].
      * intros H. apply Forall_cons_iff in H as [(n & Hn) _]. apply as_int_iff in Hn. congruence.
      * intros H. apply Forall_cons_iff in H as [H _]. exfalso. destruct v; try discriminate. cbn in En.
        destruct (H q eq_refl) as (n & Hn). apply to_int_iff in Hn. rewrite Hn in En. discriminate.
Qed.

(** Results of the ten steps, with what each needs and never being undefined. *)
Lemma indent_step d a :
  (forall b, apply_indent d a = Done b -> (forall v, d "indent"%string = Some v -> int_if_number v) /\
     exists n, b = set_indent n a /\
      (forall v n', d "indent"%string = Some v -> is_int v n' -> n = n') /\
      (forall v, d "indent"%string = Some v -> ~ (exists q, v = LNum q) -> n = l_indent a) /\
      (d "indent"%string = None -> n = l_indent a)) /\
  ((forall v, d "indent"%string = Some v -> int_if_number v) -> exists b, apply_indent d a = Done b).
Proof.
  unfold apply_indent. assert (Ha : a = set_indent (l_indent a) a) by now destruct a.
  destruct (d "indent"%string) as [v|] eqn:E.
  - destruct v as [q|s|l|n].
    1: { destruct (to_int q) as [n|] eqn:Eq.
      - split; [|eauto]. intros b [= <-]. split.
        + intros v [= <-] q' [= <-]. exists n. now apply to_int_iff.
        + exists n. split; [reflexivity|]. split; [|split; [|discriminate]].
          * intros v n' [= <-] (q' & [= <-] & Hf). apply to_int_iff in Hf. congruence.
          * intros v [= <-] H. destruct H. eauto.
      - split; [discriminate|]. intros H. destruct (H _ eq_refl q eq_refl) as (n & Hn). apply to_int_iff in Hn. congruence. }
    all: split; [|eauto]; intros b [= <-]; (split; [intros v [= <-] q' [=]|]);
      exists (l_indent a); (split; [exact Ha|]); (split; [|split; auto]); intros v n' [= <-] (q' & [=] & _).
  - split; [|eauto]. intros b [= <-]. split; [discriminate|]. exists (l_indent a). split; [exact Ha|]. split; [discriminate|auto].
Qed.

Lemma given_some d k v : d k = Some v -> given d k.
Proof. unfold given. congruence. Qed.
Lemma not_given d k : d k = None -> ~ given d k.
Proof. unfold given. congruence. Qed.
Definition both_suppress (v h : bool) (a : attrs) : attrs :=
  set_horz (set_suppress h (l_horz a)) (set_vert (set_suppress v (l_vert a)) a).
Definition both_balance (v h : bool) (a : attrs) : attrs :=
  set_horz (set_balance h (l_horz a)) (set_vert (set_balance v (l_vert a)) a).

Lemma mask_step d a :
  (forall b, apply_guide_mask d a = Done b ->
     (forall v, d "guide_mask"%string = Some v -> exists l, v = LArr l /\ Forall a_name l) /\
     exists v h, b = both_suppress v h a /\
      (v = true <-> lists d "guide_mask" "guide_baseline" \/ (~ given d "guide_mask" /\ l_suppress (l_vert a) = true)) /\
      (h = true <-> lists d "guide_mask" "guide_label" \/ (~ given d "guide_mask" /\ l_suppress (l_horz a) = true))) /\
  ((forall v, d "guide_mask"%string = Some v -> exists l, v = LArr l /\ Forall a_name l) ->
     exists b, apply_guide_mask d a = Done b) /\
  apply_guide_mask d a <> Undefined.
Proof.
  unfold apply_guide_mask. destruct (d "guide_mask"%string) as [v|] eqn:E.
  - cbv zeta. destruct v as [q|s|l|n];
      try (split; [discriminate|split; [intros H; destruct (H _ eq_refl) as (l & [=] & _)|discriminate]]).
    match goal with |- context [each_name mask_name l ?x] => set (a0 := x) end.
    destruct (each_mask l a0) as (H1 & H2 & H3). split; [|split; [|exact H3]].
    + intros b Hb. destruct (H1 b Hb) as [Hl ->]. split; [intros v [= <-]; eauto|].
      exists (memb "guide_baseline" l), (memb "guide_label" l). split; [reflexivity|].
      rewrite !memb_iff, !(lists_some d _ l _ E). pose proof (given_some d _ _ E). tauto.
    + intros H. apply H2. destruct (H _ eq_refl) as (l' & [= <-] & Hl). exact Hl.
  - split; [|split; [eauto|discriminate]]. intros b [= <-]. split; [discriminate|].
    exists (l_suppress (l_vert a)), (l_suppress (l_horz a)).
    split; [destruct a as [i sp [va vs vb vm vc] [ha hs hb hm hc] p]; reflexivity|].
    pose proof (not_given d _ E). pose proof (lists_none d _ "guide_baseline" E). pose proof (lists_none d _ "guide_label" E). tauto.
Qed.

Lemma balance_step d a :
  (forall b, apply_guide_balance d a = Done b ->
     (forall v, d "guide_balance"%string = Some v -> exists l, v = LArr l /\ Forall a_name l) /\
     exists v h v' h', b = both_balance v' h' (both_suppress v h a) /\
      (v = true <-> lists d "guide_balance" "guide_baseline" \/ l_suppress (l_vert a) = true) /\
      (h = true <-> lists d "guide_balance" "guide_label" \/ l_suppress (l_horz a) = true) /\
      (given d "guide_balance" -> (v' = true <-> lists d "guide_balance" "guide_baseline") /\
         (h' = true <-> lists d "guide_balance" "guide_label")) /\
      (~ given d "guide_balance" -> v' = l_balance (l_vert a) /\ h' = l_balance (l_horz a))) /\
  ((forall v, d "guide_balance"%string = Some v -> exists l, v = LArr l /\ Forall a_name l) ->
     exists b, apply_guide_balance d a = Done b) /\
  apply_guide_balance d a <> Undefined.
Proof.
  unfold apply_guide_balance. destruct (d "guide_balance"%string) as [v|] eqn:E.
  - cbv zeta. destruct v as [q|s|l|n];
      try (split; [discriminate|split; [intros H; destruct (H _ eq_refl) as (l & [=] & _)|discriminate]]).
    match goal with |- context [each_name balance_name l ?x] => set (a0 := x) end.
    destruct (each_balance l a0) as (H1 & H2 & H3). split; [|split; [|exact H3]].
    + intros b Hb. destruct (H1 b Hb) as [Hl ->]. split; [intros v [= <-]; eauto|].
      exists (l_suppress (l_vert a) || memb "guide_baseline" l), (l_suppress (l_horz a) || memb "guide_label" l),
        (memb "guide_baseline" l), (memb "guide_label" l).
      split; [reflexivity|].
      rewrite !orb_true_iff, !memb_iff, !(lists_some d _ l _ E). pose proof (given_some d _ _ E). tauto.
    + intros H. apply H2. destruct (H _ eq_refl) as (l' & [= <-] & Hl). exact Hl.
  - split; [|split; [eauto|discriminate]]. intros b [= <-]. split; [discriminate|].
    exists (l_suppress (l_vert a)), (l_suppress (l_horz a)), (l_balance (l_vert a)), (l_balance (l_horz a)).
    split; [destruct a as [i sp [va vs vb vm vc] [ha hs hb hm hc] p]; reflexivity|].
    pose proof (not_given d _ E). pose proof (lists_none d _ "guide_baseline" E). pose proof (lists_none d _ "guide_label" E). tauto.
Qed.

Lemma has_given d k : has d k = true <-> given d k.
Proof. unfold has, given. destruct (d k); split; congruence. Qed.

Lemma placement_step d a :
  (forall b, apply_placement pl d a = Done b -> (forall v, d "placement"%string = Some v -> a_name v) /\
     exists p v, b = set_vert (set_suppress v (l_vert a)) (set_placement p a) /\
       chosen names_placement d "placement" (l_placement a) p /\
       (v = true <-> l_suppress (l_vert a) = true /\
          ~ (given d "placement" /\ p = place_row /\ ~ given d "guide_mask"))) /\
  ((forall v, d "placement"%string = Some v -> a_name v) -> exists b, apply_placement pl d a = Done b) /\
  apply_placement pl d a <> Undefined.
Proof.
  unfold apply_placement. destruct (d "placement"%string) as [v|] eqn:E.
  - destruct (look_step names_placement placement_table pl names_placement_iff names_placement_fun HP d _ v
      (l_placement a) set_placement a E) as (H1 & H2 & H3).
    pose proof (given_some d _ _ E) as Hg. pose proof (has_given d "guide_mask") as Hm.
    destruct (look pl v (l_placement a) set_placement a) as [b0|b0|] eqn:EL; cbn [andthen].
    + destruct (H1 b0 eq_refl) as (Hv & p & -> & Hc). cbn [l_placement set_placement].
      split; [|split].
      * intros b Hb. split; [intros ? [= <-]; exact Hv|]. exists p.
        destruct p; try (exists (l_suppress (l_vert a)); injection Hb as <-;
          (split; [destruct a as [i sp [va vs vb vm vc] [ha hs hb hm hc] p]; reflexivity|]); (split; [exact Hc|]);
          split; [intros Q; split; [exact Q|intros (_ & [=] & _)]|tauto]).
        destruct (has d "guide_mask") eqn:EM; injection Hb as <-.
        -- exists (l_suppress (l_vert a)). split; [destruct a as [i sp [va vs vb vm vc] [ha hs hb hm hc] p]; reflexivity|].
           split; [exact Hc|]. tauto.
        -- exists false. split; [reflexivity|]. split; [exact Hc|]. split; [discriminate|]. intros [_ Q]. exfalso. apply Q.
           split; [exact Hg|]. split; [reflexivity|]. intros G. apply Hm in G. discriminate.
      * intros _. destruct p; try (eexists; reflexivity). destruct (has d "guide_mask"); eexists; reflexivity.
      * destruct p; try discriminate. destruct (has d "guide_mask"); discriminate.
    + split; [discriminate|split; [|discriminate]]. intros H. destruct (H2 (H _ eq_refl)) as (b & [=]).
    + congruence.
  - split; [|split; [eauto|discriminate]]. intros b [= <-]. split; [discriminate|]. exists (l_placement a), (l_suppress (l_vert a)).
    split; [destruct a as [i sp [va vs vb vm vc] [ha hs hb hm hc] p]; reflexivity|]. split; [now apply chosen_absent|].
    pose proof (not_given d _ E). tauto.
Qed.

Lemma resize_shape n l : resize (n + 1) l = hd 0%Z l :: resize n (tl l).
Proof. rewrite Nat.add_1_r. destruct l as [|x l]; cbn; [destruct n; cbn; rewrite ?Nat.sub_0_r; reflexivity|reflexivity]. Qed.
Lemma resize_length n l : length (resize n l) = n.
Proof. unfold resize. rewrite app_length, firstn_length, repeat_length. lia. Qed.

Lemma spacing_step d a :
  (forall b, apply_spacing d a = Done b ->
     ((forall l, d "spacing"%string = Some (LArr l) -> Forall an_int l) /\
      (forall v, d "spacing"%string = Some v -> ~ (exists l, v = LArr l) -> int_if_number v /\ 2 <= length (l_spacing a))) /\
     exists s, b = set_spacing s a /\
       (forall l, d "spacing"%string = Some (LArr l) -> exists ns, Forall2 is_int l ns /\ s = hd 0%Z (l_spacing a) :: ns) /\
       (forall v n, d "spacing"%string = Some v -> is_int v n -> exists x y r, l_spacing a = x :: y :: r /\ s = x :: n :: r) /\
       (forall v, d "spacing"%string = Some v -> ~ (exists q, v = LNum q) -> ~ (exists l, v = LArr l) -> s = l_spacing a) /\
       (d "spacing"%string = None -> s = l_spacing a)) /\
  (((forall l, d "spacing"%string = Some (LArr l) -> Forall an_int l) /\
    (forall v, d "spacing"%string = Some v -> ~ (exists l, v = LArr l) -> int_if_number v /\ 2 <= length (l_spacing a))) ->
   exists b, apply_spacing d a = Done b) /\
  ((forall l, d "spacing"%string = Some (LArr l) -> Forall int_if_number l) ->
   (forall v, d "spacing"%string = Some v -> ~ (exists l, v = LArr l) -> int_if_number v /\ 2 <= length (l_spacing a)) ->
   apply_spacing d a <> Undefined).
Proof.
  unfold apply_spacing. assert (Ha : a = set_spacing (l_spacing a) a) by now destruct a.
  destruct (d "spacing"%string) as [v|] eqn:E.
  - destruct v as [q|s|l|n].
    3: { set (a0 := set_spacing (resize (length l + 1) (l_spacing a)) a).
      assert (Hs : l_spacing a0 = [hd 0%Z (l_spacing a)] ++ resize (length l) (tl (l_spacing a))) by (cbn [l_spacing a0 set_spacing]; apply resize_shape).
      destruct (put_spacing_ok l [hd 0%Z (l_spacing a)] _ a0 Hs (resize_length _ _)) as (H1 & H2 & H3). cbn [length] in H1, H2, H3.
      split; [|split].
      - intros b Hb. destruct (H1 b Hb) as (ns & Hns & ->). split; [split|].
        + intros l' [= <-]. clear -Hns. induction Hns; constructor; [eexists; eassumption|assumption].
        + intros v [= <-] H. destruct H. eauto.
        + eexists. split; [reflexivity|]. split; [|split; [|split; [|discriminate]]].
          * intros l' [= <-]. exists ns. auto.
          * intros v n [= <-] (q & [=] & _).
          * intros v [= <-] _ H. destruct H. eauto.
      - intros [H _]. auto.
      - intros H _. auto. }
    all: assert (Hna : forall v' : lval, Some v' = d "spacing"%string -> ~ exists l, v' = LArr l) by (intros v' Hv' (l & ->); congruence).
    all: destruct (nth_error (l_spacing a) 1) as [old|] eqn:En; [|split; [discriminate|split];
       [intros [_ H]|intros _ H]; exfalso; destruct (H _ eq_refl (Hna _ (eq_sym E))) as [_ Hl]; apply nth_error_None in En; lia].
    all: assert (Hlen : 2 <= length (l_spacing a)) by (assert (Q : nth_error (l_spacing a) 1 <> None) by congruence; apply nth_error_Some in Q; lia).
    all: destruct (l_spacing a) as [|x [|y r]] eqn:Esp; [discriminate En|discriminate En|]; injection En as <-; cbn [upd].
    1: destruct (to_int q) as [n|] eqn:Eq.
    + split; [|split; [eauto|discriminate]]. intros b [= <-]. split; [split; [discriminate|]|].
      * intros v [= <-] _. split; [|exact Hlen]. intros q' [= <-]. exists n. now apply to_int_iff.
      * exists (x :: n :: r). split; [reflexivity|]. split; [discriminate|]. split; [|split; [|discriminate]].
        -- intros v n' [= <-] (q' & [= <-] & Hf). apply to_int_iff in Hf. assert (n' = n) as -> by congruence. eauto.
        -- intros v [= <-] H. destruct H. eauto.
    + split; [discriminate|split]; [intros [_ H]|intros _ H]; exfalso; destruct (H _ eq_refl (Hna _ (eq_sym E))) as [Hi _];
        destruct (Hi q eq_refl) as (n & Hn); apply to_int_iff in Hn; congruence.
    + split; [|split; [eauto|discriminate]]. intros b [= <-]. split; [split; [discriminate|]|].
      * intros v [= <-] _. split; [intros q' [=]|exact Hlen].
      * exists (x :: y :: r). split; [reflexivity|]. split; [discriminate|]. split; [|split; [reflexivity|discriminate]].
        intros v n' [= <-] (q' & [=] & _).
    + split; [|split; [eauto|discriminate]]. intros b [= <-]. split; [split; [discriminate|]|].
      * intros v [= <-] _. split; [intros q' [=]|exact Hlen].
      * exists (x :: y :: r). split; [reflexivity|]. split; [discriminate|]. split; [|split; [reflexivity|discriminate]].
        intros v n' [= <-] (q' & [=] & _).
  - split; [|split; [eauto|discriminate]]. intros b [= <-]. split; [split; discriminate|]. exists (l_spacing a).
    split; [exact Ha|]. repeat split; discriminate.
Qed.

Definition both_margin (v h : Z * Z) (a : attrs) : attrs :=
  set_horz (set_margin h (l_horz a)) (set_vert (set_margin v (l_vert a)) a).
Definition margins_ok (d : params) : Prop :=
  (forall l, d "margin"%string = Some (LArr l) -> 4 <= length l /\ Forall an_int (firstn 4 l)) /\
  (forall v, d "margin"%string = Some v -> ~ (exists l, v = LArr l) -> an_int v).

Lemma as_int_cases v : (exists n, as_int v = CastInt n /\ is_int v n) \/ (~ an_int v /\ forall n, as_int v <> CastInt n).
Proof.
  destruct (as_int v) as [n| |] eqn:E; [left; exists n; split; [reflexivity|now apply as_int_iff]|right|right];
    (split; [intros (n & H); apply as_int_iff in H; congruence|discriminate]).
Qed.
Lemma as_int_ub v : int_if_number v -> as_int v <> CastUB.
Proof.
  intros H. destruct v; cbn; try discriminate. destruct (H q eq_refl) as (n & Hn). apply to_int_iff in Hn. rewrite Hn. discriminate.
Qed.

Lemma margin_step d a :
  (forall b, apply_margin d a = Done b -> margins_ok d /\
     exists v h, b = both_margin v h a /\
       (forall t l bo r rest, d "margin"%string = Some (LArr (t :: l :: bo :: r :: rest)) ->
          is_int t (fst v) /\ is_int l (fst h) /\ is_int bo (snd v) /\ is_int r (snd h)) /\
       (forall x n, d "margin"%string = Some x -> is_int x n -> v = (n, n) /\ h = (n, n)) /\
       (d "margin"%string = None -> v = l_margin (l_vert a) /\ h = l_margin (l_horz a))) /\
  (margins_ok d -> exists b, apply_margin d a = Done b) /\
  ((forall l, d "margin"%string = Some (LArr l) -> 4 <= length l /\ Forall int_if_number (firstn 4 l)) ->
   (forall v, d "margin"%string = Some v -> int_if_number v) -> apply_margin d a <> Undefined).
Proof.
  unfold apply_margin, margins_ok. destruct (d "margin"%string) as [v|] eqn:E.
  - assert (Hnum : forall v0, ~ (exists l, v0 = LArr l) -> d "margin"%string = Some v0 ->
      let out := match as_int v0 with BadCast => Thrown a | CastUB => Undefined
                 | CastInt n => Done (horz_second n (vert_second n (horz_first n (vert_first n a)))) end in
      (forall b, out = Done b -> an_int v0 /\ exists n, is_int v0 n /\ b = both_margin (n, n) (n, n) a) /\
      (an_int v0 -> exists b, out = Done b) /\ (int_if_number v0 -> out <> Undefined)).
    { intros v0 Hv0 _ out. subst out. destruct (as_int v0) as [n| |] eqn:En.
      - apply as_int_iff in En. split; [|split; [eauto|discriminate]]. intros b [= <-]. split; [exists n; exact En|].
        exists n. split; [exact En|]. destruct a as [i sp [va vs vb vm vc] [ha hs hb hm hc] p]; reflexivity.
      - split; [discriminate|split; [|discriminate]]. intros (n & Hn). apply as_int_iff in Hn. congruence.
      - split; [discriminate|split]; [intros (n & Hn); apply as_int_iff in Hn; congruence|].
        intros H. destruct (as_int_ub v0 H En). }
    destruct v as [q|s|l|n].
    3: { clear Hnum. destruct l as [|m0 [|m1 [|m2 [|m3 rest]]]];
        try (split; [|split]; [|intros [H _]; destruct (H _ eq_refl) as [H' _]; cbn in H'; lia
                               |intros H _; destruct (H _ eq_refl) as [H' _]; cbn in H'; lia];
             intros b Hb; exfalso; unfold margin_at in Hb; cbn [nth_error andthen] in Hb;
             repeat (match type of Hb with context [as_int ?m] => destruct (as_int m) end;
                     cbn [andthen] in Hb); discriminate Hb).
      unfold margin_at. cbn [nth_error].
      destruct (as_int_cases m0) as [(n0 & E0 & I0)|[N0 E0]].
      2: { split; [intros b Hb; destruct (as_int m0); cbn [andthen] in Hb; try discriminate; destruct (E0 n eq_refl)|].
           split; [intros [H _]; destruct (H _ eq_refl) as [_ H']; cbn [firstn] in H'; inversion H'; contradiction|].
           intros H _. destruct (H _ eq_refl) as [_ H']. cbn [firstn] in H'. apply Forall_cons_iff in H' as [U0 _].
           pose proof (as_int_ub m0 U0). destruct (as_int m0); cbn [andthen]; [destruct (E0 n eq_refl)|discriminate|congruence]. }
      rewrite E0. cbn [andthen]. destruct (as_int_cases m1) as [(n1 & E1 & I1)|[N1 E1]].
      2: { split; [intros b Hb; destruct (as_int m1); cbn [andthen] in Hb; try discriminate; destruct (E1 n eq_refl)|].
           split; [intros [H _]; destruct (H _ eq_refl) as [_ H']; cbn [firstn] in H'; apply Forall_cons_iff in H' as [_ H'];
                   inversion H'; contradiction|].
           intros H _. destruct (H _ eq_refl) as [_ H']. cbn [firstn] in H'. apply Forall_cons_iff in H' as [_ H'].
           apply Forall_cons_iff in H' as [U0 _].
           pose proof (as_int_ub m1 U0). destruct (as_int m1); cbn [andthen]; [destruct (E1 n eq_refl)|discriminate|congruence]. }
      rewrite E1. cbn [andthen]. destruct (as_int_cases m2) as [(n2 & E2 & I2)|[N2 E2]].
      2: { split; [intros b Hb; destruct (as_int m2); cbn [andthen] in Hb; try discriminate; destruct (E2 n eq_refl)|].
           split; [intros [H _]; destruct (H _ eq_refl) as [_ H']; cbn [firstn] in H'; do 2 apply Forall_cons_iff in H' as [_ H'];
                   inversion H'; contradiction|].
           intros H _. destruct (H _ eq_refl) as [_ H']. cbn [firstn] in H'. do 2 apply Forall_cons_iff in H' as [_ H'].
           apply Forall_cons_iff in H' as [U0 _].
           pose proof (as_int_ub m2 U0). destruct (as_int m2); cbn [andthen]; [destruct (E2 n eq_refl)|discriminate|congruence]. }
      rewrite E2. cbn [andthen]. destruct (as_int_cases m3) as [(n3 & E3 & I3)|[N3 E3]].
      2: { split; [intros b Hb; destruct (as_int m3); try discriminate; destruct (E3 n eq_refl)|].
           split; [intros [H _]; destruct (H _ eq_refl) as [_ H']; cbn [firstn] in H'; do 3 apply Forall_cons_iff in H' as [_ H'];
                   inversion H'; contradiction|].
           intros H _. destruct (H _ eq_refl) as [_ H']. cbn [firstn] in H'. do 3 apply Forall_cons_iff in H' as [_ H'].
           apply Forall_cons_iff in H' as [U0 _].
           pose proof (as_int_ub m3 U0). destruct (as_int m3); [destruct (E3 n eq_refl)|discriminate|congruence]. }
      rewrite E3. split; [|split; [eauto|discriminate]]. intros b [= <-]. split.
      - split; [|intros v [= <-] H; destruct H; eauto]. intros l [= <-]. split; [cbn; lia|].
        cbn [firstn]. repeat constructor; eexists; eassumption.
      - exists (n0, n2), (n1, n3).
        split; [destruct a as [i sp [va vs vb vm vc] [ha hs hb hm hc] p]; destruct vm, hm; reflexivity|].
        split; [|split; [|discriminate]].
        + intros t l bo r rest' [= <- <- <- <- <-]. cbn [fst snd]. auto.
        + intros x n [= <-] (q & [=] & _). }
    all: match goal with |- context [as_int ?v0] =>
      destruct (Hnum v0 ltac:(intros (l' & [=])) E) as (H1 & H2 & H3); clear Hnum;
      (split; [|split; [intros [_ H]; apply H2; apply (H v0 eq_refl); intros (l' & [=])|intros _ H; apply H3; auto]]);
      intros b Hb; destruct (H1 b Hb) as (Hi & n' & Hn' & ->);
      (split; [split; [discriminate|intros v [= <-] _; exact Hi]|]); exists (n', n'), (n', n'); (split; [reflexivity|]);
      (split; [discriminate|]); (split; [|discriminate]); intros x m [= <-] Hm; now rewrite (is_int_fun _ _ _ Hm Hn') end.
  - split; [|split; [eauto|discriminate]]. intros b [= <-]. split; [split; discriminate|].
    exists (l_margin (l_vert a)), (l_margin (l_horz a)).
    split; [destruct a as [i sp [va vs vb vm vc] [ha hs hb hm hc] p]; reflexivity|]. repeat split; discriminate.
Qed.
End Steps.

Lemma andthen_done x f b : andthen x f = Done b -> exists a, x = Done a /\ f a = Done b.
Proof. destruct x; cbn; try discriminate. eauto. Qed.

Section Main.
Variables (al : list (string * alignment)) (pl : list (string * placement)).
Hypotheses (HA : sorted_table name_lt alignment_table al) (HP : sorted_table name_lt placement_table pl).

(** C108: a call that returns has had well-formed parameters and exactly the documented effect. *)
Theorem C108_effect a d b : apply_layout_parameters al pl a d = Done b -> well_formed a d /\ effect a d b.
Proof.
  unfold apply_layout_parameters. intros H.
  apply andthen_done in H as (a1 & S1 & H). apply andthen_done in H as (a2 & S2 & H). apply andthen_done in H as (a3 & S3 & H).
  apply andthen_done in H as (a4 & S4 & H). apply andthen_done in H as (a5 & S5 & H). apply andthen_done in H as (a6 & S6 & H).
  apply andthen_done in H as (a7 & S7 & H). apply andthen_done in H as (a8 & S8 & H). apply andthen_done in H as (a9 & S9 & S10).
  apply indent_step in S1 as (W1 & n & -> & I1 & I2 & I3).
  apply (look_al al HA d "horizontal") in S2 as (W2 & x2 & C2 & E2).
  apply (look_al al HA d "vertical") in S3 as (W3 & x3 & C3 & E3).
  apply mask_step in S4 as (W4 & v4 & h4 & E4 & M1 & M2).
  apply balance_step in S5 as (W5 & v5 & h5 & v5' & h5' & E5 & B1 & B2 & B3 & B4).
  apply (placement_step pl HP) in S6 as (W6 & p & v6 & E6 & C6 & P6).
  apply (look_al al HA d "child_horizontal") in S7 as (W7 & x7 & C7 & E7).
  apply (look_al al HA d "child_vertical") in S8 as (W8 & x8 & C8 & E8).
  apply spacing_step in S9 as (W9 & s & E9 & Q1 & Q2 & Q3 & Q4).
  apply margin_step in S10 as ([W10 W10'] & mv & mh & E10 & R1 & R2 & R3).
  assert (Hh : a2 = set_horz (set_l_alignment x2 (l_horz (set_indent n a))) (set_indent n a)).
  { destruct E2 as [->|[-> ->]]; [reflexivity|]. destruct a as [i sp [va vs vb vm vc] [ha hs hb hm hc] pa]; reflexivity. }
  subst a2. clear E2.
  match type of E3 with _ \/ (a3 = ?a2 /\ _) => assert (Hv : a3 = set_vert (set_l_alignment x3 (l_vert a2)) a2) end.
  { destruct E3 as [->|[-> ->]]; [reflexivity|]. destruct a as [i sp [va vs vb vm vc] [ha hs hb hm hc] pa]; reflexivity. }
  subst a3. clear E3. subst a4 a5 a6.
  match type of E7 with _ \/ (a7 = ?a6 /\ _) => assert (Hv : a7 = set_horz (set_child x7 (l_horz a6)) a6) end.
  { destruct E7 as [->|[-> ->]]; [reflexivity|]. destruct a as [i sp [va vs vb vm vc] [ha hs hb hm hc] pa]; reflexivity. }
  subst a7. clear E7.
  match type of E8 with _ \/ (a8 = ?a7 /\ _) => assert (Hv : a8 = set_vert (set_child x8 (l_vert a7)) a7) end.
  { destruct E8 as [->|[-> ->]]; [reflexivity|]. destruct a as [i sp [va vs vb vm vc] [ha hs hb hm hc] pa]; reflexivity. }
  subst a8. clear E8. subst a9 b.
  destruct a as [i sp [va vs vb vm vc] [ha hs hb hm hc] pa]. cbn in *.
  split.
  - destruct W9 as [W9 W9']. constructor; auto.
    + cbn. intros k v [<-|[<-|[<-|[<-|[<-|[]]]]]]; auto.
    + cbn. intros k v [<-|[<-|[]]]; auto.
  - constructor; cbn; auto.
    + intros Hg. apply (B3 Hg).
    + intros Hg. apply (B3 Hg).
    + tauto.
    + rewrite P6, B1, M1. tauto.
Qed.

(** The converse: well-formed parameters are accepted. *)
Theorem C108_accepted a d : well_formed a d -> exists b, apply_layout_parameters al pl a d = Done b.
Proof.
  intros [W1 W2 W3 W4 W5 W6 W7]. unfold apply_layout_parameters.
  destruct (proj2 (indent_step d a) W1) as (a1 & E1). rewrite E1. cbn [andthen].
  assert (L1 : l_spacing a1 = l_spacing a) by (apply indent_step in E1 as (_ & n & -> & _); reflexivity).
  destruct (proj1 (proj2 (look_al al HA d "horizontal" a1 (l_alignment (l_horz a1)) (fun x a => set_horz (set_l_alignment x (l_horz a)) a)))
    (fun v Hv => W2 "horizontal"%string v ltac:(cbn; tauto) Hv)) as (a2 & E2).
  unfold apply_horizontal. rewrite E2. cbn [andthen].
  assert (L2 : l_spacing a2 = l_spacing a) by (apply (look_al al HA d "horizontal") in E2 as (_ & x & _ & [->|[-> _]]); exact L1).
  destruct (proj1 (proj2 (look_al al HA d "vertical" a2 (l_alignment (l_vert a2)) (fun x a => set_vert (set_l_alignment x (l_vert a)) a)))
    (fun v Hv => W2 "vertical"%string v ltac:(cbn; tauto) Hv)) as (a3 & E3).
  unfold apply_vertical. rewrite E3. cbn [andthen].
  assert (L3 : l_spacing a3 = l_spacing a) by (apply (look_al al HA d "vertical") in E3 as (_ & x & _ & [->|[-> _]]); exact L2).
  destruct (proj1 (proj2 (mask_step d a3)) (fun v Hv => W3 "guide_mask"%string v ltac:(cbn; tauto) Hv)) as (a4 & E4). rewrite E4. cbn [andthen].
  assert (L4 : l_spacing a4 = l_spacing a) by (apply mask_step in E4 as (_ & v & h & -> & _); exact L3).
  destruct (proj1 (proj2 (balance_step d a4)) (fun v Hv => W3 "guide_balance"%string v ltac:(cbn; tauto) Hv)) as (a5 & E5). rewrite E5. cbn [andthen].
  assert (L5 : l_spacing a5 = l_spacing a) by (apply balance_step in E5 as (_ & v & h & v' & h' & -> & _); exact L4).
  destruct (proj1 (proj2 (placement_step pl HP d a5)) (fun v Hv => W2 "placement"%string v ltac:(cbn; tauto) Hv)) as (a6 & E6). rewrite E6. cbn [andthen].
  assert (L6 : l_spacing a6 = l_spacing a) by (apply (placement_step pl HP) in E6 as (_ & p & v & -> & _); exact L5).
  destruct (proj1 (proj2 (look_al al HA d "child_horizontal" a6 (l_child (l_horz a6)) (fun x a => set_horz (set_child x (l_horz a)) a)))
    (fun v Hv => W2 "child_horizontal"%string v ltac:(cbn; tauto) Hv)) as (a7 & E7).
  unfold apply_child_horizontal. rewrite E7. cbn [andthen].
  assert (L7 : l_spacing a7 = l_spacing a) by (apply (look_al al HA d "child_horizontal") in E7 as (_ & x & _ & [->|[-> _]]); exact L6).
  destruct (proj1 (proj2 (look_al al HA d "child_vertical" a7 (l_child (l_vert a7)) (fun x a => set_vert (set_child x (l_vert a)) a)))
    (fun v Hv => W2 "child_vertical"%string v ltac:(cbn; tauto) Hv)) as (a8 & E8).
  unfold apply_child_vertical. rewrite E8. cbn [andthen].
  assert (L8 : l_spacing a8 = l_spacing a) by (apply (look_al al HA d "child_vertical") in E8 as (_ & x & _ & [->|[-> _]]); exact L7).
  destruct (proj1 (proj2 (spacing_step d a8))) as (a9 & E9); [split; [exact W4|rewrite L8; exact W5]|]. rewrite E9. cbn [andthen].
  apply margin_step. split; assumption.
Qed.

Lemma chosen_fun {V} (names : string -> V -> Prop) d k old x y : (forall s, (exists z, names s z) \/ (forall z, ~ names s z)) ->
  (forall v, d k = Some v -> a_name v) -> chosen names d k old x -> chosen names d k old y -> x = y.
Proof.
  intros Hdec Hw (A1 & A2 & A3) (B1 & B2 & B3). destruct (d k) as [v|] eqn:E.
  - destruct (Hw v eq_refl) as (s & ->). destruct (Hdec s) as [(z & Hz)|Hn].
    + rewrite (A1 s z), (B1 s z); auto.
    + rewrite (A2 s), (B2 s); auto.
  - rewrite A3, B3; auto.
Qed.
Lemma chosen_again {V} (names : string -> V -> Prop) d k old x : (forall s y z, names s y -> names s z -> y = z) ->
  chosen names d k old x -> chosen names d k x x.
Proof. intros Hf (A1 & A2 & A3). split; [exact A1|]. auto. Qed.
Lemma names_alignment_dec s : (exists z, names_alignment s z) \/ (forall z, ~ names_alignment s z).
Proof.
  destruct (in_dec string_dec s (map fst alignment_table)) as [H|H].
  - left. apply in_map_iff in H as ([s' z] & <- & Hin). exists z. now apply names_alignment_iff.
  - right. intros z Hz. apply H. apply names_alignment_iff in Hz. apply in_map_iff. exists (s, z). auto.
Qed.
Lemma names_placement_dec s : (exists z, names_placement s z) \/ (forall z, ~ names_placement s z).
Proof.
  destruct (in_dec string_dec s (map fst placement_table)) as [H|H].
  - left. apply in_map_iff in H as ([s' z] & <- & Hin). exists z. now apply names_placement_iff.
  - right. intros z Hz. apply H. apply names_placement_iff in Hz. apply in_map_iff. exists (s, z). auto.
Qed.
Lemma bool_iff (x y : bool) : (x = true <-> y = true) -> x = y.
Proof. destruct x, y; intuition congruence. Qed.
Lemma ints_fun l ns ms : Forall2 is_int l ns -> Forall2 is_int l ms -> ns = ms.
Proof.
  intros H. revert ms. induction H; intros ms Hm; inversion Hm; subst; [reflexivity|].
  f_equal; [eapply is_int_fun; eassumption|auto].
Qed.
Lemma num_dec v : (exists q, v = LNum q) \/ (exists l, v = LArr l) \/ (~ (exists q, v = LNum q) /\ ~ (exists l, v = LArr l)).
Proof. destruct v; [left; eauto|right; right; split; intros (? & [=])|right; left; eauto|right; right; split; intros (? & [=])]. Qed.
Lemma given_dec d k : given d k \/ (d k = None /\ ~ given d k).
Proof. unfold given. destruct (d k); [left; congruence|right; split; congruence]. Qed.

(** The documented effect leaves nothing open: it determines every attribute. *)
Theorem C108_effect_determined a d b1 b2 : well_formed a d -> effect a d b1 -> effect a d b2 -> b1 = b2.
Proof.
  intros W F G.
  assert (Hn : forall k v, In k ["horizontal"; "vertical"; "child_horizontal"; "child_vertical"; "placement"]%string ->
    d k = Some v -> a_name v) by apply (W_name _ _ W).
  assert (HI : l_indent b1 = l_indent b2).
  { destruct (d "indent"%string) as [v|] eqn:E.
    - destruct (num_dec v) as [(q & ->)|Hv].
      + destruct (W_indent _ _ W _ E q eq_refl) as (n & Hf). assert (is_int (LNum q) n) by (exists q; auto).
        rewrite (E_indent _ _ _ F _ n E), (E_indent _ _ _ G _ n E); auto.
      + assert (~ exists q, v = LNum q) by (destruct Hv as [(l & ->)|[Hv _]]; [intros (? & [=])|exact Hv]).
        rewrite (E_indent_none _ _ _ F _ E), (E_indent_none _ _ _ G _ E); auto.
    - rewrite (E_indent_absent _ _ _ F E), (E_indent_absent _ _ _ G E). reflexivity. }
  assert (HSp : l_spacing b1 = l_spacing b2).
  { destruct (d "spacing"%string) as [v|] eqn:E.
    - destruct (num_dec v) as [(q & ->)|[(l & ->)|[N1 N2]]].
      + destruct (W_spacing_other _ _ W _ E) as [Hi _]; [intros (? & [=])|]. destruct (Hi q eq_refl) as (n & Hf).
        assert (Hn' : is_int (LNum q) n) by (exists q; auto).
        destruct (E_spacing_number _ _ _ F _ n E Hn') as (x & y & r & Q1 & ->).
        destruct (E_spacing_number _ _ _ G _ n E Hn') as (x' & y' & r' & Q2 & ->). congruence.
      + destruct (E_spacing_array _ _ _ F _ E) as (ns & A1 & ->). destruct (E_spacing_array _ _ _ G _ E) as (ms & A2 & ->).
        f_equal. eapply ints_fun; eassumption.
      + rewrite (E_spacing_other _ _ _ F _ E N1 N2), (E_spacing_other _ _ _ G _ E N1 N2). reflexivity.
    - rewrite (E_spacing_absent _ _ _ F E), (E_spacing_absent _ _ _ G E). reflexivity. }
  assert (HM : l_margin (l_vert b1) = l_margin (l_vert b2) /\ l_margin (l_horz b1) = l_margin (l_horz b2)).
  { destruct (d "margin"%string) as [v|] eqn:E.
    - destruct (num_dec v) as [(q & ->)|[(l & ->)|[N1 N2]]].
      + destruct (W_margin_other _ _ W _ E) as (n & Hn'); [intros (? & [=])|].
        destruct (E_margin_number _ _ _ F _ n E Hn') as [-> ->], (E_margin_number _ _ _ G _ n E Hn') as [-> ->]. auto.
      + destruct (W_margin_array _ _ W _ E) as [Hl _]. destruct l as [|t [|l [|bo [|r rest]]]]; cbn in Hl; try lia.
        destruct (E_margin_array _ _ _ F _ _ _ _ _ E) as (A1 & A2 & A3 & A4), (E_margin_array _ _ _ G _ _ _ _ _ E) as (B1 & B2 & B3 & B4).
        rewrite (surjective_pairing (l_margin (l_vert b1))), (surjective_pairing (l_margin (l_vert b2))),
          (surjective_pairing (l_margin (l_horz b1))), (surjective_pairing (l_margin (l_horz b2))).
        split; f_equal; eapply is_int_fun; eassumption.
      + destruct (W_margin_other _ _ W _ E N2) as (n & q & -> & _). destruct N1. eauto.
    - destruct (E_margin_absent _ _ _ F E) as [-> ->], (E_margin_absent _ _ _ G E) as [-> ->]. auto. }
  assert (HB : l_balance (l_vert b1) = l_balance (l_vert b2) /\ l_balance (l_horz b1) = l_balance (l_horz b2)).
  { destruct (given_dec d "guide_balance") as [Hg|[_ Hg]].
    - split; apply bool_iff; [rewrite (E_balance_v _ _ _ F Hg), (E_balance_v _ _ _ G Hg)|rewrite (E_balance_h _ _ _ F Hg), (E_balance_h _ _ _ G Hg)]; tauto.
    - destruct (E_balance_absent _ _ _ F Hg) as [-> ->], (E_balance_absent _ _ _ G Hg) as [-> ->]. auto. }
  assert (HPl : l_placement b1 = l_placement b2).
  { eapply (chosen_fun names_placement d "placement"); [apply names_placement_dec| |apply F|apply G]. intros v Hv. apply (Hn "placement"%string v); [cbn; tauto|exact Hv]. }
  assert (HSh : l_suppress (l_horz b1) = l_suppress (l_horz b2)) by (apply bool_iff; rewrite (E_suppress_h _ _ _ F), (E_suppress_h _ _ _ G); tauto).
  assert (HSv : l_suppress (l_vert b1) = l_suppress (l_vert b2)) by (apply bool_iff; rewrite (E_suppress_v _ _ _ F), (E_suppress_v _ _ _ G), HPl; tauto).
  assert (HC : forall k x y old, In k ["horizontal"; "vertical"; "child_horizontal"; "child_vertical"; "placement"]%string ->
    chosen names_alignment d k old x -> chosen names_alignment d k old y -> x = y).
  { intros k x y old Hk Hx Hy. eapply chosen_fun; [apply names_alignment_dec| |exact Hx|exact Hy]. intros v Hv. apply (Hn k v Hk Hv). }
  pose proof (HC "horizontal"%string _ _ _ ltac:(cbn; tauto) (E_horizontal _ _ _ F) (E_horizontal _ _ _ G)).
  pose proof (HC "vertical"%string _ _ _ ltac:(cbn; tauto) (E_vertical _ _ _ F) (E_vertical _ _ _ G)).
  pose proof (HC "child_horizontal"%string _ _ _ ltac:(cbn; tauto) (E_child_horizontal _ _ _ F) (E_child_horizontal _ _ _ G)).
  pose proof (HC "child_vertical"%string _ _ _ ltac:(cbn; tauto) (E_child_vertical _ _ _ F) (E_child_vertical _ _ _ G)).
  destruct b1 as [i1 sp1 [va1 vs1 vb1 vm1 vc1] [ha1 hs1 hb1 hm1 hc1] p1], b2 as [i2 sp2 [va2 vs2 vb2 vm2 vc2] [ha2 hs2 hb2 hm2 hc2] p2].
  cbn in *. destruct HM, HB. congruence.
Qed.

(** Applying the same parameters again changes nothing. *)
Theorem C108_idempotent a d b : apply_layout_parameters al pl a d = Done b -> apply_layout_parameters al pl b d = Done b.
Proof.
  intros H. destruct (C108_effect a d b H) as [W F].
  assert (W' : well_formed b d).
  { destruct W. constructor; auto. intros v Hv Hna. destruct (W_spacing_other0 v Hv Hna) as [A1 A2]. split; [exact A1|].
    destruct (num_dec v) as [(q & ->)|[(l & ->)|[N1 N2]]]; [|destruct Hna; eauto|].
    - destruct (A1 q eq_refl) as (n & Hf). destruct (E_spacing_number _ _ _ F _ n Hv) as (x & y & r & _ & ->); [exists q; auto|]. cbn; lia.
    - rewrite (E_spacing_other _ _ _ F _ Hv N1 N2). exact A2. }
  assert (F' : effect b d b).
  { assert (HC : forall k old x, chosen names_alignment d k old x -> chosen names_alignment d k x x)
      by (intros; eapply chosen_again; [apply names_alignment_fun|eassumption]).
    pose proof (E_spacing_number _ _ _ F) as SN. pose proof (E_spacing_array _ _ _ F) as SA.
    pose proof (E_suppress_v _ _ _ F) as SV. pose proof (E_suppress_h _ _ _ F) as SH.
    constructor; try (now apply F); eauto using (E_horizontal _ _ _ F), (E_vertical _ _ _ F), (E_child_horizontal _ _ _ F), (E_child_vertical _ _ _ F).
    - eapply chosen_again; [apply names_placement_fun|apply F].
    - tauto.
    - tauto.
    - intros l Hl. destruct (SA l Hl) as (ns & A1 & A2). exists ns. rewrite A2. auto.
    - intros v n Hv Hn. destruct (SN v n Hv Hn) as (x & y & r & _ & ->). eauto. }
  destruct (C108_accepted b d W') as (b' & Hb'). rewrite Hb'. f_equal.
  eapply C108_effect_determined; [exact W'| |exact F']. apply C108_effect. exact Hb'.
Qed.
End Main.

(** The tables as sort() leaves them. *)
Definition sorted_alignments : list (string * alignment) :=
  [("align_bottom", align_reverse); ("align_center", align_center); ("align_fill", align_forward_fill);
   ("align_left", align_forward); ("align_proportional", align_proportional); ("align_right", align_reverse);
   ("align_top", align_forward)]%string.
Definition sorted_placements : list (string * placement) :=
  [("place_column", place_column); ("place_overlay", place_overlay); ("place_row", place_row)]%string.
Definition sorted_reflected : list string :=
  ["align_bottom"; "align_center"; "align_fill"; "align_left"; "align_proportional"; "align_right"; "align_top";
   "place_column"; "place_overlay"; "place_row"]%string.

Fixpoint all_sorted {A} (c : A -> A -> bool) (l : list A) : bool :=
  match l with [] => true | x :: r => forallb (fun y => negb (c y x)) r && all_sorted c r end.
Lemma all_sorted_ok {A T} (c : T -> T -> bool) (p : A -> T) l :
  all_sorted (fun x y => c (p x) (p y)) l = true -> Sorted c p l.
Proof.
  induction l as [|x l IH]; intros H i j a b Hij Hi Hj; [now destruct i|]. cbn in H. apply andb_true_iff in H as [H1 H2].
  rewrite forallb_forall in H1. destruct i as [|i], j as [|j]; try lia; cbn in Hi, Hj.
  - injection Hi as <-. apply nth_error_In in Hj. apply H1 in Hj. now apply negb_true_iff.
  - apply (IH H2 i j); auto; lia.
Qed.
Ltac perm := 
  repeat match goal with |- Permutation (?x :: ?l) ?r =>
    let rec split_at pre r := match r with
      | x :: ?post => change (Permutation (x :: l) (rev pre ++ x :: post)); apply Permutation_cons_app; cbn [rev app]
      | ?y :: ?post => split_at (y :: pre) post end in
    let T := type of x in split_at (@nil T) r end; try apply perm_nil.
Lemma sorted_alignments_ok : sorted_table name_lt alignment_table sorted_alignments.
Proof. split; [unfold alignment_table, sorted_alignments; perm|apply all_sorted_ok; reflexivity]. Qed.
Lemma sorted_placements_ok : sorted_table name_lt placement_table sorted_placements.
Proof. split; [unfold placement_table, sorted_placements; perm|apply all_sorted_ok; reflexivity]. Qed.
Lemma sorted_reflected_ok : Permutation reflected sorted_reflected /\ Sorted name_lt (fun x => x) sorted_reflected.
Proof. split; [unfold reflected, sorted_reflected; perm|apply all_sorted_ok; reflexivity]. Qed.

Definition dict (l : list (string * lval)) : params := fun k =>
  match find (fun e => String.eqb (fst e) k) l with Some (_, v) => Some v | None => None end.

Example C107_nonvacuous :
  sorted_table name_lt alignment_table sorted_alignments /\
  table_get name_lt String.eqb sorted_alignments "align_fill"%string = Found align_forward_fill /\
  table_get name_lt String.eqb sorted_alignments "align_middle"%string = Logic_error.
Proof. split; [exact sorted_alignments_ok|]. split; reflexivity. Qed.

Example C108_nonvacuous :
  let d := dict [("indent", LNum (5 # 2)); ("horizontal", LName "align_fill"); ("placement", LName "place_row");
                 ("guide_balance", LArr [LName "guide_label"; LName "guide_baseline"]); ("guide_mask", LArr [LName "guide_baseline"]);
                 ("spacing", LArr [LNum 3; LNum 4; LNum 5]); ("margin", LArr [LNum 1; LNum 2; LNum 3; LNum (-7 # 2)])]%string in
  apply_layout_parameters sorted_alignments sorted_placements initial d =
    Done (mk_attrs 2 [0; 3; 4; 5]%Z (mk_lslice align_default true true (1, 3)%Z align_forward)
            (mk_lslice align_forward_fill true true (2, -3)%Z align_forward) place_row).
Proof. vm_compute. reflexivity. Qed.

(** * C109: malformed parameters *)
(** Numbers of ints, margins with four members, a spacing to replace: what keeps a call defined. *)
Definition in_bounds (a : attrs) (d : params) : Prop :=
  (forall k v, d k = Some v -> int_if_number v) /\
  (forall l, d "spacing"%string = Some (LArr l) -> Forall int_if_number l) /\
  (given d "spacing" -> 2 <= length (l_spacing a)) /\
  (forall l, d "margin"%string = Some (LArr l) -> 4 <= length l /\ Forall int_if_number (firstn 4 l)).

(** MISSING: calls that are not in bounds, refuted below. *)
Theorem C109_never_undefined_partial al pl a d :
  sorted_table name_lt alignment_table al -> sorted_table name_lt placement_table pl -> in_bounds a d ->
  (exists b, apply_layout_parameters al pl a d = Done b) \/ (exists b, apply_layout_parameters al pl a d = Thrown b).
Proof.
  intros HA HP (B1 & B2 & B3 & B4).
  assert (H : apply_layout_parameters al pl a d <> Undefined);
    [|destruct (apply_layout_parameters al pl a d); [eauto|eauto|congruence]].
  assert (step : forall x f (P : attrs -> Prop), x <> Undefined -> (forall b, x = Done b -> P b) ->
    (forall b, P b -> f b <> Undefined) -> andthen x f <> Undefined).
  { intros x f P H1 H2 H3. destruct x; cbn; [apply H3; auto|discriminate|congruence]. }
  set (P := fun b => length (l_spacing b) = length (l_spacing a)).
  unfold apply_layout_parameters. apply (step _ _ P).
  { destruct (proj2 (indent_step d a) (fun v Hv => B1 _ v Hv)) as (b & ->). discriminate. }
  { intros b Hb. apply indent_step in Hb as (_ & n & -> & _). reflexivity. }
  intros a1 P1. apply (step _ _ P).
  { apply (look_al al HA d "horizontal"). }
  { intros b Hb. apply (look_al al HA d "horizontal") in Hb as (_ & x & _ & [->|[-> _]]); exact P1. }
  clear P1 a1. intros a1 P1. apply (step _ _ P).
  { apply (look_al al HA d "vertical"). }
  { intros b Hb. apply (look_al al HA d "vertical") in Hb as (_ & x & _ & [->|[-> _]]); exact P1. }
  clear P1 a1. intros a1 P1. apply (step _ _ P).
  { apply mask_step. }
  { intros b Hb. apply mask_step in Hb as (_ & v & h & -> & _). exact P1. }
  clear P1 a1. intros a1 P1. apply (step _ _ P).
  { apply balance_step. }
  { intros b Hb. apply balance_step in Hb as (_ & v & h & v' & h' & -> & _). exact P1. }
  clear P1 a1. intros a1 P1. apply (step _ _ P).
  { apply (placement_step pl HP). }
  { intros b Hb. apply (placement_step pl HP) in Hb as (_ & p & v & -> & _). exact P1. }
  clear P1 a1. intros a1 P1. apply (step _ _ P).
  { apply (look_al al HA d "child_horizontal"). }
  { intros b Hb. apply (look_al al HA d "child_horizontal") in Hb as (_ & x & _ & [->|[-> _]]); exact P1. }
  clear P1 a1. intros a1 P1. apply (step _ _ P).
  { apply (look_al al HA d "child_vertical"). }
  { intros b Hb. apply (look_al al HA d "child_vertical") in Hb as (_ & x & _ & [->|[-> _]]); exact P1. }
  clear P1 a1. intros a1 P1. apply (step _ _ (fun _ => True)).
  { apply spacing_step; [exact B2|]. intros v Hv _. split; [eauto|]. unfold P in P1. rewrite P1. apply B3. eapply given_some; eassumption. }
  { auto. }
  intros a2 _. apply margin_step; eauto.
Qed.

(** The comment in the source says balanced guides must be suppressed. A successful call sees to that, unless it
    also asks for a row and gives no guide mask. *)
Theorem C109_balanced_guides_are_suppressed_partial al pl a d b :
  sorted_table name_lt alignment_table al -> sorted_table name_lt placement_table pl ->
  apply_layout_parameters al pl a d = Done b ->
  (lists d "guide_balance" "guide_label" -> l_balance (l_horz b) = true /\ l_suppress (l_horz b) = true) /\
  (lists d "guide_balance" "guide_baseline" -> ~ given d "placement" \/ given d "guide_mask" ->
     l_balance (l_vert b) = true /\ l_suppress (l_vert b) = true).
Proof.
  intros HA HP H. destruct (C108_effect al pl HA HP a d b H) as [_ F].
  pose proof (E_suppress_h _ _ _ F) as SH. pose proof (E_suppress_v _ _ _ F) as SV.
  split; [intros L|intros L Hor]; assert (G : given d "guide_balance") by (destruct L as (l & E & _); eapply given_some; exact E).
  - split; [apply (E_balance_h _ _ _ F G); exact L|tauto].
  - split; [apply (E_balance_v _ _ _ F G); exact L|tauto].
Qed.

(** Refuted: a row with a balanced baseline has the baseline both balanced and let out. *)
Theorem C109_row_unsuppresses_balanced_guide_refuted :
  exists b, apply_layout_parameters sorted_alignments sorted_placements initial
      (dict [("placement", LName "place_row"); ("guide_balance", LArr [LName "guide_baseline"])]%string) = Done b /\
    l_balance (l_vert b) = true /\ l_suppress (l_vert b) = false.
Proof. eexists. split; [vm_compute; reflexivity|]. auto. Qed.
(** Refuted: a margin with three members reads outside its array; a number no int holds is converted to int. *)
Theorem C109_short_margin_refuted :
  apply_layout_parameters sorted_alignments sorted_placements initial (dict [("margin", LArr [LNum 1; LNum 2; LNum 3])]%string) = Undefined /\
  apply_layout_parameters sorted_alignments sorted_placements initial (dict [("indent", LNum 4000000000)]%string) = Undefined.
Proof. split; vm_compute; reflexivity. Qed.
(** Refuted: after an empty spacing array a spacing number is written outside the vector. *)
Theorem C109_spacing_after_empty_array_refuted :
  exists b, apply_layout_parameters sorted_alignments sorted_placements initial (dict [("spacing", LArr [])]%string) = Done b /\
    l_spacing b = [0%Z] /\
    apply_layout_parameters sorted_alignments sorted_placements b (dict [("spacing", LNum 7)]%string) = Undefined.
Proof. eexists. split; [vm_compute; reflexivity|]. split; vm_compute; reflexivity. Qed.
(** Refuted: a parameter of the wrong type throws, and the attributes stay half changed. *)
Theorem C109_throw_leaves_half_refuted :
  exists b, apply_layout_parameters sorted_alignments sorted_placements initial
      (dict [("indent", LNum 9); ("guide_mask", LName "guide_label")]%string) = Thrown b /\
    l_indent b = 9%Z /\ b <> initial.
Proof. eexists. split; [vm_compute; reflexivity|]. repeat split. discriminate. Qed.

Example C109_nonvacuous : in_bounds initial (dict [("spacing", LNum 7); ("horizontal", LNum 3)]%string) /\
  exists b, apply_layout_parameters sorted_alignments sorted_placements initial (dict [("spacing", LNum 7); ("horizontal", LNum 3)]%string) = Thrown b.
Proof.
  split; [|eexists; vm_compute; reflexivity]. unfold dict. split; [|split; [|split]]; cbn [find fst].
  - intros k v. repeat (destruct (String.eqb _ k); [intros [= <-] q [= <-]; eexists; apply to_int_iff; reflexivity|]). discriminate.
  - intros l H. discriminate H.
  - cbn; lia.
  - intros l H. discriminate H.
Qed.

(** * C110: the names a layout reserves *)
(** Any sorted arrangement of the ten names: they stand for themselves, any other name is looked up in the sheet. *)
Theorem C110_layout_variables_partial {R} (t : list string) (of_name get : string -> R) name :
  Permutation reflected t -> Sorted name_lt (fun x => x) t ->
  ((exists x, names_alignment name x) \/ (exists p, names_placement name p) ->
     layout_variables (Some t) of_name get name = Some (of_name name)) /\
  ((forall x, ~ names_alignment name x) -> (forall p, ~ names_placement name p) ->
     layout_variables (Some t) of_name get name = Some (get name)).
Proof.
  intros HPm HS.
  assert (Hin : In name t <-> (exists x, names_alignment name x) \/ (exists p, names_placement name p)).
  { transitivity (In name reflected); [split; apply Permutation_in; [apply Permutation_sym|]; exact HPm|].
    change reflected with (map fst alignment_table ++ map fst placement_table). rewrite in_app_iff, !in_map_iff. split.
    - intros [([s x] & <- & Hi)|([s p] & <- & Hi)]; [left; exists x; now apply names_alignment_iff|right; exists p; now apply names_placement_iff].
    - intros [(x & Hx)|(p & Hp)]; [left; exists (name, x); rewrite <- names_alignment_iff; auto|right; exists (name, p); rewrite <- names_placement_iff; auto]. }
  destruct (C28_searches_of_sorted_ranges name_lt (fun x => x) t name name_swo HS)
    as (lo & hi & k1 & k2 & k3 & H1 & _ & _ & _ & _ & _ & Hb & Hall).
  assert (Hno : (forall x, ~ names_alignment name x) -> (forall p, ~ names_placement name p) -> ~ In name t)
    by (intros N1 N2 Hi; apply Hin in Hi as [(x & Hx)|(p & Hp)]; [eapply N1|eapply N2]; eassumption).
  rewrite <- Hin. unfold layout_variables. rewrite H1. destruct (Nat.eqb_spec lo (length t)) as [E|E].
  - split; [|auto]. intros Hi. exfalso. apply In_nth_error in Hi as (j & Hj).
    pose proof (proj2 (proj2 (proj2 (Hall j _ Hj))) (conj (name_lt_irrefl name) (name_lt_irrefl name))). lia.
  - destruct (nth_error t lo) as [x|] eqn:Ev; [|apply nth_error_None in Ev; lia].
    destruct (String.eqb_spec x name) as [->|Hx].
    + split; [auto|]. intros N1 N2. destruct (Hno N1 N2). eapply nth_error_In; eassumption.
    + split; [|auto]. intros Hi. exfalso. apply In_nth_error in Hi as (j & Hj).
      pose proof (proj2 (proj2 (proj2 (Hall j _ Hj))) (conj (name_lt_irrefl name) (name_lt_irrefl name))) as Hr.
      assert (Hl : lo <= lo < hi) by lia. apply (proj2 (proj2 (Hall lo x Ev))) in Hl as [Q1 Q2].
      apply Hx. now apply name_lt_total.
Qed.
(** Refuted: called before bind_layout or apply_layout_parameters ever ran, it dereferences a null pointer. *)
Theorem C110_before_initialization_refuted {R} (of_name get : string -> R) name :
  layout_variables None of_name get name = None.
Proof. reflexivity. Qed.
Example C110_nonvacuous : Permutation reflected sorted_reflected /\ Sorted name_lt (fun x => x) sorted_reflected /\
  layout_variables (Some sorted_reflected) (fun s => (true, s)) (fun s => (false, s)) "place_row"%string = Some (true, "place_row"%string) /\
  layout_variables (Some sorted_reflected) (fun s => (true, s)) (fun s => (false, s)) "place_leaf"%string = Some (false, "place_leaf"%string).
Proof. split; [apply sorted_reflected_ok|]. split; [apply sorted_reflected_ok|]. split; reflexivity. Qed.
