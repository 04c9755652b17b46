(** Properties C32 (rotate), C33 (reduce_balanced), C34 (gather), C43 (erase_if),
    C44 (copy_bounded). *)
From Verif Require Import Prelude Rearrange_Model.
Local Open Scope nat_scope.
Ltac Zify.zify_post_hook ::= idtac.

(** *** C32 *)
Lemma upd_app {A} (p q : list A) x y : upd (p ++ x :: q) (length p) y = p ++ y :: q.
Proof. induction p as [|a p IH]; cbn; [reflexivity|]. now rewrite IH. Qed.
Lemma upd_at {A} (p q l : list A) x y i : l = p ++ x :: q -> i = length p -> upd l i y = p ++ y :: q.
Proof. intros -> ->. apply upd_app. Qed.
Lemma nth_at {A} (p q l : list A) x i : l = p ++ x :: q -> i = length p -> nth_error l i = Some x.
Proof. intros -> ->. rewrite nth_error_app2, Nat.sub_diag by lia. reflexivity. Qed.

Lemma iter_swap_spec {A} (p q s : list A) x y i j : i = length p -> j = length p + 1 + length q ->
  iter_swap (p ++ x :: q ++ y :: s) i j = Some (p ++ y :: q ++ x :: s).
Proof.
  intros -> ->. unfold iter_swap. rewrite (nth_at p (q ++ y :: s) _ x) by reflexivity.
  rewrite (nth_at (p ++ x :: q) s _ y); [|now rewrite <- app_assoc|rewrite app_length; cbn; lia].
  rewrite upd_app. rewrite (upd_at (p ++ y :: q) s _ y x); [|now rewrite <- app_assoc|rewrite app_length; cbn; lia].
  now rewrite <- app_assoc.
Qed.

Lemma reverse_until_spec {A} (a1 : list A) : forall pre a2 b1 b2 post f m l fuel,
  length b2 = length a1 -> (a2 = [] \/ b1 = []) ->
  f = length pre -> m = f + length a1 + length a2 -> l = m + length b1 + length b2 -> length a1 <= fuel ->
  reverse_until_ fuel (pre ++ (a1 ++ a2) ++ (b1 ++ b2) ++ post) f m l =
  Some (pre ++ rev b2 ++ a2 ++ b1 ++ rev a1 ++ post, f + length a1, f + length a1 + length a2 + length b1).
Proof.
  induction a1 as [|x a1 IH]; intros pre a2 b1 b2 post f m l fuel Hlen Hor Hf Hm Hl Hfu; cbn [length] in *.
  - destruct b2; [|discriminate Hlen]. cbn [length] in *. rewrite app_nil_r. cbn [rev app].
    assert (negb (f =? m) && negb (m =? l) = false) as E.
    { destruct Hor as [-> | ->]; cbn [length] in *.
      - assert (f = m) as -> by lia. now rewrite Nat.eqb_refl.
      - assert (m = l) as -> by lia. rewrite Nat.eqb_refl. apply andb_false_r. }
    destruct fuel; cbn [reverse_until_]; rewrite E; (replace (f + 0 + length a2 + length b1) with l by lia);
      rewrite Nat.add_0_r; reflexivity.
  - destruct fuel as [|fuel]; [lia|].
    destruct (exists_last (l := b2)) as (b2' & y & ->); [intros ->; discriminate|].
    rewrite app_length in Hlen, Hl. cbn [length] in Hlen, Hl.
    cbn [reverse_until_]. destruct (Nat.eqb_spec f m); [lia|]. destruct (Nat.eqb_spec m l); [lia|]. cbn [negb andb].
    destruct (Nat.eqb_spec l 0); [lia|].
    replace (pre ++ ((x :: a1) ++ a2) ++ (b1 ++ b2' ++ [y]) ++ post)
      with (pre ++ x :: (a1 ++ a2 ++ b1 ++ b2') ++ y :: post) by (cbn [app]; rewrite <- !app_assoc; reflexivity).
    rewrite iter_swap_spec; [|lia|rewrite !app_length; lia].
    replace (pre ++ y :: (a1 ++ a2 ++ b1 ++ b2') ++ x :: post)
      with ((pre ++ [y]) ++ (a1 ++ a2) ++ (b1 ++ b2') ++ x :: post) by (rewrite <- !app_assoc; reflexivity).
    rewrite (IH (pre ++ [y]) a2 b1 b2' (x :: post)); [|lia|exact Hor|rewrite app_length; cbn; lia|lia|lia|lia].
    rewrite rev_app_distr. cbn [rev app]. rewrite <- !app_assoc. cbn [app].
    f_equal. f_equal; [f_equal|]; lia.
Qed.

Lemma slice_app {A} (p s q : list A) f l : f = length p -> l = f + length s ->
  firstn f (p ++ s ++ q) = p /\ firstn (l - f) (skipn f (p ++ s ++ q)) = s /\ skipn l (p ++ s ++ q) = q.
Proof.
  intros -> ->. split; [|split].
  - rewrite firstn_app, Nat.sub_diag, firstn_all. cbn. apply app_nil_r.
  - rewrite skipn_app, Nat.sub_diag, skipn_all. cbn. replace (length p + length s - length p) with (length s) by lia.
    rewrite firstn_app, Nat.sub_diag, firstn_all. cbn. apply app_nil_r.
  - rewrite skipn_app, skipn_all2 by lia. cbn. replace (length p + length s - length p) with (length s) by lia.
    rewrite skipn_app, Nat.sub_diag, skipn_all. reflexivity.
Qed.
Lemma std_reverse_spec {A} (p s q : list A) f l : f = length p -> l = f + length s ->
  std_reverse (p ++ s ++ q) f l = p ++ rev s ++ q.
Proof. intros Hf Hl. unfold std_reverse. destruct (slice_app p s q f l Hf Hl) as (-> & -> & ->). reflexivity. Qed.

(** The part of the range between f and l is a then b, with m between them. *)
Lemma split_lengths {A} (a b : list A) : exists a1 a2 b1 b2, a = a1 ++ a2 /\ b = b1 ++ b2 /\
  length b2 = length a1 /\ (a2 = [] \/ b1 = []) /\ length a1 = Nat.min (length a) (length b).
Proof.
  destruct (Nat.le_ge_cases (length a) (length b)) as [H|H].
  - exists a, [], (firstn (length b - length a) b), (skipn (length b - length a) b).
    rewrite app_nil_r, firstn_skipn, skipn_length. repeat split; auto; lia.
  - exists (firstn (length b) a), (skipn (length b) a), [], b.
    rewrite firstn_skipn, firstn_length. repeat split; auto; lia.
Qed.

(** rotate exchanges the two parts, keeps the order in each, touches nothing else, and returns m
    and m' = f + (l - m) in increasing order. *)
Theorem C32_rotate {A} (pre a b post : list A) :
  rotate (pre ++ a ++ b ++ post) (length pre) (length pre + length a) (length pre + length a + length b) =
  Some (pre ++ b ++ a ++ post,
        Nat.min (length pre + length a) (length pre + length b),
        Nat.max (length pre + length a) (length pre + length b)).
Proof.
  unfold rotate. rewrite (std_reverse_spec pre a (b ++ post)) by lia.
  replace (pre ++ rev a ++ b ++ post) with ((pre ++ rev a) ++ b ++ post) by (now rewrite <- app_assoc).
  rewrite (std_reverse_spec (pre ++ rev a) b post); [|rewrite app_length, rev_length; lia|lia].
  destruct (split_lengths (rev a) (rev b)) as (a1 & a2 & b1 & b2 & Ea & Eb & Hl & Hor & Hmin).
  assert (La : length a = length a1 + length a2) by (rewrite <- (rev_length a), Ea, app_length; lia).
  assert (Lb : length b = length b1 + length b2) by (rewrite <- (rev_length b), Eb, app_length; lia).
  rewrite !rev_length in Hmin.
  rewrite Ea, Eb, <- app_assoc. unfold reverse_until.
  rewrite (reverse_until_spec a1 pre a2 b1 b2 post); [|lia|exact Hor|lia|lia|lia|lia].
  replace (pre ++ rev b2 ++ a2 ++ b1 ++ rev a1 ++ post)
    with ((pre ++ rev b2) ++ (a2 ++ b1) ++ (rev a1 ++ post)) by (rewrite <- !app_assoc; reflexivity).
  rewrite (std_reverse_spec (pre ++ rev b2) (a2 ++ b1) (rev a1 ++ post));
    [|rewrite app_length, rev_length; lia|rewrite app_length; lia].
  rewrite rev_app_distr, <- !app_assoc.
  replace (rev a2 ++ rev a1 ++ post) with (a ++ post).
  2: { rewrite app_assoc, <- rev_app_distr, <- Ea, rev_involutive. reflexivity. }
  replace (pre ++ rev b2 ++ rev b1 ++ a ++ post) with (pre ++ b ++ a ++ post).
  2: { f_equal. rewrite !app_assoc. do 2 f_equal. rewrite <- rev_app_distr, <- Eb, rev_involutive. reflexivity. }
  f_equal. f_equal; [f_equal|].
  - lia.
  - destruct Hor as [-> | ->]; cbn [length] in *; lia.
Qed.

(** reverse_until(f, m, l) exchanges and reverses the k = min(m-f, l-m) outermost elements of the
    two parts and returns what is left in the middle. *)
Theorem C32_reverse_until {A} (pre a1 a2 b1 b2 post : list A) :
  length a1 = length b2 -> a2 = [] \/ b1 = [] ->
  let f := length pre in let m := f + length (a1 ++ a2) in let l := m + length (b1 ++ b2) in
  reverse_until (pre ++ (a1 ++ a2) ++ (b1 ++ b2) ++ post) f m l =
  Some (pre ++ rev b2 ++ (a2 ++ b1) ++ rev a1 ++ post, f + length a1, l - length b2).
Proof.
  intros Hl Hor. cbv zeta. unfold reverse_until. rewrite !app_length.
  rewrite (reverse_until_spec a1 pre a2 b1 b2 post); [|lia|exact Hor|lia|lia|lia|lia].
  rewrite <- app_assoc. f_equal. f_equal. lia.
Qed.

Example C32_nonvacuous : rotate [9;1;2;3;4;5;8] 1 3 6 = Some ([9;3;4;5;1;2;8], 3, 4).
Proof. reflexivity. Qed.

(** *** C33 *)
Section Reduce.
Context {T : Type} (eqb : T -> T -> bool) (op : T -> T -> T) (z : T).
Hypothesis eqb_spec : forall a b, eqb a b = true <-> a = b.
Lemma eqb_refl_ a : eqb a a = true.
Proof. now apply eqb_spec. Qed.

Section Monoid.
Hypothesis op_assoc : forall a b c, op a (op b c) = op (op a b) c.
Hypothesis z_left : forall a, op z a = a.
Hypothesis z_right : forall a, op a z = a.

(** value of a counter: higher digits hold earlier elements *)
Fixpoint value (v : list T) : T := match v with [] => z | x :: v => op (value v) x end.

Lemma value_snoc v x : value (v ++ [x]) = op x (value v).
Proof. induction v as [|y v IH]; cbn; [now rewrite z_left, z_right|]. now rewrite IH, op_assoc. Qed.

Lemma add_loop_value v : forall x, let (c, v') := add_loop eqb op z v x in op c (value v') = op (value v) x.
Proof.
  induction v as [|y v IH]; intros x; cbn [add_loop value].
  - now rewrite z_left, z_right.
  - destruct (eqb y z) eqn:E; cbn [negb].
    + apply eqb_spec in E. subst y. cbn [value]. now rewrite z_left, z_right.
    + specialize (IH (op y x)). destruct (add_loop eqb op z v (op y x)) as [c v']. cbn [value].
      now rewrite z_right, IH, op_assoc.
Qed.

Lemma counter_value l : forall v, value (balanced_counter eqb op z v l) = op (value v) (fold_right op z l).
Proof.
  induction l as [|x l IH]; intros v; cbn [balanced_counter fold_right]; [now rewrite z_right|].
  destruct (add_to_counter eqb op z v x) as [tmp v'] eqn:Ea. rewrite IH, op_assoc. f_equal.
  assert (H : op tmp (value v') = op (value v) x).
  { unfold add_to_counter in Ea. destruct (eqb x z) eqn:Ex.
    - injection Ea as <- <-. apply eqb_spec in Ex. subst x. now rewrite z_left, z_right.
    - pose proof (add_loop_value v x) as H. rewrite Ea in H. exact H. }
  destruct (eqb tmp z) eqn:Et; cbn [negb].
  - apply eqb_spec in Et. subst tmp. now rewrite z_left in H.
  - now rewrite value_snoc.
Qed.

Lemma reduce_rest_value l : forall x, reduce_rest eqb (fun a b => op b a) z x l = op (value l) x.
Proof.
  induction l as [|y l IH]; intros x; cbn [reduce_rest value]; [now rewrite z_left|].
  rewrite IH. destruct (eqb y z) eqn:E; cbn [negb].
  - apply eqb_spec in E. subst y. now rewrite z_right.
  - now rewrite op_assoc.
Qed.
Lemma reduce_nonzeros_value l : reduce_nonzeros eqb (fun a b => op b a) z l = value l.
Proof.
  induction l as [|x l IH]; cbn [reduce_nonzeros value]; [reflexivity|].
  destruct (eqb z x) eqn:E; [apply eqb_spec in E; subst x; now rewrite z_right|]. apply reduce_rest_value.
Qed.
Lemma fold_left_right l : forall a, fold_left op l a = op a (fold_right op z l).
Proof. induction l as [|x l IH]; intros a; cbn; [now rewrite z_right|]. now rewrite IH, op_assoc. Qed.

(** z the identity of an associative operation: the left-to-right fold, for every list. *)
Lemma reduce_balanced_monoid l : reduce_balanced eqb op z l = fold_left op l z.
Proof.
  unfold reduce_balanced. rewrite reduce_nonzeros_value, counter_value. cbn [value].
  rewrite z_left, fold_left_right, z_left. reflexivity.
Qed.
End Monoid.
End Reduce.

Theorem C33_reduce_balanced_monoid {T} (eqb : T -> T -> bool) (op : T -> T -> T) (z : T) :
  (forall a b, eqb a b = true <-> a = b) ->
  (forall a b c, op a (op b c) = op (op a b) c) -> (forall a, op z a = a) -> (forall a, op a z = a) ->
  forall l, reduce_balanced eqb op z l = fold_left op l z.
Proof. intros. now apply reduce_balanced_monoid. Qed.

Section Sentinel.
Context {T : Type} (eqb : T -> T -> bool) (op : T -> T -> T) (z : T).
Hypothesis eqb_spec : forall a b, eqb a b = true <-> a = b.
Hypothesis op_nz : forall a b, a <> z -> b <> z -> op a b <> z.
Definition op2 (a b : T) : T := if eqb a z then b else if eqb b z then a else op a b.
Lemma eqb_false a : a <> z <-> eqb a z = false.
Proof. split; intros H; [destruct (eqb a z) eqn:E; [apply eqb_spec in E; contradiction|reflexivity]|intros ->; rewrite (proj2 (eqb_spec z z) eq_refl) in H; discriminate]. Qed.
Lemma op2_nz a b : a <> z -> b <> z -> op2 a b = op a b.
Proof. intros Ha Hb. unfold op2. apply eqb_false in Ha, Hb. now rewrite Ha, Hb. Qed.
Lemma op2_zl a : op2 z a = a.
Proof. unfold op2. now rewrite (proj2 (eqb_spec z z) eq_refl). Qed.
Lemma op2_zr a : op2 a z = a.
Proof. unfold op2. destruct (eqb a z) eqn:E; [apply eqb_spec in E; auto|now rewrite (proj2 (eqb_spec z z) eq_refl)]. Qed.

Lemma add_loop_op2 v : forall x, x <> z -> add_loop eqb op z v x = add_loop eqb op2 z v x.
Proof.
  induction v as [|y v IH]; intros x Hx; cbn [add_loop]; [reflexivity|].
  destruct (eqb y z) eqn:E; cbn [negb]; [reflexivity|]. apply eqb_false in E.
  rewrite op2_nz by assumption. now rewrite IH by auto.
Qed.
Lemma add_op2 v x : add_to_counter eqb op z v x = add_to_counter eqb op2 z v x.
Proof. unfold add_to_counter. destruct (eqb x z) eqn:E; [reflexivity|]. apply add_loop_op2. now apply eqb_false. Qed.
Lemma counter_op2 l : forall v, balanced_counter eqb op z v l = balanced_counter eqb op2 z v l.
Proof.
  induction l as [|x l IH]; intros v; cbn [balanced_counter]; [reflexivity|]. rewrite add_op2.
  destruct (add_to_counter eqb op2 z v x). apply IH.
Qed.
Lemma rest_op2 l : forall x, x <> z -> reduce_rest eqb (fun a b => op b a) z x l = reduce_rest eqb (fun a b => op2 b a) z x l.
Proof.
  induction l as [|y l IH]; intros x Hx; cbn [reduce_rest]; [reflexivity|].
  destruct (eqb y z) eqn:E; cbn [negb]; [apply IH; exact Hx|]. apply eqb_false in E.
  rewrite op2_nz by assumption. apply IH. now apply op_nz.
Qed.
Lemma nonzeros_op2 l : reduce_nonzeros eqb (fun a b => op b a) z l = reduce_nonzeros eqb (fun a b => op2 b a) z l.
Proof.
  induction l as [|x l IH]; cbn [reduce_nonzeros]; [reflexivity|].
  destruct (eqb z x) eqn:E; [exact IH|]. apply rest_op2. intros ->. rewrite (proj2 (eqb_spec z z) eq_refl) in E. discriminate.
Qed.
Lemma balanced_op2 l : reduce_balanced eqb op z l = reduce_balanced eqb op2 z l.
Proof. unfold reduce_balanced. now rewrite nonzeros_op2, counter_op2. Qed.
Hypothesis op_assoc : forall a b c, a <> z -> b <> z -> c <> z -> op a (op b c) = op (op a b) c.
Lemma op2_assoc a b c : op2 a (op2 b c) = op2 (op2 a b) c.
Proof.
  destruct (eqb a z) eqn:Ea; [apply eqb_spec in Ea; subst; now rewrite !op2_zl|].
  destruct (eqb b z) eqn:Eb; [apply eqb_spec in Eb; subst; now rewrite op2_zl, op2_zr|].
  destruct (eqb c z) eqn:Ec; [apply eqb_spec in Ec; subst; now rewrite !op2_zr|].
  apply eqb_false in Ea, Eb, Ec. rewrite (op2_nz b c Eb Ec), (op2_nz a b Ea Eb), (op2_nz a (op b c)), (op2_nz (op a b) c) by auto. auto.
Qed.
Lemma fold_op2 l : Forall (fun x => x <> z) l -> forall a, a <> z -> fold_left op2 l a = fold_left op l a.
Proof.
  induction 1 as [|x l Hx HF IH]; intros a Ha; cbn; [reflexivity|]. rewrite op2_nz by assumption. apply IH. now apply op_nz.
Qed.
End Sentinel.

(** z a mere marker that is not among the values and never a result (the operation need not have
    an identity): the left-to-right fold of the values, z only for the empty range. *)
Theorem C33_reduce_balanced_semigroup {T} (eqb : T -> T -> bool) (op : T -> T -> T) (z : T) :
  (forall a b, eqb a b = true <-> a = b) ->
  (forall a b, a <> z -> b <> z -> op a b <> z) ->
  (forall a b c, a <> z -> b <> z -> c <> z -> op a (op b c) = op (op a b) c) ->
  forall x l, Forall (fun v => v <> z) (x :: l) ->
    reduce_balanced eqb op z (x :: l) = fold_left op l x /\ reduce_balanced eqb op z [] = z.
Proof.
  intros He Hn Ha x l HF. split; [|reflexivity]. inversion HF as [|? ? Hx HF']; subst.
  rewrite (balanced_op2 eqb op z He Hn).
  rewrite (C33_reduce_balanced_monoid eqb (op2 eqb op z) z He (op2_assoc eqb op z He Hn Ha) (op2_zl eqb op z He) (op2_zr eqb op z He)).
  cbn [fold_left]. rewrite (op2_zl eqb op z He). now apply (fold_op2 eqb op z He Hn).
Qed.

(** *** The reduction is balanced: instantiate T with binary trees, op with the node constructor
    (the code is a template, so this shows which operations are applied to what). *)
Inductive tree := Zero | Leaf (x : nat) | Node (l r : tree).
Fixpoint tree_eqb (s t : tree) : bool :=
  match s, t with
  | Zero, Zero => true
  | Leaf x, Leaf y => x =? y
  | Node a b, Node c d => tree_eqb a c && tree_eqb b d
  | _, _ => false
  end.
Fixpoint depth (t : tree) : nat :=
  match t with Node l r => 1 + Nat.max (depth l) (depth r) | _ => 0 end.
Fixpoint leaves (t : tree) : list nat :=
  match t with Zero => [] | Leaf x => [x] | Node l r => leaves l ++ leaves r end.

Lemma tree_eqb_spec s : forall t, tree_eqb s t = true <-> s = t.
Proof.
  induction s as [|x|a IHa b IHb]; intros [|y|c d]; cbn; try (split; [discriminate|discriminate]); try tauto.
  - rewrite Nat.eqb_eq. split; congruence.
  - rewrite andb_true_iff, IHa, IHb. split; [intros [-> ->]; reflexivity|intros H; injection H; auto].
Qed.

(** digit i of the counter is empty or a perfect tree of depth i; n is the number it represents *)
Inductive counter : nat -> nat -> list tree -> Prop :=
| c_nil i : counter i 0 []
| c_zero i n v : counter (S i) n v -> counter i n (Zero :: v)
| c_one i n v t : t <> Zero -> depth t = i -> counter (S i) n v -> counter i (n + 2 ^ i) (t :: v).

Lemma counter_add i n v : counter i n v -> forall x, x <> Zero -> depth x = i ->
  let (c, v') := add_loop tree_eqb Node Zero v x in
  length v' = length v /\
  (c = Zero /\ counter i (n + 2 ^ i) v' \/
   c <> Zero /\ depth c = i + length v /\ counter i (n + 2 ^ i - 2 ^ (i + length v)) v' /\
   n + 2 ^ i = 2 ^ (i + length v)).
Proof.
  induction 1 as [i|i n v H IH|i n v t Ht Hd H IH]; intros x Hx Hdx; cbn [add_loop length].
  - split; [reflexivity|]. right. rewrite Nat.add_0_r. cbn. rewrite Nat.sub_diag. repeat split; auto. constructor.
  - cbn [tree_eqb negb]. split; [reflexivity|]. left. split; [reflexivity|]. now constructor.
  - destruct (tree_eqb t Zero) eqn:E; [apply tree_eqb_spec in E; contradiction|]. cbn [negb].
    specialize (IH (Node t x)). destruct (add_loop tree_eqb Node Zero v (Node t x)) as [c v'].
    destruct IH as [Hl IH]; [discriminate|cbn; rewrite Hd, Hdx, Nat.max_id; reflexivity|].
    split; [cbn; now rewrite Hl|]. rewrite Nat.pow_succ_r' in IH.
    destruct IH as [[-> Hc]|(Hc & Hdc & Hcn & Hn)].
    + left. split; [reflexivity|]. constructor. replace (n + 2 ^ i + 2 ^ i) with (n + 2 * 2 ^ i) by lia. exact Hc.
    + right. replace (i + S (length v)) with (S i + length v) by lia.
      split; [exact Hc|]. split; [exact Hdc|]. split; [|lia]. constructor.
      replace (n + 2 ^ i + 2 ^ i) with (n + 2 * 2 ^ i) by lia. exact Hcn.
Qed.

Lemma counter_zero i v n : counter i n v -> n = 0 -> Forall (fun t => t = Zero) v.
Proof.
  induction 1; intros Hn; [constructor|constructor; auto|]. exfalso. pose proof (Nat.pow_nonzero 2 i). lia.
Qed.
Lemma counter_all_zero i v : Forall (fun t => t = Zero) v -> forall k t, t <> Zero -> depth t = k + i -> length v = k ->
  counter i (2 ^ (k + i)) (v ++ [t]).
Proof.
  intros HF. revert i. induction HF as [|x v -> HF IH]; intros i k t Ht Hd Hl; cbn in Hl; subst k; cbn [app].
  - exact (c_one i 0 [] t Ht Hd (c_nil _)).
  - constructor. replace (S (length v) + i) with (length v + S i) in * by lia. apply IH; auto.
Qed.

(** the counter after n pushes represents n and its last digit is not empty *)
Lemma counter_run l : forall v n, Forall (fun t => t <> Zero /\ depth t = 0) l -> counter 0 n v ->
  (v = [] \/ exists w t, v = w ++ [t] /\ t <> Zero) ->
  counter 0 (n + length l) (balanced_counter tree_eqb Node Zero v l) /\
  (balanced_counter tree_eqb Node Zero v l = [] \/ exists w t, balanced_counter tree_eqb Node Zero v l = w ++ [t] /\ t <> Zero).
Proof.
  induction l as [|x l IH]; intros v n HF Hc Hlast; cbn [balanced_counter length].
  - rewrite Nat.add_0_r. auto.
  - inversion HF as [|? ? [Hx Hdx] HF']; subst.
    unfold add_to_counter. destruct (tree_eqb x Zero) eqn:Ex; [apply tree_eqb_spec in Ex; contradiction|].
    pose proof (counter_add 0 n v Hc x Hx Hdx) as H.
    destruct (add_loop tree_eqb Node Zero v x) as [c v'] eqn:Ea. cbn [Nat.pow Nat.add] in H.
    destruct H as [Hl [[-> Hc']|(Hcn & Hd & Hc' & Hn)]].
    + cbn [tree_eqb negb]. replace (n + S (length l)) with (n + 1 + length l) by lia. apply IH; auto.
      (* the last digit only changes from a tree to Zero when there is a carry out *)
      clear IH HF HF' Hc Hc' l Ex.
      destruct Hlast as [-> |(w & t & -> & Ht)].
      { destruct v'; [now left|discriminate]. }
      right. revert v' x Hx Hdx Hl Ea. induction w as [|y w IHw]; intros v' x Hx Hdx Hl Ea; cbn [app add_loop] in Ea.
      * destruct (tree_eqb t Zero) eqn:E; [apply tree_eqb_spec in E; contradiction|]. cbn [negb] in Ea. discriminate.
      * destruct (tree_eqb y Zero) eqn:E; cbn [negb] in Ea.
        -- injection Ea as <-. exists (x :: w), t. auto.
        -- destruct (add_loop tree_eqb Node Zero (w ++ [t]) (Node y x)) as [c v''] eqn:Ea'. injection Ea as -> <-.
           assert (G : forall w x v'', x <> Zero -> add_loop tree_eqb Node Zero (w ++ [t]) x = (Zero, v'') -> exists w' t', v'' = w' ++ [t'] /\ t' <> Zero).
           { clear -Ht. induction w as [|y w IHw]; intros x v'' Hx Ea; cbn [app add_loop] in Ea.
             - destruct (tree_eqb t Zero) eqn:E; [apply tree_eqb_spec in E; contradiction|]. cbn [negb] in Ea. discriminate.
             - destruct (tree_eqb y Zero) eqn:E; cbn [negb] in Ea.
               + injection Ea as <-. exists (x :: w), t. auto.
               + destruct (add_loop tree_eqb Node Zero (w ++ [t]) (Node y x)) as [c v3] eqn:Ea'. injection Ea as -> <-.
                 destruct (IHw (Node y x) _ ltac:(discriminate) Ea') as (w' & t' & -> & H'). exists (Zero :: w'), t'. auto. }
           destruct (G w (Node y x) _ ltac:(discriminate) Ea') as (w' & t' & -> & H'). exists (Zero :: w'), t'. auto.
    + destruct (tree_eqb c Zero) eqn:E; [apply tree_eqb_spec in E; contradiction|]. cbn [negb].
      replace (n + S (length l)) with (n + 1 + length l) by lia. apply IH; auto.
      * assert (Hz : Forall (fun t => t = Zero) v').
        { eapply counter_zero; [exact Hc'|]. lia. }
        rewrite Hn. pose proof (counter_all_zero 0 v' Hz (length v) c Hcn) as G. rewrite Nat.add_0_r in G.
        apply G; lia.
      * right. eauto.
Qed.

Lemma rest_depth i n v : counter i n v -> forall x, x <> Zero -> depth x <= i ->
  depth (reduce_rest tree_eqb (fun a b => Node b a) Zero x v) <= i + length v /\
  reduce_rest tree_eqb (fun a b => Node b a) Zero x v <> Zero.
Proof.
  induction 1 as [i|i n v H IH|i n v t Ht Hd H IH]; intros x Hx Hdx; cbn [reduce_rest length].
  - split; [lia|exact Hx].
  - cbn [tree_eqb negb]. replace (i + S (length v)) with (S i + length v) by lia. apply IH; [exact Hx|lia].
  - destruct (tree_eqb t Zero) eqn:E; [apply tree_eqb_spec in E; contradiction|]. cbn [negb].
    replace (i + S (length v)) with (S i + length v) by lia. apply IH; [discriminate|]. cbn [depth]. lia.
Qed.
Lemma nonzeros_depth i n v : counter i n v -> forall w t, v = w ++ [t] -> t <> Zero ->
  depth (reduce_nonzeros tree_eqb (fun a b => Node b a) Zero v) <= i + length v /\
  (n = 2 ^ (i + length w) -> depth (reduce_nonzeros tree_eqb (fun a b => Node b a) Zero v) <= i + length w).
Proof.
  induction 1 as [i|i n v H IH|i n v t0 Ht0 Hd H IH]; intros w t Ev Ht.
  - destruct w; discriminate.
  - destruct w as [|x w]; cbn [app] in Ev; injection Ev as <- Ev; [congruence|].
    cbn [reduce_nonzeros tree_eqb length]. destruct (IH w t Ev Ht) as [I1 I2].
    replace (i + S (length v)) with (S i + length v) by lia. replace (i + S (length w)) with (S i + length w) by lia. auto.
  - cbn [reduce_nonzeros]. destruct (tree_eqb Zero t0) eqn:E; [apply tree_eqb_spec in E; congruence|].
    destruct (rest_depth (S i) n v H t0 Ht0) as [D _]; [lia|]. cbn [length].
    split; [lia|]. intros Hn. destruct w as [|x w]; cbn [app] in Ev; injection Ev as -> Ev.
    + subst v. cbn [reduce_rest length]. lia.
    + (* a lower digit and a higher one: n is not a power of that size *)
      exfalso. cbn [length] in Hn. assert (Hn' : 2 ^ (S i + length w) <= n).
      { clear -H Ev Ht. revert w t Ev Ht. induction H as [j|j m u H IH|j m u s Hs Hd H IH]; intros w t Ev Ht.
        - destruct w; discriminate.
        - destruct w as [|x w]; cbn in Ev; injection Ev as <- Ev; [congruence|]. cbn [length].
          replace (j + S (length w)) with (S j + length w) by lia. eapply IH; eauto.
        - destruct w as [|x w]; cbn [app] in Ev; injection Ev as -> Ev; cbn [length].
          + rewrite Nat.add_0_r. lia.
          + replace (j + S (length w)) with (S j + length w) by lia. pose proof (IH w t Ev Ht). lia. }
      replace (S i + length w) with (i + S (length w)) in Hn' by lia. pose proof (Nat.pow_nonzero 2 i). lia.
Qed.

Lemma counter_size i n v : counter i n v -> forall w t, v = w ++ [t] -> t <> Zero -> 2 ^ (i + length w) <= n.
Proof.
  induction 1 as [j|j m u H IH|j m u s Hs Hd H IH]; intros w t Ev Ht.
  - destruct w; discriminate.
  - destruct w as [|x w]; cbn in Ev; injection Ev as <- Ev; [congruence|]. cbn [length].
    replace (j + S (length w)) with (S j + length w) by lia. eapply IH; eauto.
  - destruct w as [|x w]; cbn [app] in Ev; injection Ev as -> Ev; cbn [length].
    + rewrite Nat.add_0_r. lia.
    + replace (j + S (length w)) with (S j + length w) by lia. pose proof (IH w t Ev Ht). lia.
Qed.

(** Reducing n values combines them in a tree of the least possible depth, ceil(log2 n), with the
    leaves in order. *)
Definition flatten_op (a b : list nat) := a ++ b.
Lemma leaves_rest v : forall x, leaves (reduce_rest tree_eqb (fun a b => Node b a) Zero x v) = concat (rev (map leaves v)) ++ leaves x.
Proof.
  induction v as [|y v IH]; intros x; cbn [reduce_rest map rev]; [reflexivity|].
  rewrite IH, concat_app. cbn [concat]. rewrite app_nil_r, <- app_assoc. f_equal.
  destruct (tree_eqb y Zero) eqn:E; cbn [negb]; [apply tree_eqb_spec in E; subst; reflexivity|reflexivity].
Qed.
Lemma leaves_nonzeros v : leaves (reduce_nonzeros tree_eqb (fun a b => Node b a) Zero v) = concat (rev (map leaves v)).
Proof.
  induction v as [|x v IH]; cbn [reduce_nonzeros map rev]; [reflexivity|].
  rewrite concat_app. cbn [concat]. rewrite app_nil_r.
  destruct (tree_eqb Zero x) eqn:E; [apply tree_eqb_spec in E; subst; cbn [leaves]; now rewrite app_nil_r|]. apply leaves_rest.
Qed.
Lemma leaves_add v : forall x, let (c, v') := add_loop tree_eqb Node Zero v x in
  leaves c ++ concat (rev (map leaves v')) = concat (rev (map leaves v)) ++ leaves x.
Proof.
  induction v as [|y v IH]; intros x; cbn [add_loop map rev]; [cbn; now rewrite app_nil_r|].
  destruct (tree_eqb y Zero) eqn:E; cbn [negb].
  - apply tree_eqb_spec in E; subst. cbn [map rev leaves app]. rewrite !concat_app. cbn [concat]. now rewrite !app_nil_r.
  - specialize (IH (Node y x)). destruct (add_loop tree_eqb Node Zero v (Node y x)) as [c v']. cbn [map rev leaves] in *.
    rewrite !concat_app. cbn [concat]. rewrite !app_nil_r, <- app_assoc. exact IH.
Qed.
Lemma leaves_counter l : forall v, Forall (fun t => t <> Zero) l ->
  concat (rev (map leaves (balanced_counter tree_eqb Node Zero v l))) = concat (rev (map leaves v)) ++ concat (map leaves l).
Proof.
  induction l as [|x l IH]; intros v HF; cbn [balanced_counter map concat]; [now rewrite app_nil_r|].
  inversion HF as [|? ? Hx HF']; subst. unfold add_to_counter.
  destruct (tree_eqb x Zero) eqn:Ex; [apply tree_eqb_spec in Ex; contradiction|].
  pose proof (leaves_add v x) as H. destruct (add_loop tree_eqb Node Zero v x) as [c v'].
  rewrite IH by assumption. rewrite app_assoc. f_equal. rewrite <- H.
  destruct (tree_eqb c Zero) eqn:E; cbn [negb].
  - apply tree_eqb_spec in E. subst c. reflexivity.
  - rewrite map_app, rev_app_distr. reflexivity.
Qed.

Theorem C33_reduction_is_balanced (l : list nat) : l <> [] ->
  depth (reduce_balanced tree_eqb Node Zero (map Leaf l)) <= Nat.log2_up (length l) /\
  leaves (reduce_balanced tree_eqb Node Zero (map Leaf l)) = l.
Proof.
  intros Hne. split.
  - assert (HF : Forall (fun t => t <> Zero /\ depth t = 0) (map Leaf l)).
    { apply Forall_forall. intros t Ht. apply in_map_iff in Ht as (x & <- & _). split; [discriminate|reflexivity]. }
    destruct (counter_run (map Leaf l) [] 0 HF (c_nil 0) (or_introl eq_refl)) as [Hc Hlast].
    unfold reduce_balanced. set (v := balanced_counter tree_eqb Node Zero [] (map Leaf l)) in *.
    rewrite map_length in Hc. cbn [Nat.add] in Hc.
    destruct Hlast as [E|(w & t & E & Ht)].
    { exfalso. rewrite E in Hc. inversion Hc as [? Hl| |]. destruct l; [congruence|discriminate]. }
    destruct (nonzeros_depth _ _ _ Hc w t E Ht) as [D1 D2]. pose proof (counter_size _ _ _ Hc w t E Ht) as Hs.
    cbn [Nat.add] in *. rewrite E, app_length in D1. cbn [length] in D1.
    destruct (Nat.eq_dec (length l) (2 ^ length w)) as [Hp|Hp].
    + rewrite Hp, Nat.log2_up_pow2 by lia. now apply D2.
    + assert (length w + 1 <= Nat.log2_up (length l)); [|rewrite <- E in D1; lia].
      rewrite Nat.add_1_r, <- (Nat.log2_up_succ_pow2 (length w)) by lia. apply Nat.log2_up_le_mono. lia.
  - unfold reduce_balanced. rewrite leaves_nonzeros, leaves_counter.
    + cbn. rewrite map_map. cbn. clear. induction l; cbn; congruence.
    + apply Forall_forall. intros t Ht. apply in_map_iff in Ht as (x & <- & _). discriminate.
Qed.

Example C33_nonvacuous :
  reduce_balanced tree_eqb Node Zero (map Leaf [1;2;3;4;5]) =
    Node (Node (Node (Leaf 1) (Leaf 2)) (Node (Leaf 3) (Leaf 4))) (Leaf 5) /\
  reduce_balanced Nat.eqb Nat.add 0 [3;0;4;5] = 12.
Proof. split; reflexivity. Qed.

(** *** C34 *)
(** pre, then the part of the range before the pivot, then the part after it. *)
Theorem C34_gather {A} (pred : A -> bool) (pre a b post : list A) :
  let first := length pre in let pivot := first + length a in let last := pivot + length b in
  let before := filter (fun x => negb (pred x)) a in
  let gathered := filter pred a ++ filter pred b in
  let after := filter (fun x => negb (pred x)) b in
  gather (pre ++ a ++ b ++ post) first last pivot pred =
  (pre ++ before ++ gathered ++ after ++ post,
   (first + length before, first + length before + length gathered)).
Proof.
  cbv zeta. unfold gather, std_stable_partition.
  destruct (slice_app pre a (b ++ post) (length pre) (length pre + length a) eq_refl eq_refl) as (-> & -> & ->).
  assert (Hnn : filter (fun x => negb (negb (pred x))) a = filter pred a).
  { apply filter_ext. intros x. apply negb_involutive. }
  rewrite Hnn.
  assert (Hlen : length (filter (fun x => negb (pred x)) a) + length (filter pred a) = length a).
  { clear. induction a as [|x a IH]; cbn; [reflexivity|]. destruct (pred x); cbn; lia. }
  replace (pre ++ filter (fun x => negb (pred x)) a ++ filter pred a ++ b ++ post)
    with ((pre ++ filter (fun x => negb (pred x)) a ++ filter pred a) ++ b ++ post) by (rewrite <- !app_assoc; reflexivity).
  destruct (slice_app (pre ++ filter (fun x => negb (pred x)) a ++ filter pred a) b post (length pre + length a) (length pre + length a + length b)) as (-> & -> & ->).
  { rewrite !app_length. lia. } { reflexivity. }
  rewrite <- !app_assoc, app_length. f_equal. f_equal. lia.
Qed.
Example C34_nonvacuous : gather [0;1;2;3;4;5;6;7;8;9] 0 10 4 Nat.even = ([1;3;0;2;4;6;8;5;7;9], (2, 7)).
Proof. reflexivity. Qed.

(** *** C43: erase_if *)
Lemma find_if_spec {A} (q : A -> bool) r :
  find_if q r <= length r /\ forallb (fun x => negb (q x)) (firstn (find_if q r) r) = true /\
  (find_if q r < length r -> exists x, nth_error r (find_if q r) = Some x /\ q x = true).
Proof.
  induction r as [|x r (I1 & I2 & I3)]; cbn [find_if]; [cbn; repeat split; auto; lia|].
  destruct (q x) eqn:E; cbn [firstn forallb length].
  - repeat split; [lia|]. intros _. exists x. auto.
  - rewrite E, I2. repeat split; [lia|]. intros H. apply I3. lia.
Qed.
Lemma filter_all_true {A} (q : A -> bool) r : forallb q r = true -> filter q r = r.
Proof. induction r as [|x r IH]; cbn; [reflexivity|]. intros H. apply andb_true_iff in H as [-> H]. now rewrite IH. Qed.
Lemma filter_all_false {A} (q : A -> bool) r : forallb (fun x => negb (q x)) r = true -> filter q r = [].
Proof. induction r as [|x r IH]; cbn; [reflexivity|]. intros H. apply andb_true_iff in H as [H1 H]. apply negb_true_iff in H1. rewrite H1. auto. Qed.

Lemma erase_if_nodes_spec {A} (q : A -> bool) tail : forall fuel done range, length range <= fuel ->
  erase_if_nodes fuel done range tail q = Some (done ++ filter (fun x => negb (q x)) range ++ tail).
Proof.
  induction fuel as [|fuel IH]; intros done range Hl.
  - destruct range; [reflexivity|cbn in Hl; lia].
  - destruct range as [|a range]; [reflexivity|]. remember (a :: range) as r eqn:Er.
    assert (Hne : 0 < length r) by (rewrite Er; cbn; lia).
    assert (Hun : erase_if_nodes (S fuel) done r tail q =
      (let (i, j) := find_range_if q r in erase_if_nodes fuel (done ++ firstn i r) (skipn j r) tail q)) by (rewrite Er; reflexivity).
    rewrite Hun. clear Hun Er a range. unfold find_range_if.
    destruct (find_if_spec q r) as (F1 & F2 & F3).
    set (f := find_if q r) in *. clearbody f. destruct (Nat.eqb_spec f (length r)) as [E|E].
    + subst f. rewrite firstn_all in *. rewrite skipn_all. rewrite IH by (cbn; lia). cbn [filter app].
      rewrite (filter_all_true (fun x => negb (q x)) r F2), app_assoc. reflexivity.
    + destruct F3 as (x & Ex & Hx); [lia|].
      destruct (find_if_spec (fun x => negb (q x)) (skipn (f + 1) r)) as (G1 & G2 & _).
      set (g := find_if (fun x => negb (q x)) (skipn (f + 1) r)) in *. clearbody g.
      rewrite IH by (rewrite skipn_length; lia). f_equal. rewrite <- app_assoc. f_equal. rewrite app_assoc. f_equal.
      assert (Hr : r = firstn f r ++ x :: firstn g (skipn (f + 1) r) ++ skipn (f + 1 + g) r).
      { rewrite <- (firstn_skipn f r) at 1. f_equal.
        apply nth_error_split in Ex as (l1 & l2 & -> & <-). rewrite skipn_app, Nat.sub_diag, skipn_all. cbn [skipn app].
        f_equal. replace (length l1 + 1 + g) with (g + (length l1 + 1)) by lia.
        rewrite <- (skipn_skipn g (length l1 + 1)).
        replace (skipn (length l1 + 1) (l1 ++ x :: l2)) with l2.
        - now rewrite firstn_skipn.
        - rewrite skipn_app. rewrite skipn_all2 by lia. replace (length l1 + 1 - length l1) with 1 by lia. reflexivity. }
      rewrite Hr at 3. rewrite filter_app. cbn [filter]. rewrite Hx. cbn [negb]. rewrite filter_app.
      rewrite (filter_all_true (fun x => negb (q x)) (firstn f r)) by exact F2.
      rewrite (filter_all_false (fun x => negb (q x)) (firstn g _)) by exact G2.
      reflexivity.
Qed.

(** erase_if removes exactly the elements of [f, l) satisfying the predicate, keeping the order of
    all others, for both kinds of containers. *)
Theorem C43_erase_if {A} (q : A -> bool) (pre s post : list A) :
  let f := length pre in let l := f + length s in
  erase_if_block (pre ++ s ++ post) f l q = pre ++ filter (fun x => negb (q x)) s ++ post /\
  erase_if_node (pre ++ s ++ post) f l q = Some (pre ++ filter (fun x => negb (q x)) s ++ post).
Proof.
  cbv zeta. unfold erase_if_block, erase_if_node.
  destruct (slice_app pre s post (length pre) (length pre + length s) eq_refl eq_refl) as (-> & -> & ->).
  split; [reflexivity|]. apply erase_if_nodes_spec. lia.
Qed.
Example C43_nonvacuous : erase_if_node [1;2;4;5;6;7;8] 1 6 Nat.even = Some [1;5;7;8].
Proof. reflexivity. Qed.

(** *** C44: copy_bounded *)
Lemma copy_n_spec {A} (src : list A) : forall xs s dst1 old dst2 d,
  firstn (length xs) (skipn s src) = xs -> length old = length xs -> d = length dst1 ->
  copy_n src s (length xs) (dst1 ++ old ++ dst2) d = Some (dst1 ++ xs ++ dst2, s + length xs, d + length xs).
Proof.
  induction xs as [|x xs IH]; intros s dst1 old dst2 d Hx Ho Hd; cbn [length copy_n] in *.
  - destruct old; [|discriminate]. now rewrite !Nat.add_0_r.
  - destruct old as [|y old]; [discriminate|].
    destruct (skipn s src) as [|x' r] eqn:Es; [discriminate|]. cbn [firstn] in Hx. injection Hx as -> Hx.
    assert (nth_error src s = Some x) as ->.
    { rewrite <- (firstn_skipn s src), Es. apply (nth_at (firstn s src) r _ x); [reflexivity|].
      rewrite firstn_length. assert (s < length src); [|lia].
      destruct (Nat.lt_ge_cases s (length src)); [assumption|]. rewrite skipn_all2 in Es by lia. discriminate. }
    destruct (Nat.ltb_spec d (length (dst1 ++ (y :: old) ++ dst2))); [|rewrite app_length in *; cbn in *; lia].
    cbn [app]. rewrite (upd_at dst1 (old ++ dst2) _ y x) by auto.
    replace (dst1 ++ x :: old ++ dst2) with ((dst1 ++ [x]) ++ old ++ dst2) by (now rewrite <- app_assoc).
    rewrite IH.
    + rewrite <- app_assoc. cbn [app]. f_equal. f_equal; [f_equal|]; lia.
    + replace (s + 1) with (1 + s) by lia. rewrite <- skipn_skipn, Es. exact Hx.
    + cbn in Ho. lia.
    + rewrite app_length. cbn. lia.
Qed.

Lemma copy_bounded_forward_is_copy_n {A} (src : list A) sl dl : forall fuel s d dst, s <= sl -> d <= dl -> sl - s <= fuel ->
  copy_bounded_forward fuel src s sl dst d dl = copy_n src s (Nat.min (sl - s) (dl - d)) dst d.
Proof.
  induction fuel as [|fuel IH]; intros s d dst Hs Hd Hf; cbn [copy_bounded_forward].
  - destruct (Nat.eqb_spec s sl); [|lia]. cbn [negb andb]. subst. now rewrite Nat.sub_diag.
  - destruct (Nat.eqb_spec s sl); cbn [negb andb]; [subst; now rewrite Nat.sub_diag|].
    destruct (Nat.eqb_spec d dl); cbn [negb]; [subst; now rewrite Nat.sub_diag, Nat.min_0_r|].
    destruct (Nat.min (sl - s) (dl - d)) as [|k] eqn:Ek; [lia|]. cbn [copy_n].
    destruct (nth_error src s) as [x|]; [|reflexivity]. destruct (d <? length dst); [|reflexivity].
    rewrite IH by lia. f_equal. lia.
Qed.

(** copy_bounded copies min(source, destination) elements into place, changes nothing else, reads
    and writes only inside the two ranges, and returns how far it got; both implementations agree. *)
Theorem C44_copy_bounded {A} (spre s spost dpre d dpost : list A) :
  let n := Nat.min (length s) (length d) in
  let sf := length spre in let df := length dpre in
  let result := Some (dpre ++ firstn n s ++ skipn n d ++ dpost, sf + n, df + n) in
  copy_bounded_random (spre ++ s ++ spost) sf (sf + length s) (dpre ++ d ++ dpost) df (df + length d) = result /\
  copy_bounded_forward (length s) (spre ++ s ++ spost) sf (sf + length s) (dpre ++ d ++ dpost) df (df + length d) = result.
Proof.
  cbv zeta. rewrite copy_bounded_forward_is_copy_n by lia. unfold copy_bounded_random.
  replace (length spre + length s - length spre) with (length s) by lia.
  replace (length dpre + length d - length dpre) with (length d) by lia.
  assert (H : copy_n (spre ++ s ++ spost) (length spre) (Nat.min (length s) (length d)) (dpre ++ d ++ dpost) (length dpre) =
    Some (dpre ++ firstn (Nat.min (length s) (length d)) s ++ skipn (Nat.min (length s) (length d)) d ++ dpost,
          length spre + Nat.min (length s) (length d), length dpre + Nat.min (length s) (length d))).
  2: { split; exact H. }
  set (n := Nat.min (length s) (length d)).
  pose proof (copy_n_spec (spre ++ s ++ spost) (firstn n s) (length spre) dpre (firstn n d) (skipn n d ++ dpost) (length dpre)) as C.
  rewrite !firstn_length in C. replace (Nat.min n (length s)) with n in C by lia. replace (Nat.min n (length d)) with n in C by lia.
  rewrite (app_assoc (firstn n d)), firstn_skipn in C. apply C; [|reflexivity|reflexivity].
  rewrite skipn_app, Nat.sub_diag, skipn_all. cbn [app skipn]. rewrite firstn_app.
  replace (n - length s) with 0 by lia. cbn. now rewrite app_nil_r.
Qed.
Example C44_nonvacuous : copy_bounded_random [1;2;3;4] 1 4 [7;7;7;7] 1 3 = Some ([7;2;3;7], 3, 3).
Proof. reflexivity. Qed.

Print Assumptions C32_rotate.
Print Assumptions C32_reverse_until.
Print Assumptions C33_reduce_balanced_monoid.
Print Assumptions C33_reduce_balanced_semigroup.
Print Assumptions C33_reduction_is_balanced.
Print Assumptions C34_gather.
Print Assumptions C43_erase_if.
Print Assumptions C44_copy_bounded.
