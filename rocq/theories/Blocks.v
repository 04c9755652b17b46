(** Cutting a list into blocks of [n]; used by the MD5 and SHA specifications. *)
From Verif Require Import Prelude.

Section Blocks.
Context {A : Type}.

(** The complete blocks of [n] elements of [l], in order; an incomplete tail is dropped. *)
Fixpoint chunks_fuel (k n : nat) (l : list A) : list (list A) :=
  match k with
  | O => []
  | S k' => if length l <? n then [] else firstn n l :: chunks_fuel k' n (skipn n l)
  end.
Definition chunks (n : nat) (l : list A) : list (list A) := chunks_fuel (length l) n l.

(** The incomplete tail. *)
Definition tail_of (n : nat) (l : list A) : list A := skipn (length l / n * n) l.

Variables (n : nat) (Hn : 0 < n).

Lemma chunks_fuel_enough k : forall k' l, length l <= k -> length l <= k' ->
  chunks_fuel k n l = chunks_fuel k' n l.
Proof.
  induction k as [|k IH]; intros k' l H H'.
  - destruct l; [|simpl in H; lia]. destruct k'; [reflexivity|]. simpl.
    destruct (Nat.ltb_spec 0 n); [reflexivity|lia].
  - destruct k' as [|k'].
    { destruct l; [|simpl in H'; lia]. simpl. destruct (Nat.ltb_spec 0 n); [reflexivity|lia]. }
    simpl. destruct (Nat.ltb_spec (length l) n); [reflexivity|]. f_equal.
    apply IH; rewrite skipn_length; lia.
Qed.

Lemma chunks_short l : length l < n -> chunks n l = [].
Proof.
  intros H. unfold chunks. destruct (length l) eqn:E; [reflexivity|]. simpl.
  destruct (Nat.ltb_spec (length l) n); [reflexivity|lia].
Qed.

Lemma chunks_cons b l : length b = n -> chunks n (b ++ l) = b :: chunks n l.
Proof.
  intros H. unfold chunks. rewrite app_length.
  destruct (length b + length l) as [|k] eqn:E; [lia|]. cbn [chunks_fuel].
  rewrite app_length. destruct (Nat.ltb_spec (length b + length l) n); [lia|].
  rewrite firstn_app, skipn_app, H, Nat.sub_diag, firstn_O, app_nil_r.
  rewrite firstn_all2 by lia. rewrite skipn_all2 by lia. simpl. f_equal.
  apply chunks_fuel_enough; lia.
Qed.

Lemma tail_short l : length l < n -> tail_of n l = l.
Proof. intros H. unfold tail_of. rewrite Nat.div_small by lia. reflexivity. Qed.

Lemma tail_cons b l : length b = n -> tail_of n (b ++ l) = tail_of n l.
Proof.
  intros H. unfold tail_of. rewrite app_length, H.
  replace (n + length l) with (length l + 1 * n) by lia.
  rewrite Nat.div_add by lia.
  replace ((length l / n + 1) * n) with (n + length l / n * n) by lia.
  generalize (length l / n * n); intros q.
  rewrite skipn_app, H. rewrite skipn_all2 by lia. simpl. f_equal. lia.
Qed.

Lemma tail_length l : length (tail_of n l) = length l mod n.
Proof.
  unfold tail_of. rewrite skipn_length. rewrite Nat.mod_eq by lia. lia.
Qed.

Lemma tail_lt l : length (tail_of n l) < n.
Proof. rewrite tail_length. apply Nat.mod_upper_bound. lia. Qed.

(** Induction on blocks. *)
Lemma block_ind (P : list A -> Prop) :
  (forall l, length l < n -> P l) ->
  (forall b l, length b = n -> P l -> P (b ++ l)) -> forall l, P l.
Proof.
  intros H0 H1 l. remember (length l) as k. revert l Heqk.
  induction k as [k IH] using lt_wf_ind; intros l Hk.
  destruct (Nat.lt_ge_cases (length l) n) as [H|H]; [now apply H0|].
  rewrite <- (firstn_skipn n l). apply H1.
  - rewrite firstn_length. lia.
  - apply (IH (length (skipn n l))); [rewrite skipn_length; lia|reflexivity].
Qed.

Lemma chunks_app l1 l2 : chunks n (l1 ++ l2) = chunks n l1 ++ chunks n (tail_of n l1 ++ l2).
Proof.
  induction l1 as [l H|b l Hb IH] using block_ind.
  - rewrite (chunks_short l), tail_short by lia. reflexivity.
  - rewrite <- app_assoc, tail_cons by assumption.
    rewrite (chunks_cons b (l ++ l2)), (chunks_cons b l) by assumption. simpl. now rewrite IH.
Qed.

Lemma tail_app l1 l2 : tail_of n (l1 ++ l2) = tail_of n (tail_of n l1 ++ l2).
Proof.
  induction l1 as [l H|b l Hb IH] using block_ind.
  - rewrite (tail_short l) by lia. reflexivity.
  - rewrite <- app_assoc. rewrite (tail_cons b (l ++ l2)), (tail_cons b l) by assumption. exact IH.
Qed.

Lemma chunks_length l : Forall (fun b => length b = n) (chunks n l).
Proof.
  induction l as [l H|b l Hb IH] using block_ind.
  - rewrite chunks_short by lia. constructor.
  - rewrite chunks_cons by assumption. now constructor.
Qed.

Lemma chunks_concat l : concat (chunks n l) ++ tail_of n l = l.
Proof.
  induction l as [l H|b l Hb IH] using block_ind.
  - rewrite chunks_short, tail_short by lia. reflexivity.
  - rewrite chunks_cons, tail_cons by assumption. simpl. now rewrite <- app_assoc, IH.
Qed.

Lemma chunks_Forall (P : A -> Prop) l : Forall P l -> Forall (Forall P) (chunks n l).
Proof.
  induction l as [l H|b l Hb IH] using block_ind; intros HF.
  - rewrite chunks_short by lia. constructor.
  - rewrite chunks_cons by assumption. apply Forall_app in HF as [? ?]. constructor; auto.
Qed.
End Blocks.
