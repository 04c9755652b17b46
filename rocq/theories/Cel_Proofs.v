(** Proofs about the CEL serializer: the text it writes, and how that text reads. *)
From Coq Require Import String Ascii ZArith Lia Permutation Floats.SpecFloat.
From Verif Require Import Prelude Vm_Value Vm_Model Vm_Spec Entity_Model Expr_Model Expr_Spec Token_Props Lex_Spec Cel_Model.
From Coq Require Import List.
Import ListNotations.
Local Open Scope nat_scope.
Ltac Zify.zify_post_hook ::= idtac.

Section Text.
Variable show : spec_float -> list ascii.
Variable type_text : value -> list ascii.
Variable code_index : list entry.
Variable escape_m : bool.
Notation atom_text := (atom_text show type_text code_index escape_m).
Notation put := (put show type_text code_index escape_m).
Notation put_leaf := (put_leaf show type_text code_index escape_m).
Notation put_pair := (put_pair show type_text code_index escape_m).
Notation put_rows := (put_rows show type_text code_index escape_m).

(** the text of a value at depth [d] *)
Fixpoint items_text (first : bool) (l : list (list ascii)) : list ascii :=
  match l with
  | [] => if first then [] else cs " "
  | t :: l' => (if first then [] else cs ", ") ++ t ++ items_text false l'
  end.
Fixpoint rows_text (d : nat) (first : bool) (l : list (string * list ascii)) : list ascii :=
  match l with
  | [] => if first then cs " " else Cel_Model.LF :: indents (pred d)
  | (k, t) :: l' => (if first then [] else cs ",") ++ (Cel_Model.LF :: indents d) ++ (cs k ++ cs ": ") ++ t ++ rows_text d false l'
  end.
Fixpoint text (d : nat) (v : value) {struct v} : list ascii :=
  match v with
  | VArr l => cs "[ " ++ items_text true (map (text d) l) ++ cs "]"
  | VDict dd => cs "{" ++ rows_text (S d) true (sort_rows (map (fun kw : string * value => let (k, w) := kw in (k, text (S d) w)) dd)) ++ cs "}"
  | v => atom_text false v
  end.

Lemma insert_row_map {A B} (f : A -> B) k a : forall l, insert_row k (f a) (map (fun kw => (fst kw, f (snd kw))) l) = map (fun kw => (fst kw, f (snd kw))) (insert_row k a l).
Proof. induction l as [|[k' a'] l IH]; cbn [insert_row map fst snd]; [reflexivity|]. destruct (str_ltb k' k); cbn [map fst snd]; [now rewrite IH|reflexivity]. Qed.
Lemma sort_rows_map {A B} (f : A -> B) : forall l, sort_rows (map (fun kw => (fst kw, f (snd kw))) l) = map (fun kw => (fst kw, f (snd kw))) (sort_rows l).
Proof. induction l as [|[k a] l IH]; cbn [sort_rows fold_right map fst snd]; [reflexivity|]. fold (sort_rows l). fold (sort_rows (map (fun kw : string * A => (fst kw, f (snd kw))) l)). rewrite IH. apply insert_row_map. Qed.
Lemma insert_row_perm {A} k (a : A) : forall l, Permutation ((k, a) :: l) (insert_row k a l).
Proof. induction l as [|[k' a'] l IH]; cbn [insert_row]; [reflexivity|]. destruct (str_ltb k' k); [|reflexivity]. rewrite perm_swap. now constructor. Qed.
Lemma sort_rows_perm {A} : forall l : list (string * A), Permutation l (sort_rows l).
Proof. induction l as [|[k a] l IH]; cbn [sort_rows fold_right fst snd]; [reflexivity|]. fold (sort_rows l). rewrite <- insert_row_perm. now constructor. Qed.
Lemma pairs_map {A B} (f : A -> B) (l : list (string * A)) : map (fun kw : string * A => let (k, w) := kw in (k, f w)) l = map (fun kw => (fst kw, f (snd kw))) l.
Proof. apply map_ext. now intros []. Qed.

Definition bumped (e : element) : element := mk_element (el_tag e) (el_value e) (S (num_out e)).
(** outside a dictionary *)
Definition item_ctx (e : element) (st : list element) : Prop :=
  tag_eqb (el_tag e) TSeq && match st with e2 :: _ => tag_eqb (el_tag e2) TBag | [] => false end = false.
Definition item_ok (f : fstate -> option fstate) (t : nat -> list ascii) : Prop :=
  forall o d e st, item_ctx e st -> f (mk_fstate o d (e :: st)) = Some (mk_fstate (o ++ (if 0 <? num_out e then cs ", " else []) ++ t d) d (bumped e :: st)).
Definition pair_ok (f : fstate -> option fstate) (t : nat -> list ascii) : Prop :=
  forall o d n x y st, Nat.even n = false -> f (mk_fstate o d (mk_element TSeq x y :: mk_element TBag None n :: st)) = Some (mk_fstate (o ++ t d) d (mk_element TSeq x y :: mk_element TBag None (S n) :: st)).

Lemma atom_begin_item v o d e st : item_ctx e st ->
  atom_begin (push_elem TAtom v (mk_fstate o d (e :: st))) = Some (false, mk_fstate (o ++ if 0 <? num_out e then cs ", " else []) d (mk_element TAtom v 0 :: e :: st)).
Proof.
  intros H. unfold atom_begin, count_place. assert (B : outputting_bag (push_elem TAtom v (mk_fstate o d (e :: st))) = false).
  { unfold outputting_bag, is_tag, tag_at. unfold item_ctx in H. destruct st; exact H. }
  rewrite B. cbn [count_at nth_error fstack push_elem andb negb]. destruct (0 <? num_out e); [reflexivity|]. now rewrite app_nil_r.
Qed.
Lemma atom_end_item o d a e st : item_ctx e st -> atom_end (mk_fstate o d (a :: e :: st)) = Some (mk_fstate o d (bumped e :: st)).
Proof.
  intros H. unfold atom_end, count_place. assert (B : outputting_bag (mk_fstate o d (a :: e :: st)) = false).
  { unfold outputting_bag, is_tag, tag_at. unfold item_ctx in H. destruct st; exact H. }
  rewrite B. reflexivity.
Qed.
Lemma atom_begin_pair v o d n x y st : Nat.even n = false ->
  atom_begin (push_elem TAtom v (mk_fstate o d (mk_element TSeq x y :: mk_element TBag None n :: st))) = Some (false, mk_fstate o d (mk_element TAtom v 0 :: mk_element TSeq x y :: mk_element TBag None n :: st)).
Proof.
  intros H. unfold atom_begin, count_place. cbn [outputting_bag is_tag tag_at nth_error fstack push_elem el_tag tag_eqb andb count_at num_out]. rewrite H.
  destruct n; [discriminate|]. reflexivity.
Qed.
Lemma atom_end_pair o d a n x y st : atom_end (mk_fstate o d (a :: mk_element TSeq x y :: mk_element TBag None n :: st)) = Some (mk_fstate o d (mk_element TSeq x y :: mk_element TBag None (S n) :: st)).
Proof. reflexivity. Qed.

Lemma leaf_ok v : item_ok (put_leaf v) (fun _ => atom_text false v) /\ pair_ok (put_leaf v) (fun _ => atom_text false v).
Proof.
  split.
  - intros o d e st H. unfold Cel_Model.put_leaf. rewrite (atom_begin_item (Some v) o d e st H). unfold emit. cbn [out fdepth fstack].
    rewrite (atom_end_item _ _ _ _ _ H), <- app_assoc. reflexivity.
  - intros o d n x y st H. unfold Cel_Model.put_leaf. rewrite (atom_begin_pair (Some v) o d n x y st H). unfold emit. cbn [out fdepth fstack].
    now rewrite atom_end_pair.
Qed.
(** the key of a pair *)
Lemma key_ok k o d n st : Nat.even n = true ->
  put_leaf (VName k) (mk_fstate o d (mk_element TSeq None 0 :: mk_element TBag None n :: st)) =
  Some (mk_fstate (o ++ (if 0 <? n then cs "," else []) ++ (Cel_Model.LF :: indents d) ++ cs k ++ cs ": ") d (mk_element TSeq None 0 :: mk_element TBag None (S n) :: st)).
Proof.
  intros H. unfold Cel_Model.put_leaf, atom_begin, count_place. cbn [outputting_bag is_tag tag_at nth_error fstack push_elem el_tag tag_eqb andb count_at num_out]. rewrite H.
  unfold emit. cbn [negb out fdepth fstack push_elem]. destruct (0 <? n); cbn [out fdepth fstack]; rewrite atom_end_pair; cbn [Cel_Model.atom_text app]; rewrite <- !app_assoc; reflexivity.
Qed.
Fixpoint joined (more : bool) (l : list (list ascii)) : list ascii :=
  match l with [] => [] | t :: l' => (if more then cs ", " else []) ++ t ++ joined true l' end.
Fixpoint rows_joined (d : nat) (more : bool) (l : list (string * list ascii)) : list ascii :=
  match l with
  | [] => []
  | (k, t) :: l' => (if more then cs "," else []) ++ (Cel_Model.LF :: indents d) ++ (cs k ++ cs ": ") ++ t ++ rows_joined d true l'
  end.
Lemma items_joined : forall l n, joined (0 <? n) l ++ (if 0 <? n + length l then cs " " else []) = items_text (negb (0 <? n)) l.
Proof.
  induction l as [|t l IH]; intros n; cbn [joined items_text length].
  - rewrite Nat.add_0_r. now destruct (0 <? n).
  - rewrite <- !app_assoc. f_equal; [now destruct (0 <? n)|]. f_equal. replace (n + S (length l)) with (S n + length l) by lia.
    exact (IH (S n)).
Qed.
Lemma rows_texted d : forall l n, rows_joined (S d) (0 <? n) l ++ (if 0 <? n + 2 * length l then Cel_Model.LF :: indents d else cs " ") = rows_text (S d) (negb (0 <? n)) l.
Proof.
  induction l as [|[k t] l IH]; intros n; cbn [rows_joined rows_text length].
  - rewrite Nat.add_0_r. now destruct (0 <? n).
  - rewrite <- !app_assoc. f_equal; [now destruct (0 <? n)|]. f_equal. f_equal. f_equal. replace (n + 2 * S (length l)) with (S n + 1 + 2 * length l) by lia.
    f_equal. exact (IH (S n + 1)).
Qed.
Lemma items_ok d a st : el_tag a <> TBag -> forall l n o, Forall (fun v => item_ok (put v) (fun d => text d v)) l ->
  put_items put l (mk_fstate o d (mk_element TSeq None n :: a :: st)) =
  Some (mk_fstate (o ++ joined (0 <? n) (map (text d) l)) d (mk_element TSeq None (n + length l) :: a :: st)).
Proof.
  intros Ha. assert (C : forall n, item_ctx (mk_element TSeq None n) (a :: st)).
  { intros n. unfold item_ctx. cbn [el_tag tag_eqb andb]. destruct (el_tag a); try reflexivity. congruence. }
  induction l as [|v l IH]; intros n o H; cbn [put_items map joined length].
  - rewrite app_nil_r, Nat.add_0_r. reflexivity.
  - inversion H as [|? ? Hv Hl]; subst. rewrite (Hv o d _ _ (C n)). unfold bumped. cbn [el_tag el_value num_out].
    rewrite (IH (S n) _ Hl). replace (n + S (length l)) with (S n + length l) by lia. rewrite <- !app_assoc. reflexivity.
Qed.
Lemma rows_ok d st : forall (l : list (string * value)) n o, Nat.even n = true -> Forall (fun kv => pair_ok (put (snd kv)) (fun d => text d (snd kv))) l ->
  put_rows (map (fun kw => (fst kw, put (snd kw))) l) (mk_fstate o d (mk_element TBag None n :: st)) =
  Some (mk_fstate (o ++ rows_joined d (0 <? n) (map (fun kw => (fst kw, text d (snd kw))) l)) d (mk_element TBag None (n + 2 * length l) :: st)).
Proof.
  induction l as [|[k v] l IH]; intros n o Hn H; cbn [Cel_Model.put_rows map rows_joined length fst snd].
  - rewrite app_nil_r. replace (n + 2 * 0) with n by lia. reflexivity.
  - inversion H as [|? ? Hv Hl]; subst. cbn [snd] in Hv. unfold Cel_Model.put_pair. change (begin_sequence (mk_fstate o d (mk_element TBag None n :: st))) with (mk_fstate o d (mk_element TSeq None 0 :: mk_element TBag None n :: st)).
    rewrite (key_ok k o d n st Hn). assert (Ho : Nat.even (S n) = false) by (rewrite Nat.even_succ, <- Nat.negb_even, Hn; reflexivity).
    rewrite (Hv _ d (S n) None 0 st Ho). cbn [end_sequence fstack is_tag tag_at nth_error el_tag tag_eqb out fdepth].
    change (is_tag TBag 1 _) with true. cbn iota. rewrite app_nil_r. rewrite (IH (S (S n)) _); [|now rewrite !Nat.even_succ, <- Nat.negb_even, Nat.even_succ, <- Nat.negb_even, Hn|exact Hl].
    replace (n + 2 * S (length l)) with (S (S n) + 2 * length l) by lia. rewrite <- !app_assoc. reflexivity.
Qed.
Lemma go_map (dd : list (string * value)) :
  (fix go (d : list (string * value)) : list (string * (fstate -> option fstate)) := match d with [] => [] | (k, w) :: d' => (k, put w) :: go d' end) dd =
  map (fun kw => (fst kw, put (snd kw))) dd.
Proof. induction dd as [|[k w] dd IH]; cbn [map fst snd]; [reflexivity|]. now rewrite IH. Qed.
Lemma seq_ok o d v st l : Forall (fun v => item_ok (put v) (fun d => text d v)) l ->
  exists s2, put_items put l (begin_sequence (mk_fstate o d (mk_element TAtom v 0 :: st))) = Some s2 /\
    end_sequence s2 = Some (mk_fstate (o ++ text d (VArr l)) d (mk_element TAtom v 0 :: st)).
Proof.
  intros H. change (begin_sequence _) with (mk_fstate (o ++ cs "[ ") d (mk_element TSeq None 0 :: mk_element TAtom v 0 :: st)).
  assert (Ha : el_tag (mk_element TAtom v 0) <> TBag) by discriminate.
  eexists. split; [exact (items_ok d (mk_element TAtom v 0) st Ha l 0 (o ++ cs "[ ") H)|].
  unfold end_sequence. cbn [fstack out fdepth num_out]. change (is_tag TBag 1 _) with false. cbn iota.
  f_equal. f_equal. cbn [text]. change true with (negb (0 <? 0)). rewrite <- (items_joined (map (text d) l) 0), map_length, <- !app_assoc. reflexivity.
Qed.
Lemma bag_ok o d v st dd : Forall (fun kv => pair_ok (put (snd kv)) (fun d => text d (snd kv))) dd ->
  exists s2, put_rows (sort_rows (map (fun kw => (fst kw, put (snd kw))) dd)) (begin_bag (mk_fstate o d (mk_element TAtom v 0 :: st))) = Some s2 /\
    end_bag s2 = Some (mk_fstate (o ++ text d (VDict dd)) d (mk_element TAtom v 0 :: st)).
Proof.
  intros H. change (begin_bag _) with (mk_fstate (o ++ cs "{") (S d) (mk_element TBag None 0 :: mk_element TAtom v 0 :: st)).
  assert (H' := Permutation_Forall (sort_rows_perm dd) H). rewrite (sort_rows_map put).
  eexists. split; [exact (rows_ok (S d) (mk_element TAtom v 0 :: st) (sort_rows dd) 0 (o ++ cs "{") eq_refl H')|].
  unfold end_bag. cbn [fstack out fdepth num_out pred]. f_equal. f_equal. cbn [text]. rewrite pairs_map, (sort_rows_map (text (S d))).
  change true with (negb (0 <? 0)). rewrite <- (rows_texted d (map (fun kw => (fst kw, text (S d) (snd kw))) (sort_rows dd)) 0), map_length, <- !app_assoc. reflexivity.
Qed.
Theorem put_text v : item_ok (put v) (fun d => text d v) /\ pair_ok (put v) (fun d => text d v).
Proof.
  induction v as [f|b|s|n| |l IH|dd IH|n|k] using value_ind'; try exact (leaf_ok _).
  - assert (IH1 : Forall (fun v => item_ok (put v) (fun d => text d v)) l) by (eapply Forall_impl; [|exact IH]; intros ? []; assumption).
    split.
    + intros o d e st H. cbn [Cel_Model.put]. rewrite (atom_begin_item (Some (VArr l)) o d e st H).
      destruct (seq_ok (o ++ if 0 <? num_out e then cs ", " else []) d (Some (VArr l)) (e :: st) l IH1) as (s2 & -> & ->).
      rewrite (atom_end_item _ _ _ _ _ H), <- !app_assoc. reflexivity.
    + intros o d n x y st H. cbn [Cel_Model.put]. rewrite (atom_begin_pair (Some (VArr l)) o d n x y st H).
      destruct (seq_ok o d (Some (VArr l)) (mk_element TSeq x y :: mk_element TBag None n :: st) l IH1) as (s2 & -> & ->). now rewrite atom_end_pair.
  - assert (IH1 : Forall (fun kv => pair_ok (put (snd kv)) (fun d => text d (snd kv))) dd) by (eapply Forall_impl; [|exact IH]; intros ? []; assumption).
    split.
    + intros o d e st H. cbn [Cel_Model.put]. rewrite (atom_begin_item (Some (VDict dd)) o d e st H). rewrite go_map.
      destruct (bag_ok (o ++ if 0 <? num_out e then cs ", " else []) d (Some (VDict dd)) (e :: st) dd IH1) as (s2 & -> & ->).
      rewrite (atom_end_item _ _ _ _ _ H), <- !app_assoc. reflexivity.
    + intros o d n x y st H. cbn [Cel_Model.put]. rewrite (atom_begin_pair (Some (VDict dd)) o d n x y st H). rewrite go_map.
      destruct (bag_ok o d (Some (VDict dd)) (mk_element TSeq x y :: mk_element TBag None n :: st) dd IH1) as (s2 & -> & ->). now rewrite atom_end_pair.
Qed.
Theorem serialize_text v : serialize show type_text code_index escape_m v = Some (text 0 v).
Proof. unfold serialize, begin_asl_cel. rewrite (proj1 (put_text v) [] 0 (mk_element TFormat None 0) [] eq_refl). reflexivity. Qed.
End Text.
