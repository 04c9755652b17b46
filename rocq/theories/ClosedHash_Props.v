(** C12, C13: closed_hash_set and closed_hash_map are finite sets and maps. *)
From Coq Require Import Permutation.
From Verif Require Import Prelude ClosedHash_Model ClosedHash_Spec ClosedHash_Proofs ClosedHash_Inv ClosedHash_Ops ClosedHash_Top.
Local Open Scope nat_scope.
Ltac Zify.zify_post_hook ::= idtac.

Section Run.
Context {V K : Type} (key : V -> K) (hash : K -> nat) (key_eq : K -> K -> bool) (make : K -> V).

(** One call on the model. A copy replaces the set by its copy. *)
Definition step (s : @hset V) (o : op V K) : option (@hset V * answer V) :=
  match o with
  | Insert x => r <- insert key hash key_eq s x ;; Some (fst r, Inserted (deref (fst r) (fst (snd r))) (snd (snd r)))
  | InsertRange l => s <- insert_range key hash key_eq s l ;; Some (s, Done)
  | Erase k => r <- erase key hash key_eq s k ;; Some (fst r, Erased (snd r))
  | Clear => s <- clear s ;; Some (s, Done)
  | Reserve n => s <- reserve key hash key_eq s n ;; Some (s, Done)
  | Copy => s <- copy key hash key_eq s ;; Some (s, Done)
  | Index k => r <- index key hash key_eq make s k ;; Some (fst r, Referred (deref (fst r) (snd r)))
  end.
Fixpoint run (s : @hset V) (h : list (op V K)) : option (@hset V * list (answer V)) :=
  match h with
  | [] => Some (s, [])
  | o :: h => r <- step s o ;; q <- run (fst r) h ;; Some (fst q, snd r :: snd q)
  end.

(** What can be observed of the set [s] is what the finite set [l] has. *)
Record shows (s : @hset V) (l : list V) : Prop := {
  shows_size : size_of s = length l;
  shows_empty : empty s = match l with [] => true | _ => false end;
  shows_elements : exists es, elements s = Some es /\ elements_back s = Some (rev es) /\ Permutation es l;
  shows_find : forall k, exists r, find key hash key_eq s k = Some r /\
    match r with None => lookup key key_eq k l = None
               | Some r => exists v, deref s r = Some v /\ lookup key key_eq k l = Some v end;
  shows_count : forall k, count key hash key_eq s k = Some (if is_none (lookup key key_eq k l) then 0 else 1);
  (** destruction destroys each live value once and leaves none *)
  shows_destructor : exists s', destructor s = Some s' /\ forall i, i < capacity_of s -> deref s' (Slot i) = None }.
End Run.

Section Theorems.
Context {V K : Type} (key : V -> K) (hash : K -> nat) (key_eq : K -> K -> bool) (make : K -> V).
Notation SRep := (SRep key hash).

Lemma srep_shows s vs l : hash_requirements key_eq hash -> SRep s vs -> distinct key key_eq vs -> Permutation vs l ->
  shows key hash key_eq s l.
Proof.
  intros req R D P. pose proof (Permutation_length P) as Hl. pose proof (srep_size key hash key_eq req s vs R) as Hs. constructor.
  - congruence.
  - unfold empty. rewrite Hs, Hl. destruct l; reflexivity.
  - exists vs. rewrite (srep_elements key hash key_eq req s vs R), (srep_elements_back key hash key_eq req s vs R). auto.
  - intros k. destruct (find_rep key hash key_eq req s vs k R) as (r & E & H). exists r. split; [exact E|].
    rewrite <- (lookup_perm key hash key_eq req k vs l P D). destruct r as [r|]; [|exact H].
    destruct H as [H1 H2]. destruct (lookup key key_eq k vs) as [v|]; [|congruence]. exists v. auto.
  - intros k. rewrite <- (lookup_perm key hash key_eq req k vs l P D). apply (count_rep key hash key_eq req s vs k R).
  - apply (destructor_rep key hash key_eq req s vs R).
Qed.

Lemma step_ok (req : hash_requirements key_eq hash) (make_key : forall k, key (make k) = k) s vs l o :
  SRep s vs -> distinct key key_eq vs -> Permutation vs l ->
  (N.of_nat (length l + cost o) <= 1437356748)%N -> match o with Reserve n => (N.of_nat n <= 2874713497)%N | _ => True end ->
  exists s' vs', step key hash key_eq make s o = Some (s', snd (spec_step key key_eq make l o)) /\
    SRep s' vs' /\ distinct key key_eq vs' /\ Permutation vs' (fst (spec_step key key_eq make l o)) /\
    length (fst (spec_step key key_eq make l o)) <= length l + cost o.
Proof.
  intros R D P Hl Hr. pose proof (Permutation_length P) as HL.
  assert (Dl : distinct key key_eq l) by (eapply distinct_perm; eassumption).
  destruct o as [x|xs|k| |n| |k]; cbn [step spec_step cost fst snd] in *.
  - destruct (insert_rep key hash key_eq req s vs x R D) as (s' & r & b & vs' & H1 & H2 & H3 & H4 & H5); [lia|].
    exists s', vs'. rewrite H1. cbn [fst snd]. rewrite H4, H5, (lookup_perm key hash key_eq req _ vs l P D).
    split; [reflexivity|]. split; [exact H2|]. split; [|split].
    + eapply distinct_perm; [exact req|symmetry; exact H3|]. apply (put_distinct key hash key_eq req); auto.
    + rewrite H3. apply (put_perm key hash key_eq req); auto.
    + pose proof (put_length key hash key_eq req x l). lia.
  - destruct (insert_range_rep key hash key_eq req xs s vs R D) as (s' & vs' & H1 & H2 & H3); [lia|].
    exists s', vs'. rewrite H1. split; [reflexivity|]. split; [exact H2|]. split; [|split].
    + eapply distinct_perm; [exact req|symmetry; exact H3|]. clear - D req. revert vs D. induction xs as [|x xs IH]; intros vs D; cbn; [exact D|].
      apply IH. apply (put_distinct key hash key_eq req); auto.
    + rewrite H3. apply (fold_put_perm key hash key_eq req); auto.
    + clear -req. revert l. induction xs as [|x xs IH]; intros l; cbn [fold_left length]; [lia|].
      specialize (IH (put key key_eq x l)). pose proof (put_length key hash key_eq req x l). lia.
  - destruct (erase_rep key hash key_eq req s vs k R D) as (s' & H1 & H2).
    exists s', (remove key key_eq k vs). rewrite H1. cbn [fst snd]. rewrite (lookup_perm key hash key_eq req _ vs l P D).
    split; [reflexivity|]. split; [exact H2|]. split; [|split].
    + apply (remove_distinct key hash key_eq req). exact D.
    + apply perm_filter, P.
    + pose proof (remove_length key hash key_eq req k l). lia.
  - destruct (clear_rep key hash key_eq req s vs R) as (s' & H1 & H2 & _). exists s', []. rewrite H1. repeat split; auto. cbn. lia.
  - destruct (reserve_rep key hash key_eq req s vs n R D Hr) as (s' & vs' & H1 & H2 & H3 & _). exists s', vs'. rewrite H1.
    split; [reflexivity|]. split; [exact H2|]. split; [|split; [rewrite H3; exact P|lia]].
    eapply distinct_perm; [exact req|symmetry; exact H3|exact D].
  - destruct (copy_rep key hash key_eq req s vs R D) as (s' & vs' & H1 & H2 & H3); [unfold limit; lia|]. exists s', vs'. rewrite H1.
    split; [reflexivity|]. split; [exact H2|]. split; [|split; [rewrite H3; exact P|lia]].
    eapply distinct_perm; [exact req|symmetry; exact H3|exact D].
  - unfold index. destruct (find_rep key hash key_eq req s vs k R) as (r & E & H). rewrite E.
    rewrite (lookup_perm key hash key_eq req _ vs l P D) in H. destruct r as [r|].
    + destruct H as [H1 H2]. exists s, vs. cbn [fst snd]. rewrite H1. destruct (lookup key key_eq k l) as [v|]; [|congruence].
      cbn [fst snd]. repeat split; auto. lia.
    + rewrite H. destruct (insert_rep key hash key_eq req s vs (make k) R D) as (s' & r & b & vs' & H1 & H2 & H3 & H4 & H5); [lia|].
      rewrite H1. exists s', vs'. cbn [fst snd]. rewrite H4.
      assert (E' : lookup key key_eq (key (make k)) vs = None) by (rewrite make_key, (lookup_perm key hash key_eq req _ vs l P D); exact H).
      unfold put in H3. rewrite E' in H3. cbn [is_none] in H3.
      split; [reflexivity|]. split; [exact H2|]. split; [|split].
      * eapply distinct_perm; [exact req|symmetry; exact H3|]. cbn. split; [|exact D]. intros b' Hb. apply (proj1 (lookup_none key hash key_eq req _ _) E' b' Hb).
      * rewrite H3. constructor. exact P.
      * cbn [length]. lia.
Qed.

Lemma run_ok (req : hash_requirements key_eq hash) (make_key : forall k, key (make k) = k) h : forall s vs l,
  SRep s vs -> distinct key key_eq vs -> Permutation vs l ->
  (N.of_nat (length l + total_cost h) <= 1437356748)%N ->
  Forall (fun o : op V K => match o with Reserve n => (N.of_nat n <= 2874713497)%N | _ => True end) h ->
  exists s' vs', run key hash key_eq make s h = Some (s', snd (spec_run key key_eq make l h)) /\
    SRep s' vs' /\ distinct key key_eq vs' /\ Permutation vs' (fst (spec_run key key_eq make l h)).
Proof.
  induction h as [|o h IH]; intros s vs l R D P Hl Hf.
  - exists s, vs. cbn. auto.
  - change (total_cost (o :: h)) with (cost o + total_cost h) in Hl. inversion Hf as [|? ? Ho Hf']; subst.
    destruct (step_ok req make_key s vs l o R D P) as (s1 & vs1 & H1 & H2 & H3 & H4 & H5); [lia|exact Ho|].
    cbn [run spec_run]. rewrite H1. destruct (spec_step key key_eq make l o) as [l1 a]. cbn [fst snd] in *.
    destruct (IH s1 vs1 l1 H2 H3 H4) as (s' & vs' & K1 & K2 & K3 & K4); [lia|exact Hf'|].
    rewrite K1. destruct (spec_run key key_eq make l1 h) as [l2 b]. cbn [fst snd] in *. exists s', vs'. auto.
Qed.

(** C12. Every history of insertions, erasures, clear, reserve, operator[] and copies, starting from
    an empty container, with any hash function: no call fails, every answer is that of the finite
    set, and afterwards size, iteration in both directions, find, count and destruction agree with it.
    [make] is the value operator[] inserts. *)
Theorem C12_closed_hash_is_a_finite_set :
  hash_requirements key_eq hash -> (forall k, key (make k) = k) ->
  forall h : list (op V K), fits h ->
  exists s, run key hash key_eq make None h = Some (s, snd (spec_run key key_eq make [] h)) /\
            shows key hash key_eq s (fst (spec_run key key_eq make [] h)).
Proof.
  intros req make_key h [Hc Hf]. destruct (run_ok req make_key h None [] [] eq_refl I (Permutation_refl _) Hc Hf) as (s & vs & H1 & H2 & H3 & H4).
  exists s. split; [exact H1|]. apply (srep_shows s vs); auto.
Qed.

(** C12. operator==: equal exactly when the sizes agree and every value of the one has an equal value
    under its key in the other. *)
Theorem C12_equality : forall value_eq,
  hash_requirements key_eq hash -> (forall k, key (make k) = k) ->
  forall h1 h2, fits h1 -> fits h2 ->
  exists s1 a1 s2 a2 b,
    run key hash key_eq make None h1 = Some (s1, a1) /\ run key hash key_eq make None h2 = Some (s2, a2) /\
    equal key hash key_eq value_eq s1 s2 = Some b /\
    let l1 := fst (spec_run key key_eq make [] h1) in let l2 := fst (spec_run key key_eq make [] h2) in
    (b = true <-> length l1 = length l2 /\
      forall v, In v l1 -> exists w, lookup key key_eq (key v) l2 = Some w /\ value_eq v w = true).
Proof.
  intros value_eq req make_key h1 h2 [Hc1 Hf1] [Hc2 Hf2].
  destruct (run_ok req make_key h1 None [] [] eq_refl I (Permutation_refl _) Hc1 Hf1) as (s1 & vs1 & A1 & A2 & A3 & A4).
  destruct (run_ok req make_key h2 None [] [] eq_refl I (Permutation_refl _) Hc2 Hf2) as (s2 & vs2 & B1 & B2 & B3 & B4).
  exists s1, (snd (spec_run key key_eq make [] h1)), s2, (snd (spec_run key key_eq make [] h2)).
  unfold equal. rewrite (srep_size key hash key_eq req _ _ A2), (srep_size key hash key_eq req _ _ B2), (Permutation_length A4), (Permutation_length B4).
  rewrite (srep_elements key hash key_eq req _ _ A2), (all_in_rep key hash key_eq req value_eq vs1 s2 vs2 B2).
  set (l1 := fst (spec_run key key_eq make [] h1)) in *. set (l2 := fst (spec_run key key_eq make [] h2)) in *.
  destruct (Nat.eqb_spec (length l1) (length l2)) as [E|E]; cbn [negb].
  - eexists. repeat split; auto; cbn zeta.
    + intros v Hv. rewrite forallb_forall in H. specialize (H v). cbv beta in H.
      rewrite (lookup_perm key hash key_eq req _ vs2 l2 B4 B3) in H. destruct (lookup key key_eq (key v) l2) as [w|].
      * exists w. split; [reflexivity|]. apply H. apply (Permutation_in _ (Permutation_sym A4) Hv).
      * discriminate (H (Permutation_in _ (Permutation_sym A4) Hv)).
    + intros [_ H]. apply forallb_forall. intros v Hv. destruct (H v (Permutation_in _ A4 Hv)) as (w & Hw & Hvw).
      rewrite (lookup_perm key hash key_eq req _ vs2 l2 B4 B3), Hw. exact Hvw.
  - exists false. repeat split; auto; [discriminate|discriminate|]. cbn zeta. intros [H _]. contradiction.
Qed.

(** C13. After any history: no two stored values have equal keys; inserting a key already present
    keeps the size and every other value, replaces the stored one, and returns false; a new key adds
    one value; erase removes one value at most, the one with that key. *)
Theorem C13_one_entry_per_key :
  hash_requirements key_eq hash -> (forall k, key (make k) = k) ->
  forall h, fits h -> (N.of_nat (total_cost h) < 1437356748)%N ->
  exists s a es, run key hash key_eq make None h = Some (s, a) /\ elements s = Some es /\ distinct key key_eq es /\
    (forall x, exists s' r new es', insert key hash key_eq s x = Some (s', (r, new)) /\ elements s' = Some es' /\
       deref s' r = Some x /\
       match lookup key key_eq (key x) es with
       | Some old => new = false /\ exists e1 e2, Permutation es (old :: e1 ++ e2) /\ Permutation es' (x :: e1 ++ e2)
       | None => new = true /\ Permutation es' (x :: es)
       end) /\
    (forall k, exists s' n es', erase key hash key_eq s k = Some (s', n) /\ elements s' = Some es' /\
       match lookup key key_eq k es with
       | Some old => n = 1 /\ exists e1 e2, es = e1 ++ old :: e2 /\ es' = e1 ++ e2
       | None => n = 0 /\ es' = es
       end).
Proof.
  intros req make_key h [Hc Hf] Hlt.
  destruct (run_ok req make_key h None [] [] eq_refl I (Permutation_refl _) Hc Hf) as (s & vs & A1 & A2 & A3 & A4).
  assert (HL : length vs <= total_cost h).
  { rewrite (Permutation_length A4). clear -req. change (total_cost h) with (length (@nil V) + total_cost h).
    generalize (@nil V) as l. induction h as [|o h IH]; intros l; cbn [spec_run]; [cbn; lia|].
    destruct (spec_step key key_eq make l o) as [l1 a] eqn:E. specialize (IH l1). destruct (spec_run key key_eq make l1 h) as [l2 b].
    cbn [fst] in *. change (total_cost (o :: h)) with (cost o + total_cost h).
    assert (length l1 <= length l + cost o); [|lia]. clear IH.
    destruct o as [x|xs|k| |n| |k]; cbn [spec_step cost] in *.
    - injection E as <- _. pose proof (put_length key hash key_eq req x l). lia.
    - injection E as <- _. clear -req. revert l. induction xs as [|x xs IH]; intros l; cbn [fold_left length]; [lia|].
      specialize (IH (put key key_eq x l)). pose proof (put_length key hash key_eq req x l). lia.
    - injection E as <- _. pose proof (remove_length key hash key_eq req k l). lia.
    - injection E as <- _. cbn. lia.
    - injection E as <- _. lia.
    - injection E as <- _. lia.
    - destruct (lookup key key_eq k l); injection E as <- _; cbn; lia. }
  exists s, (snd (spec_run key key_eq make [] h)), vs. split; [exact A1|]. split; [apply (srep_elements key hash key_eq req), A2|]. split; [exact A3|]. split.
  - intros x. destruct (insert_rep key hash key_eq req s vs x A2 A3) as (s' & r & b & vs' & H1 & H2 & H3 & H4 & H5); [lia|].
    exists s', r, b, vs'. split; [exact H1|]. split; [apply (srep_elements key hash key_eq req), H2|]. split; [exact H4|].
    unfold put in H3. destruct (lookup key key_eq (key x) vs) as [old|] eqn:El; cbn [is_none] in *; [|auto].
    split; [exact H5|]. apply list_find_split in El as (e1 & e2 & -> & Hk & He1). exists e1, e2.
    split; [symmetry; apply Permutation_middle|]. rewrite H3, map_app. cbn [map]. rewrite Hk.
    rewrite !map_id_in; [symmetry; apply Permutation_middle| |].
    + intros w Hw. apply (distinct_app key hash key_eq req) in A3 as (_ & [D _] & _). rewrite (key_eq_left key hash key_eq req _ _ _ Hk), (D w Hw). reflexivity.
    + intros w Hw. rewrite (He1 w Hw). reflexivity.
  - intros k. destruct (erase_rep key hash key_eq req s vs k A2 A3) as (s' & H1 & H2).
    exists s', (if is_none (lookup key key_eq k vs) then 0 else 1), (remove key key_eq k vs). split; [exact H1|].
    split; [apply (srep_elements key hash key_eq req), H2|]. destruct (lookup key key_eq k vs) as [old|] eqn:El; cbn [is_none].
    + split; [reflexivity|]. apply list_find_split in El as (e1 & e2 & -> & Hk & He1). exists e1, e2. split; [reflexivity|].
      apply (remove_split key hash key_eq req); auto.
    + split; [reflexivity|]. apply (remove_none key hash key_eq req). exact El.
Qed.

(** C13. Erasing through an iterator while walking the set: the element at the iterator goes, all
    others keep their order, and the iterator returned is at the element that came next. *)
Theorem C13_erase_at_iterator :
  hash_requirements key_eq hash -> (forall k, key (make k) = k) ->
  forall h, fits h ->
  exists s a es, run key hash key_eq make None h = Some (s, a) /\ elements s = Some es /\
    forall t e1 v e2, s = Some t -> es = e1 ++ v :: e2 -> exists r, deref s r = Some v /\
      find key hash key_eq s (key v) = Some (Some r) /\
      exists t' res, erase_at t r = Some (t', res) /\ elements (Some t') = Some (e1 ++ e2) /\
        match e2 with [] => res = UsedTail | w :: _ => val t' res = Some w end.
Proof.
  intros req make_key h [Hc Hf].
  destruct (run_ok req make_key h None [] [] eq_refl I (Permutation_refl _) Hc Hf) as (s & vs & A1 & A2 & A3 & A4).
  exists s, (snd (spec_run key key_eq make [] h)), vs. split; [exact A1|]. split; [apply (srep_elements key hash key_eq req), A2|].
  intros t e1 v e2 -> ->. destruct A2 as (gs & free & Hi & M).
  rewrite map_app in M. apply map_eq_app in M as (l1 & l2 & El & M1 & M2). cbn [map] in M2. apply map_eq_cons in M2 as (r & l2' & -> & Mr & M2).
  exists r. split; [exact Mr|]. split.
  - unfold find. rewrite (find_node_spec key hash key_eq (req_hash _ _ req) t gs free (key v) Hi).
    assert (E : List.find (matches key key_eq t (key v)) (flat gs) = Some r).
    { rewrite El, list_find_app. rewrite list_find_none.
      - cbn. unfold matches. rewrite Mr, (req_refl _ _ req). reflexivity.
      - intros x Hx. unfold matches. assert (Hx' : In (val t x) (map (val t) l1)) by (apply in_map, Hx).
        rewrite M1 in Hx'. apply in_map_iff in Hx' as (w & Hw & Hin). rewrite <- Hw.
        apply (distinct_app key hash key_eq req) in A3 as (_ & _ & D). rewrite (req_sym _ _ req). apply D; [exact Hin|now left]. }
    rewrite E. rewrite ref_eqb_neq; [reflexivity|].
    apply (inv_notail _ _ _ _ _ r Hi), in_app_iff. left. rewrite El, in_app_iff. right. now left.
  - destruct (erase_at_spec key hash t gs free l1 r l2' e1 v e2 Hi El M1 Mr M2) as (t' & res & gs' & free' & l3 & H1 & H2 & H3 & H4 & H5 & H6 & _).
    exists t', res. split; [exact H1|]. split.
    + apply (elements_rep key hash key_eq req). exists gs', free'. split; [exact H2|]. rewrite H3, !map_app, H4, H5. reflexivity.
    + subst res. destruct l3 as [|x l3], e2 as [|w e2]; cbn [map] in H5; try discriminate; cbn [hd]; [reflexivity|].
      now injection H5.
Qed.
End Theorems.

(** Non-vacuity: four keys colliding in a table of capacity 3 and 7, replaced and erased. *)
Definition ex_hash (k : nat) : nat := match k with 1 => 1 | _ => 0 end.
Definition ex_history : list (op (nat * nat) nat) :=
  [Insert (0, 10); Insert (3, 13); Insert (1, 11); Insert (6, 16); Insert (3, 23); Erase 0; Index 9; Copy; Reserve 20; Erase 5].
Lemma ex_requirements : hash_requirements Nat.eqb ex_hash.
Proof.
  constructor; intros.
  - apply Nat.eqb_refl.
  - apply Nat.eqb_sym.
  - apply Nat.eqb_eq in H, H0. apply Nat.eqb_eq. congruence.
  - apply Nat.eqb_eq in H. congruence.
Qed.
Example ex_fits : fits ex_history.
Proof. split; [vm_compute; discriminate|]. repeat constructor. vm_compute. discriminate. Qed.
Example ex_run : match run fst ex_hash Nat.eqb (fun k => (k, 0)) None ex_history with
  | Some (s, a) => elements s = Some [(6, 16); (9, 0); (3, 23); (1, 11)] /\
                   nth 4 a Done = Inserted (Some (3, 23)) false /\ nth 5 a Done = Erased 1 /\ nth 6 a Done = Referred (Some (9, 0))
  | None => False end.
Proof. vm_compute. auto. Qed.

Print Assumptions C12_closed_hash_is_a_finite_set.
Print Assumptions C12_equality.
Print Assumptions C13_one_entry_per_key.
Print Assumptions C13_erase_at_iterator.
