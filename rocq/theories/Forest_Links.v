(** The links of the node store: chains, rings, and what iterators do on them. *)
From Verif Require Import Prelude Forest_Model Forest_Spec Forest_Words.
Ltac Zify.zify_post_hook ::= idtac.

Section Links.
Context {T : Type}.
Notation store := (store (T := T)).

Definition nx (h : store) (i : iter) : option nat := option_map (fun x => get_next x (snd i)) (get h (fst i)).
Definition px (h : store) (i : iter) : option nat := option_map (fun x => get_prior x (snd i)) (get h (fst i)).
Definition dat (h : store) (n : nat) : option (option T) := option_map (@data T) (get h n).

Definition linked (h : store) (a b : iter) : Prop := nx h a = Some (fst b) /\ px h b = Some (fst a).

Fixpoint chain (h : store) (a : iter) (w : word) : Prop :=
  match w with [] => True | b :: rest => linked h a b /\ chain h b rest end.

Definition ring (h : store) (r : nat) (w : word) : Prop := chain h (trail r) (circle (r, w)).

(** ** Iterators in terms of the links *)
Lemma increment_lead h n : increment h (n, true) =
  match nx h (n, true) with Some y => Some (y, negb (y =? n)) | None => None end.
Proof. unfold increment, nx; cbn [fst snd]. destruct (get h n); reflexivity. Qed.
Lemma increment_trail h n : increment h (n, false) =
  match nx h (n, false) with
  | Some y => match px h (y, true) with Some z => Some (y, z =? n) | None => None end
  | None => None end.
Proof.
  unfold increment, nx, px; cbn [fst snd]. destruct (get h n) as [x|]; [|reflexivity].
  cbn [option_map]. destruct (get h (get_next x false)); reflexivity.
Qed.
Lemma decrement_lead h n : decrement h (n, true) =
  match px h (n, true) with
  | Some y => match nx h (y, false) with Some z => Some (y, negb (z =? n)) | None => None end
  | None => None end.
Proof.
  unfold decrement, nx, px; cbn [fst snd]. destruct (get h n) as [x|]; [|reflexivity].
  cbn [option_map]. destruct (get h (get_prior x true)); reflexivity.
Qed.
Lemma decrement_trail h n : decrement h (n, false) =
  match px h (n, false) with Some y => Some (y, y =? n) | None => None end.
Proof. unfold decrement, px; cbn [fst snd]. destruct (get h n); reflexivity. Qed.

Lemma deref_dat h i : deref h i = match dat h (fst i) with Some v => v | None => None end.
Proof. unfold deref, dat. destruct (get h (fst i)); reflexivity. Qed.

(** ** set_next *)
Lemma get_lt (h : store) n x : get h n = Some x -> n < length h.
Proof.
  unfold get. destruct (nth_error h n) as [o|] eqn:E; [|discriminate]. intros _.
  apply nth_error_Some. congruence.
Qed.
Lemma get_upd (h : store) n x m : n < length h ->
  get (upd h n x) m = if n =? m then x else get h m.
Proof.
  intros H. unfold get. rewrite nth_error_upd. destruct (Nat.eqb_spec n m) as [->|]; [|reflexivity].
  apply Nat.ltb_lt in H. rewrite H. destruct x; reflexivity.
Qed.

Lemma dat_get h n : dat h n <> None <-> exists x, get h n = Some x.
Proof. unfold dat. destruct (get h n); cbn; split; [eauto|congruence|congruence|intros (? & ?); discriminate]. Qed.
Lemma dat_lt h n : dat h n <> None -> n < length h.
Proof. intros H. apply dat_get in H. destruct H as (x & H). exact (get_lt _ _ _ H). Qed.

Record set_next_spec (h : store) (a b : iter) (h' : store) : Prop := {
  sn_eq : set_next h a b = Some h';
  sn_len : length h' = length h;
  sn_dat : forall n, dat h' n = dat h n;
  sn_nx : forall i, nx h' i = if iter_eqb i a then Some (fst b) else nx h i;
  sn_px : forall i, px h' i = if iter_eqb i b then Some (fst a) else px h i }.

Lemma set_next_ok h a b : dat h (fst a) <> None -> dat h (fst b) <> None ->
  exists h', set_next_spec h a b h'.
Proof.
  intros Ha Hb. apply dat_get in Ha, Hb. destruct Ha as (xa & Ga), Hb as (xb & Gb).
  destruct a as [na ea], b as [nb eb]. cbn [fst snd] in *.
  pose proof (get_lt _ _ _ Ga) as La. pose proof (get_lt _ _ _ Gb) as Lb.
  set (h1 := upd h na (Some (put_next xa ea nb))).
  set (xb1 := if na =? nb then put_next xa ea nb else xb).
  assert (G1 : get h1 nb = Some xb1).
  { unfold h1, xb1. rewrite get_upd by lia. destruct (na =? nb); [reflexivity|exact Gb]. }
  set (h2 := upd h1 nb (Some (put_prior xb1 eb na))).
  assert (L1 : length h1 = length h) by apply upd_length.
  assert (G : forall m, get h2 m = if nb =? m then Some (put_prior xb1 eb na)
              else if na =? m then Some (put_next xa ea nb) else get h m).
  { intros m. unfold h2. rewrite get_upd by lia. destruct (nb =? m); [reflexivity|].
    unfold h1. now rewrite get_upd by lia. }
  exists h2. split.
  - unfold set_next; cbn [fst snd]. rewrite Ga. fold h1. rewrite G1. reflexivity.
  - unfold h2. rewrite upd_length. exact L1.
  - intros m. unfold dat. rewrite G. unfold xb1.
    destruct (Nat.eqb_spec nb m) as [<-|].
    + rewrite Gb. destruct (Nat.eqb_spec na nb) as [->|]; [|destruct eb; reflexivity].
      rewrite Ga in Gb; injection Gb as <-. destruct ea, eb; reflexivity.
    + destruct (Nat.eqb_spec na m) as [<-|]; [rewrite Ga; destruct ea; reflexivity|reflexivity].
  - intros [m e]. unfold nx, iter_eqb; cbn [fst snd]. rewrite G. unfold xb1.
    destruct (Nat.eqb_spec m na) as [->|Hm]; cbn [andb].
    + rewrite Nat.eqb_refl. rewrite (Nat.eqb_sym nb na).
      destruct (Nat.eqb_spec na nb) as [->|].
      * rewrite Ga. destruct ea, eb, e; reflexivity.
      * rewrite Ga. destruct ea, e; reflexivity.
    + destruct (Nat.eqb_spec nb m) as [<-|].
      * destruct (Nat.eqb_spec na nb) as [->|]; [congruence|]. rewrite Gb. destruct eb, e; reflexivity.
      * destruct (Nat.eqb_spec na m) as [<-|]; [congruence|reflexivity].
  - intros [m e]. unfold px, iter_eqb; cbn [fst snd]. rewrite G. unfold xb1.
    rewrite (Nat.eqb_sym m nb).
    destruct (Nat.eqb_spec nb m) as [<-|Hm]; cbn [andb].
    + destruct (Nat.eqb_spec na nb) as [->|].
      * rewrite Ga. destruct ea, eb, e; reflexivity.
      * rewrite Gb. destruct eb, e; reflexivity.
    + destruct (Nat.eqb_spec na m) as [<-|]; [|reflexivity].
      rewrite Ga. destruct ea, e; reflexivity.
Qed.

(** ** Chains *)
Lemma chain_app h a u w : chain h a (u ++ w) <-> chain h a u /\ chain h (last u a) w.
Proof.
  revert a; induction u as [|x u IH]; intros a; cbn [app chain].
  - cbn [last]. tauto.
  - rewrite IH. replace (last (x :: u) a) with (last u x); [tauto|].
    destruct u as [|y u]; [reflexivity|]. change (last (x :: y :: u) a) with (last (y :: u) a).
    clear. revert y. induction u as [|z u IH]; intros y; [reflexivity|]. apply (IH z).
Qed.

Lemma last_cons {A} (x : A) u d : last (x :: u) d = last u x.
Proof.
  revert x d; induction u as [|y u IH]; intros x d; [reflexivity|].
  transitivity (last (y :: u) d); [reflexivity|]. now rewrite !IH.
Qed.
Lemma last_app_cons {A} (u : list A) x w d : last (u ++ x :: w) d = last w x.
Proof.
  revert d; induction u as [|y u IH]; intros d; cbn [app]; rewrite last_cons; [reflexivity|apply IH].
Qed.
Lemma last_in {A} (u : list A) d : u <> [] -> In (last u d) u.
Proof.
  intros H. destruct u as [|x u] using rev_ind; [congruence|]. rewrite last_app_cons. cbn [last].
  rewrite in_app_iff; cbn; auto.
Qed.
Lemma last_default {A} (u : list A) d d' : u <> [] -> last u d = last u d'.
Proof. destruct u; [congruence|]. now rewrite !last_cons. Qed.

Lemma chain_cons_app h a u x w : chain h a (u ++ x :: w) <-> chain h a (u ++ [x]) /\ chain h x w.
Proof. rewrite !chain_app. cbn [chain]. tauto. Qed.

Lemma chain_adj h s A a b B : chain h s (A ++ a :: b :: B) -> linked h a b.
Proof. rewrite chain_app. cbn [chain]. tauto. Qed.

(** A chain only depends on the next links of all but the last element and the
    prior links of all but the first. *)
Lemma chain_frame (h h' : store) a w :
  (forall i, In i (removelast (a :: w)) -> nx h' i = nx h i) -> (forall i, In i w -> px h' i = px h i) ->
  chain h a w -> chain h' a w.
Proof.
  revert a; induction w as [|b w IH]; intros a Hn Hp; cbn [chain]; [auto|].
  intros ((H1 & H2) & H3). split.
  - split; [rewrite Hn; [exact H1|cbn; auto]|rewrite Hp; [exact H2|cbn; auto]].
  - apply IH; [|intros i Hi; apply Hp; now right|exact H3].
    intros i Hi. apply Hn. cbn [removelast] in *. right. exact Hi.
Qed.

Lemma chain_set_next h x y h' a w : set_next_spec h x y h' ->
  ~ In x (removelast (a :: w)) -> ~ In y w -> chain h a w -> chain h' a w.
Proof.
  intros S Hx Hy. apply chain_frame.
  - intros i Hi. rewrite (sn_nx _ _ _ _ S). rewrite iter_eqb_neq; [reflexivity|]. intros ->. auto.
  - intros i Hi. rewrite (sn_px _ _ _ _ S). rewrite iter_eqb_neq; [reflexivity|]. intros ->. auto.
Qed.

Lemma linked_set_next h x y h' : set_next_spec h x y h' -> linked h' x y.
Proof.
  intros S. split; [rewrite (sn_nx _ _ _ _ S)|rewrite (sn_px _ _ _ _ S)]; now rewrite iter_eqb_refl.
Qed.

Lemma linked_alive h a b : linked h a b -> dat h (fst a) <> None /\ dat h (fst b) <> None.
Proof.
  unfold linked, nx, px, dat. intros (H1 & H2).
  destruct (get h (fst a)), (get h (fst b)); cbn in *; split; congruence.
Qed.

(** ** Walking along a ring *)
Lemma circle_tail_inj r w A x : circle (r, w) = A ++ [x] -> x = trail r /\ A = lead r :: w.
Proof.
  unfold circle; cbn [fst snd]. change (lead r :: w ++ [trail r]) with ((lead r :: w) ++ [trail r]).
  intros H. apply app_inj_tail in H. destruct H as (<- & <-). auto.
Qed.

Lemma tt_split A x y B : nested (A ++ trail x :: trail y :: B) ->
  exists A1 A2 A3, A = A1 ++ lead y :: A2 ++ lead x :: A3.
Proof.
  unfold nested. rewrite nest_app. destruct (nest [] A) as [s|] eqn:E; [|discriminate].
  unfold trail; cbn [nest]. destruct s as [|m s]; [discriminate|].
  destruct (Nat.eqb_spec m x) as [->|]; [|discriminate].
  destruct s as [|m s]; [discriminate|].
  destruct (Nat.eqb_spec m y) as [->|]; [|discriminate]. intros _.
  apply nest_open in E. destruct E as (P & A3 & -> & HP & _).
  apply nest_open in HP. destruct HP as (A1 & A2 & -> & _ & _).
  exists A1, A2, A3. now lapp.
Qed.

Lemma ll_split A x y B : nested (A ++ lead x :: lead y :: B) ->
  exists B1 B2 B3, B = B1 ++ trail y :: B2 ++ trail x :: B3.
Proof.
  unfold nested. rewrite nest_app. destruct (nest [] A) as [s|] eqn:E; [|discriminate].
  unfold lead; cbn [nest]. intros H.
  apply nest_close in H. destruct H as (B1 & P & -> & _ & HP).
  apply nest_close in HP. destruct HP as (B2 & B3 & -> & _ & _).
  exists B1, B2, B3. now lapp.
Qed.

Ltac nodup_contra H :=
  revert H; repeat rewrite nodup_app_iff; repeat rewrite NoDup_cons_iff; repeat rewrite in_app_iff; cbn [In].

Lemma ring_increment h r w A a b B : nested w -> NoDup (circle (r, w)) -> ring h r w ->
  circle (r, w) = A ++ a :: b :: B -> increment h a = Some b.
Proof.
  intros Hw Hd Hr E. pose proof (circle_nested r w Hw) as Hc. unfold ring in Hr.
  rewrite E in Hd, Hc. rewrite E in Hr.
  pose proof (chain_adj _ _ _ _ _ _ Hr) as (Hn & Hp).
  assert (Hab : a <> b).
  { intros ->. apply NoDup_remove_2 in Hd. apply Hd. rewrite in_app_iff; cbn; auto. }
  destruct a as [x [|]]; destruct b as [y eb]; cbn [fst snd] in *.
  - rewrite increment_lead, Hn. f_equal. f_equal.
    destruct (Nat.eqb_spec y x) as [->|Hxy]; destruct eb; cbn [negb]; try reflexivity; [congruence|].
    exfalso. unfold nested in Hc. rewrite nest_app in Hc. destruct (nest [] A); [|discriminate].
    cbn [nest] in Hc. destruct (Nat.eqb_spec x y); [congruence|discriminate].
  - rewrite increment_trail, Hn. destruct eb.
    + rewrite Hp, Nat.eqb_refl. reflexivity.
    + assert (Hx : x <> y) by congruence.
      destruct (tt_split _ _ _ _ Hc) as (A1 & A2 & A3 & ->).
      assert (Hpx : px h (y, true) = Some (fst (last A1 (trail r)))).
      { rewrite <- app_assoc, chain_app in Hr. destruct Hr as (_ & Hr). cbn [app chain] in Hr. exact (proj2 (proj1 Hr)). }
      rewrite Hpx. destruct (Nat.eqb_spec (fst (last A1 (trail r))) x) as [Hz|]; [exfalso|reflexivity].
      destruct A1 as [|z A1].
      * cbn [last fst trail] in Hz. subst x.
        cbn [app] in E. unfold circle in E; cbn [fst snd] in E. injection E as E1 _. congruence.
      * assert (Hin : In (last (z :: A1) (trail r)) (z :: A1)) by (apply last_in; discriminate).
        set (A0 := z :: A1) in *. clearbody A0. destruct (last A0 (trail r)) as [q e]. cbn [fst] in Hz. subst q.
        rewrite <- app_assoc in Hd. apply nodup_app_iff in Hd. destruct Hd as (_ & _ & Hd).
        apply (Hd _ Hin). repeat (rewrite in_app_iff; cbn [app In]).
        destruct e; unfold lead; auto 10.
Qed.

Lemma ring_decrement h r w A a b B : nested w -> NoDup (circle (r, w)) -> ring h r w ->
  circle (r, w) = A ++ a :: b :: B -> decrement h b = Some a.
Proof.
  intros Hw Hd Hr E. pose proof (circle_nested r w Hw) as Hc. unfold ring in Hr.
  rewrite E in Hd, Hc. pose proof Hr as Hr0. rewrite E in Hr.
  pose proof (chain_adj _ _ _ _ _ _ Hr) as (Hn & Hp).
  assert (Hab : a <> b).
  { intros ->. apply NoDup_remove_2 in Hd. apply Hd. rewrite in_app_iff; cbn; auto. }
  destruct b as [y [|]]; destruct a as [x ea]; cbn [fst snd] in *.
  - rewrite decrement_lead, Hp. destruct ea.
    + assert (Hx : x <> y) by congruence.
      destruct (ll_split _ _ _ _ Hc) as (B1 & B2 & B3 & ->).
      destruct B3 as [|z B3].
      * assert (Hrx : (x, false) = trail r).
        { change (A ++ (x, true) :: (y, true) :: B1 ++ trail y :: B2 ++ [trail x])
            with (A ++ ((x, true) :: (y, true) :: B1) ++ (trail y :: B2) ++ [trail x]) in E.
          rewrite !app_assoc in E. apply circle_tail_inj in E. exact (proj1 E). }
        injection Hrx as ->.
        assert (Hnr : nx h (r, false) = Some r).
        { unfold circle in Hr0; cbn [fst snd chain] in Hr0. exact (proj1 (proj1 Hr0)). }
        rewrite Hnr. destruct (Nat.eqb_spec r y); [congruence|reflexivity].
      * assert (Hl : linked h (trail x) z).
        { rewrite chain_app in Hr. destruct Hr as (_ & Hr). cbn [chain] in Hr.
          destruct Hr as (_ & _ & Hr). rewrite chain_app in Hr. destruct Hr as (_ & Hr). cbn [chain] in Hr.
          destruct Hr as (_ & Hr). exact (chain_adj _ _ _ _ _ _ Hr). }
        destruct Hl as (Hl & _). unfold trail in Hl. rewrite Hl.
        destruct (Nat.eqb_spec (fst z) y) as [Hz|]; [exfalso|reflexivity].
        destruct z as [q e]; cbn [fst] in Hz; subst q.
        apply nodup_app_iff in Hd. destruct Hd as (_ & Hd & _).
        change ((x, true) :: (y, true) :: B1 ++ trail y :: B2 ++ trail x :: (y, e) :: B3)
          with (((x, true) :: (y, true) :: B1) ++ (trail y :: B2 ++ [trail x]) ++ (y, e) :: B3) in Hd || idtac.
        destruct e.
        { apply NoDup_cons_iff in Hd. destruct Hd as (_ & Hd). apply NoDup_cons_iff in Hd.
          destruct Hd as (Hd & _). apply Hd. repeat (rewrite in_app_iff; cbn [In]). auto 10. }
        { apply NoDup_cons_iff in Hd. destruct Hd as (_ & Hd). apply NoDup_cons_iff in Hd.
          destruct Hd as (_ & Hd). apply NoDup_remove_2 in Hd. apply Hd.
          repeat (rewrite in_app_iff; cbn [In]). auto 10. }
    + rewrite Hn, Nat.eqb_refl. reflexivity.
  - rewrite decrement_trail, Hp. f_equal. f_equal.
    destruct (Nat.eqb_spec x y) as [->|Hxy]; destruct ea; try reflexivity; [congruence|].
    exfalso. unfold nested in Hc. rewrite nest_app in Hc. destruct (nest [] A); [|discriminate].
    cbn [nest] in Hc. destruct (Nat.eqb_spec x y); [congruence|discriminate].
Qed.

End Links.
