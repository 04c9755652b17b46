(** Property C115: external_model_t. *)
From Coq Require Import Ascii ZArith Lia Permutation.
From Verif Require Import Prelude Ext_Model Ext_Spec.
From Coq Require Import List.
Import ListNotations.
Local Open Scope nat_scope.

Lemma same_text_spec x y : reflect (x = y) (same_text x y).
Proof. unfold same_text. destruct (list_eq_dec Ascii.ascii_dec x y); now constructor. Qed.
Lemma char_value_inj c d : char_value c = char_value d -> c = d.
Proof.
  unfold char_value. pose proof (N_ascii_bounded c) as Bc. pose proof (N_ascii_bounded d) as Bd. intros H.
  assert (E : N_of_ascii c = N_of_ascii d) by (destruct (Z.ltb_spec (Z.of_N (N_of_ascii c)) 128), (Z.ltb_spec (Z.of_N (N_of_ascii d)) 128); lia).
  rewrite <- (ascii_N_embedding c), E. apply ascii_N_embedding.
Qed.
Lemma char_value_zero c : char_value c = 0%Z -> c = "000"%char.
Proof. intros H. apply char_value_inj. rewrite H. reflexivity. Qed.
(** neither name is less exactly when they are the same *)
Lemma same_key_spec x y : proper x -> proper y -> same_key x y = same_text x y.
Proof.
  revert y. induction x as [|c x IH]; intros [|d y] Hx Hy; unfold same_key; cbn [str_less].
  - reflexivity.
  - destruct (same_text_spec [] (d :: y)); [discriminate|]. destruct (Z.ltb_spec 0 (char_value d)); [reflexivity|]. destruct (Z.ltb_spec (char_value d) 0); [reflexivity|].
    exfalso. apply Hy. left. apply char_value_zero. lia.
  - destruct (same_text_spec (c :: x) []); [discriminate|]. destruct (Z.ltb_spec 0 (char_value c)), (Z.ltb_spec (char_value c) 0); try reflexivity.
    exfalso. apply Hx. left. apply char_value_zero. lia.
  - rewrite (Ascii.eqb_sym d c). destruct (Ascii.eqb_spec c d) as [-> | N].
    + assert (Px : proper x) by (intros H; apply Hx; now right). assert (Py : proper y) by (intros H; apply Hy; now right).
      specialize (IH y Px Py). unfold same_key in IH. rewrite IH. destruct (same_text_spec x y) as [E1|D], (same_text_spec (d :: x) (d :: y)) as [E|E]; congruence.
    + destruct (same_text_spec (c :: x) (d :: y)) as [E|_]; [congruence|]. assert (char_value c <> char_value d) by (intros E; apply N; now apply char_value_inj).
      destruct (Z.ltb_spec (char_value c) (char_value d)), (Z.ltb_spec (char_value d) (char_value c)); try reflexivity; lia.
Qed.

Section External.
Variable value : Type.
Implicit Types (h : list (call value)) (m : model).
Definition good_cell h (cells : list cell) (kv : text * nat) : Prop :=
  exists c, nth_error cells (snd kv) = Some c /\ slots c = live h (fst kv) /\ model_monitor_m c = hook h (fst kv).
Record Inv m h : Prop := {
  inv_made : made m = connected h;
  inv_proper : Forall (fun kv => proper (fst kv)) (index_m m);
  inv_names : NoDup (map fst (index_m m));
  inv_cells : NoDup (map snd (index_m m));
  inv_good : Forall (good_cell h (cell_set_m m)) (index_m m);
  inv_has : forall n, has h n = true <-> In n (map fst (index_m m)) }.

Lemma find_cell_some m h n i : Inv m h -> proper n -> (find_cell n m = Some i <-> In (n, i) (index_m m)).
Proof.
  intros [_ P N _ _ _] Hn. unfold find_cell. revert P N. generalize (index_m m) as l. induction l as [|[k j] l IH]; intros P N; cbn [find map fst In] in *; [split; [discriminate|tauto]|].
  inversion P as [|? ? Pk P']; inversion N as [|? ? Nk N']; subst. cbn [fst] in *. rewrite (same_key_spec k n Pk Hn). destruct (same_text_spec k n) as [-> | D].
  - split; [intros [= <-]; now left|]. intros [[= <-]|H]; [reflexivity|]. exfalso. apply Nk. apply (in_map fst _ _ H).
  - rewrite (IH P' N'). split; [now right|]. intros [[= ? ?]|H]; [contradiction|exact H].
Qed.
Lemma find_cell_none m h n : Inv m h -> proper n -> (find_cell n m = None <-> has h n = false).
Proof.
  intros H Hn. destruct (find_cell n m) as [i|] eqn:E.
  - apply (find_cell_some m h n i H Hn) in E. split; [discriminate|]. intros F. apply (in_map fst) in E. apply (inv_has _ _ H) in E. cbn [fst] in E. congruence.
  - split; [|reflexivity]. intros _. destruct (has h n) eqn:F; [|reflexivity]. apply (inv_has _ _ H) in F. apply in_map_iff in F. destruct F as ([k i] & K & F). cbn in K. subst k.
    apply (find_cell_some m h n i H Hn) in F. congruence.
Qed.
Lemma with_cell_spec m h n (k : nat -> cell -> model * outcome value) : Inv m h -> proper n ->
  (has h n = false /\ with_cell n m k = (m, No_cell)) \/
  (exists i c, In (n, i) (index_m m) /\ nth_error (cell_set_m m) i = Some c /\ slots c = live h n /\ model_monitor_m c = hook h n /\ has h n = true /\ with_cell n m k = k i c).
Proof.
  intros H Hn. unfold with_cell. destruct (find_cell n m) as [i|] eqn:E.
  - right. apply (find_cell_some m h n i H Hn) in E. pose proof (proj1 (Forall_forall _ _) (inv_good _ _ H) _ E) as (c & Hc & Hs & Hh). cbn [fst snd] in *.
    exists i, c. rewrite Hc. repeat split; auto. apply (inv_has _ _ H). apply (in_map fst _ _ E).
  - left. split; [|reflexivity]. now apply (find_cell_none m h n H Hn).
Qed.
(** two names have different cells *)
Lemma other_cell m h n i k j : Inv m h -> In (n, i) (index_m m) -> In (k, j) (index_m m) -> k <> n -> j <> i.
Proof.
  intros H A B D ->. pose proof (inv_cells _ _ H) as N. revert N A B. generalize (index_m m) as l. induction l as [|[x y] l IH]; cbn [map snd In]; [tauto|].
  intros N A B. inversion N as [|? ? Ny N']; subst. destruct A as [A|A], B as [B|B]; [congruence| | |auto].
  - apply Ny. replace y with i by congruence. apply (in_map snd _ _ B).
  - apply Ny. replace y with i by congruence. apply (in_map snd _ _ A).
Qed.
Lemma inv_index m h h' cells k : Inv m h -> k = connected h' -> Forall (good_cell h' cells) (index_m m) ->
  (forall n, has h' n = has h n) -> Inv (mk_model (index_m m) cells k) h'.
Proof. intros [A B C D E F] -> G H. constructor; cbn [made index_m cell_set_m]; auto. intros n. rewrite H. apply F. Qed.
Lemma good_put m h h' n i c c' : Inv m h -> In (n, i) (index_m m) -> nth_error (cell_set_m m) i = Some c ->
  slots c' = live h' n -> model_monitor_m c' = hook h' n -> (forall k, k <> n -> live h' k = live h k /\ hook h' k = hook h k) ->
  Forall (good_cell h' (upd (cell_set_m m) i c')) (index_m m).
Proof.
  intros H Hi Hc Es Eh O. pose proof (inv_good _ _ H) as G. rewrite Forall_forall in *. intros [k j] Hk. destruct (same_text_spec k n) as [-> | D].
  - assert (j = i) as ->. { apply (find_cell_some m h n i H) in Hi as Hi'; [|exact (proj1 (Forall_forall _ _) (inv_proper _ _ H) _ Hi)].
      apply (find_cell_some m h n j H) in Hk as Hk'; [congruence|exact (proj1 (Forall_forall _ _) (inv_proper _ _ H) _ Hi)]. }
    exists c'. cbn [fst snd]. split; [|auto]. apply nth_error_upd_same. apply nth_error_Some. congruence.
  - destruct (G _ Hk) as (x & Hx & Sx & Mx). cbn [fst snd] in *. pose proof (other_cell m h n i k j H Hi Hk D). destruct (O k D) as [E1 E2].
    exists x. cbn [fst snd]. rewrite E1, E2. split; [|auto]. rewrite nth_error_upd_other by auto. exact Hx.
Qed.
Lemma good_same m h h' : Inv m h -> (forall k, live h' k = live h k /\ hook h' k = hook h k) -> Forall (good_cell h' (cell_set_m m)) (index_m m).
Proof. intros H O. eapply Forall_impl; [|exact (inv_good _ _ H)]. intros kv (c & Hc & Hs & Hh). destruct (O (fst kv)) as [E1 E2]. exists c. now rewrite E1, E2. Qed.

Lemma same_text_refl n : same_text n n = true.
Proof. now destruct (same_text_spec n n). Qed.
Lemma same_text_ne n k : k <> n -> same_text n k = false.
Proof. intros D. destruct (same_text_spec n k); congruence. Qed.
Lemma step_ok m h o : Inv m h -> proper_call o -> snd (step m o) = expected h o /\ Inv (fst (step m o)) (o :: h).
Proof.
  intros H P. assert (Same : forall m', m' = m -> connected (o :: h) = connected h -> (forall k, live (o :: h) k = live h k /\ hook (o :: h) k = hook h k) -> (forall n, has (o :: h) n = has h n) -> Inv m' (o :: h)).
  { intros m' -> A B C. destruct m as [ix cs0 mk0]. apply (inv_index (mk_model ix cs0 mk0) h (o :: h)); auto; [rewrite A; exact (inv_made _ _ H)|exact (good_same _ h (o :: h) H B)]. }
  destruct o as [n|n|n f|k|n v|n f|n v]; cbn [proper_call name_of] in P; cbn [step expected].
  - (* AddCell *) split; [reflexivity|]. cbn [fst].
    assert (HasA : forall k, has (AddCell n :: h) k = (same_text n k || has h k)%bool) by reflexivity.
    destruct (find_cell n m) as [i|] eqn:E.
    + assert (Hn : has h n = true). { apply (find_cell_some m h n i H P) in E. apply (inv_has _ _ H). apply (in_map fst _ _ E). }
      apply (inv_index m h (AddCell n :: h)); auto.
      * exact (inv_made _ _ H).
      * eapply Forall_impl; [|exact (inv_good _ _ H)]. intros kv (c & Hc & Hs & Hh). exists c. split; [|auto]. rewrite nth_error_app1; [exact Hc|]. apply nth_error_Some. congruence.
      * intros k. rewrite HasA. destruct (same_text_spec n k) as [<- | D]; [now rewrite Hn|reflexivity].
    + assert (Hn : has h n = false) by now apply (find_cell_none m h n H P).
      assert (Ni : ~ In n (map fst (index_m m))) by (intros X; apply (inv_has _ _ H) in X; congruence).
      assert (Bd : forall kv, In kv (index_m m) -> snd kv < length (cell_set_m m)).
      { intros kv Hk. destruct (proj1 (Forall_forall _ _) (inv_good _ _ H) _ Hk) as (c & Hc & _). apply nth_error_Some. congruence. }
      assert (Nl : live h n = [] /\ hook h n = None).
      { clear - Hn. induction h as [|o h IH]; [now split|]. cbn [has existsb] in Hn. fold (has h n) in Hn. apply orb_false_iff in Hn. destruct Hn as [Hn1 Hn2]. destruct (IH Hn2) as [L K].
        destruct o; cbn [live hook]; rewrite ?Hn2, ?Bool.andb_false_r, ?L, ?K; auto. }
      constructor; cbn [made index_m cell_set_m].
      * exact (inv_made _ _ H).
      * apply Forall_app. split; [exact (inv_proper _ _ H)|]. constructor; [exact P|constructor].
      * rewrite map_app. cbn [map fst]. apply (Permutation_NoDup (l := n :: map fst (index_m m))); [apply Permutation_cons_append|]. constructor; [exact Ni|exact (inv_names _ _ H)].
      * rewrite map_app. cbn [map snd]. apply (Permutation_NoDup (l := length (cell_set_m m) :: map snd (index_m m))); [apply Permutation_cons_append|].
        constructor; [|exact (inv_cells _ _ H)]. intros X. apply in_map_iff in X. destruct X as (kv & Ek & X). specialize (Bd _ X). lia.
      * apply Forall_app. split.
        -- rewrite Forall_forall. intros kv Hk. destruct (proj1 (Forall_forall _ _) (inv_good _ _ H) _ Hk) as (c & Hc & Hs & Hh). exists c. split; [|auto]. rewrite nth_error_app1; [exact Hc|]. now apply Bd.
        -- constructor; [|constructor]. exists (mk_cell [] None). cbn [fst snd]. split; [rewrite nth_error_app2, Nat.sub_diag; [reflexivity|lia]|]. cbn [slots model_monitor_m live hook]. now destruct Nl as [-> ->].
      * intros k. rewrite HasA, map_app, in_app_iff, <- (inv_has _ _ H). cbn [map fst In]. destruct (same_text_spec n k) as [<- | D]; cbn [orb]; [tauto|]. tauto.
  - split; [|now apply Same]. cbn [snd]. f_equal. destruct (find_cell n m) as [i|] eqn:E.
    + apply (find_cell_some m h n i H P) in E. apply (in_map fst) in E. apply (inv_has _ _ H) in E. cbn [fst] in E. now rewrite E.
    + apply (find_cell_none m h n H P) in E. now rewrite E.
  - match goal with |- context [with_cell n m ?k] => destruct (with_cell_spec m h n k H P) as [[Hn E]|(i & c & Hi & Hc & Hs & Hh & Hn & E)] end; rewrite E, Hn; cbn [fst snd].
    + split; [reflexivity|]. apply Same; auto; [cbn [connected]; now rewrite Hn|]. intros k. cbn [live hook].
      destruct (same_text_spec n k) as [<- | D]; cbn [andb]; rewrite ?Hn, app_nil_r; auto.
    + cbn [put_cell cell_set_m index_m made]. split; [f_equal; exact (inv_made _ _ H)|]. apply (inv_index m h); auto.
      * cbn [connected]. rewrite Hn, (inv_made _ _ H). reflexivity.
      * apply (good_put m h _ n i c); auto; cbn [slots model_monitor_m live hook].
        -- now rewrite same_text_refl, Hn, Hs, (inv_made _ _ H).
        -- intros k D. rewrite (same_text_ne n k D). cbn [andb]. now rewrite app_nil_r.
  - split; [reflexivity|]. cbn [fst]. apply (inv_index m h); auto; [exact (inv_made _ _ H)|].
    eapply Forall_impl; [|exact (inv_good _ _ H)]. intros kv (c & Hc & Hs & Hh). eexists. split; [apply map_nth_error, Hc|]. cbn [slots model_monitor_m live hook]. now rewrite Hs, Hh.
  - match goal with |- context [with_cell n m ?k] => destruct (with_cell_spec m h n k H P) as [[Hn E]|(i & c & Hi & Hc & Hs & Hh & Hn & E)] end; rewrite E, Hn; cbn [fst snd]; (split; [|now apply Same]); [reflexivity|now rewrite Hh].
  - match goal with |- context [with_cell n m ?k] => destruct (with_cell_spec m h n k H P) as [[Hn E]|(i & c & Hi & Hc & Hs & Hh & Hn & E)] end; rewrite E, Hn; cbn [fst snd].
    + split; [reflexivity|]. apply Same; auto. intros k. cbn [live hook]. destruct (same_text_spec n k) as [<- | D]; cbn [andb]; rewrite ?Hn; auto.
    + split; [reflexivity|]. unfold put_cell. apply (inv_index m h); auto; [exact (inv_made _ _ H)|]. apply (good_put m h _ n i c); auto; cbn [slots model_monitor_m live hook].
      * now rewrite same_text_refl, Hn.
      * intros k D. now rewrite (same_text_ne n k D).
  - match goal with |- context [with_cell n m ?k] => destruct (with_cell_spec m h n k H P) as [[Hn E]|(i & c & Hi & Hc & Hs & Hh & Hn & E)] end; rewrite E, Hn; cbn [fst snd]; (split; [|now apply Same]); [reflexivity|now rewrite Hs].
Qed.
Lemma empty_ok : Inv empty_model ([] : list (call value)).
Proof. constructor; cbn; try constructor; try discriminate; tauto. Qed.
Lemma run_app m h1 h2 : run m (h1 ++ h2 : list (call value)) = run (run m h1) h2.
Proof. revert m. induction h1; intros; cbn [run app]; auto. Qed.
Lemma run_ok h : Forall proper_call h -> Inv (run empty_model (rev h)) h.
Proof.
  induction 1 as [|o h P F IH]; [exact empty_ok|]. cbn [rev]. rewrite run_app. cbn [run]. now apply (step_ok _ h o IH P).
Qed.
(** C115: what every call does after every history of calls *)
Theorem C115_external_model h o : Forall proper_call h -> proper_call o -> snd (step (run empty_model (rev h)) o) = expected h o.
Proof. intros F P. now apply step_ok; [apply run_ok|]. Qed.
(** so a monitor that is connected and not disconnected hears of the cell, *)
Lemma live_keeps h1 n f h2 : has h1 n = true -> ~ In (Disconnect (connected h1)) h2 -> In (connected h1, f) (live (h2 ++ Monitor n f :: h1) n).
Proof.
  intros H N. induction h2 as [|o h2 IH]; cbn [app].
  - cbn [live]. rewrite same_text_refl, H. apply in_or_app. right. now left.
  - assert (I2 : In (connected h1, f) (live (h2 ++ Monitor n f :: h1) n)) by (apply IH; intros X; apply N; now right).
    destruct o as [k|k|k g|c|k v|k g|k v]; cbn [live]; auto.
    + apply in_or_app. now left.
    + apply filter_In. split; [exact I2|]. cbn [fst]. destruct (Nat.eqb_spec (connected h1) c) as [<- | D]; [|reflexivity]. exfalso. apply N. now left.
Qed.
Theorem C115_monitor_hears h1 n f h2 (v : value) : Forall proper_call (h2 ++ Monitor n f :: h1) -> has h1 n = true -> ~ In (Disconnect (connected h1)) h2 ->
  exists l, snd (step (run empty_model (rev (h2 ++ Monitor n f :: h1))) (ModelSet n v)) = Called l /\ In (f, v) l.
Proof.
  intros F H N. assert (P : proper n) by (apply Forall_app in F; destruct F as [_ F]; inversion F; assumption).
  rewrite C115_external_model by assumption. cbn [expected]. assert (Hn : has (h2 ++ Monitor n f :: h1) n = true).
  { unfold has in *. rewrite existsb_app. cbn [existsb]. rewrite H. now rewrite !Bool.orb_true_r. }
  rewrite Hn. eexists. split; [reflexivity|]. apply (in_map (fun s => (snd s, v)) _ (connected h1, f)). now apply live_keeps.
Qed.
(** and nobody hears of it who was not connected to it *)
Lemma live_only h n s : In s (live h n) -> exists h2 h1, h = h2 ++ Monitor n (snd s) :: h1.
Proof.
  induction h as [|o h IH]; [intros []|]. assert (Up : (exists h2 h1, h = h2 ++ Monitor n (snd s) :: h1) -> exists h2 h1, o :: h = h2 ++ Monitor n (snd s) :: h1).
  { intros (h2 & h1 & ->). now exists (o :: h2), h1. }
  destruct o as [k|k|k g|c|k v|k g|k v]; cbn [live]; auto.
  - intros H. apply in_app_or in H. destruct H as [H|H]; [auto|]. destruct (same_text_spec k n) as [-> | D]; [|destruct H]. destruct (has h n); [|destruct H].
    destruct H as [<- | []]. now exists [], h.
  - intros H. apply filter_In in H. apply Up, IH, H.
Qed.
Theorem C115_only_monitors_hear h n (v : value) l g w : Forall proper_call h -> proper n ->
  snd (step (run empty_model (rev h)) (ModelSet n v)) = Called l -> In (g, w) l -> w = v /\ exists h2 h1, h = h2 ++ Monitor n g :: h1.
Proof.
  intros F P. rewrite C115_external_model by assumption. cbn [expected]. destruct (has h n); [|discriminate]. intros [= <-] H.
  apply in_map_iff in H. destruct H as (s & [= <- <-] & H). split; [reflexivity|]. exact (live_only h n s H).
Qed.
End External.

(** The order of names that std::map is given is one: *)
Lemma str_less_cons c x d y : str_less (c :: x) (d :: y) = if Ascii.eqb c d then str_less x y else (char_value c <? char_value d)%Z.
Proof. reflexivity. Qed.
Lemma proper_cons c x : proper (c :: x) -> proper x /\ char_value c <> 0%Z.
Proof. intros H. split; [intros X; apply H; now right|]. intros E. apply H. left. now apply char_value_zero. Qed.
Theorem C115_names_are_ordered x y z : proper x -> proper y -> proper z ->
  str_less x x = false /\ (str_less x y = true -> str_less y z = true -> str_less x z = true) /\
  (x = y \/ str_less x y = true /\ str_less y x = false \/ str_less x y = false /\ str_less y x = true).
Proof.
  intros Hx Hy Hz. split; [|split].
  - clear y z Hy Hz. induction x as [|c x IH]; [reflexivity|]. rewrite str_less_cons, Ascii.eqb_refl. apply IH. now apply proper_cons in Hx.
  - revert y z Hx Hy Hz. induction x as [|c x IH]; intros [|d y] [|e z] Hx Hy Hz; try (cbn [str_less]; discriminate || (intros; assumption)).
    + cbn [str_less]. rewrite !Z.ltb_lt. lia.
    + rewrite str_less_cons. cbn [str_less]. destruct (Ascii.eqb_spec d e) as [<- | D]; [auto|]. rewrite !Z.ltb_lt. lia.
    + cbn [str_less]. rewrite !Z.ltb_lt. intros A B. destruct (Ascii.eqb_spec c e) as [<- | D]; [lia|]. apply Z.ltb_lt. lia.
    + rewrite str_less_cons. cbn [str_less]. destruct (Ascii.eqb_spec c d) as [<- | D]; [auto|]. rewrite !Z.ltb_lt. lia.
    + rewrite !str_less_cons. apply proper_cons in Hx, Hy, Hz. destruct Hx as [Hx _], Hy as [Hy _], Hz as [Hz _].
      destruct (Ascii.eqb_spec c d) as [Ecd | Dcd]; destruct (Ascii.eqb_spec d e) as [Ede | Dde]; destruct (Ascii.eqb_spec c e) as [Ece | Dce]; subst; try congruence; rewrite ?Z.ltb_lt; try lia.
      now apply IH.
  - pose proof (same_key_spec x y Hx Hy) as K. unfold same_key in K. destruct (same_text_spec x y) as [E|D]; [now left|]. right.
    assert (T : str_less x y = true -> str_less y x = true -> False).
    { clear K D Hz z. revert y Hy. induction x as [|c x IH]; intros [|d y] Hy; try (cbn [str_less]; discriminate).
      - cbn [str_less]. rewrite !Z.ltb_lt. lia.
      - cbn [str_less]. rewrite !Z.ltb_lt. lia.
      - rewrite !str_less_cons, (Ascii.eqb_sym d c). apply proper_cons in Hx, Hy. destruct (Ascii.eqb_spec c d); [now apply IH|]. rewrite !Z.ltb_lt. lia. }
    destruct (str_less x y), (str_less y x); cbn in K; try discriminate; auto. exfalso. now apply T.
Qed.

(** A case: two cells, three monitors, one of them disconnected again *)
Definition name (c : ascii) : text := [c].
Definition calls : list (call nat) :=
  [AddCell (name "x"); AddCell (name "y"); Monitor (name "x") 7; Monitor (name "y") 8; Monitor (name "x") 9; Monitor (name "z") 5; Disconnect 0;
   AddCell (name "x"); ModelMonitor (name "x") (Some 3)].
Example C115_ex : Forall proper_call (rev calls) /\ has (rev calls) (name "x") = true /\
  snd (step (run empty_model calls) (ModelSet (name "x") 4)) = Called [(9, 4)] /\ snd (step (run empty_model calls) (Set_ (name "x") 5)) = Called [(3, 5)] /\
  snd (step (run empty_model calls) (Set_ (name "y") 5)) = Bad_call /\ snd (step (run empty_model calls) (ModelSet (name "z") 4)) = No_cell.
Proof. split; [|repeat split]. repeat constructor; cbn [name_of calls rev app]; intros [H|[]]; discriminate H. Qed.
