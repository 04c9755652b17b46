(** The generator writes JSON texts that denote the value generated (for C25). *)
From Verif Require Import Prelude Unicode_Spec Json_Model Json_Spec Json_Safe Json_Utf8 Json_Complete.
Local Open Scope N_scope.

(** ** no JSON text contains a NUL *)
Lemma nz_app a b : nz a -> nz b -> nz (a ++ b).
Proof. intros. apply Forall_app; auto. Qed.
Lemma nz_blank w : blank w -> nz w.
Proof. apply Forall_impl. unfold is_ws. intros c H. lia. Qed.
Lemma nz_hex4 h u : hex4 h u -> nz h.
Proof.
  intros (c1&c2&c3&c4&d1&d2&d3&d4&->&H1&H2&H3&H4&_). unfold hex in *.
  repeat constructor; lia.
Qed.
Lemma nz_chars D raw s : chars D raw s -> nz raw.
Proof.
  assert (HC : forall c l, c <> 0 -> nz l -> nz (c :: l)) by (intros; now constructor).
  intros H. induction H as [|c raw s H1 H2 H3 H IH|e c raw s HE H IH|h u raw s H1 H2 H3 H IH
    |h1 u1 h2 u2 raw s HD H1 H2 H3 H4 H IH|h1 u1 h2 u2 raw s HD H1 H2 H3 H4 H IH
    |h u raw s HD H1 H2 H IH].
  - constructor.
  - apply HC; auto. lia.
  - apply HC; [discriminate|]. apply HC; auto. destruct (simple_escape_ok _ _ HE); tauto.
  - repeat first [apply HC; [discriminate|]|apply nz_app; [eapply nz_hex4; eassumption|]]. exact IH.
  - repeat first [apply HC; [discriminate|]|apply nz_app; [eapply nz_hex4; eassumption|]]. exact IH.
  - repeat first [apply HC; [discriminate|]|apply nz_app; [eapply nz_hex4; eassumption|]]. exact IH.
  - repeat first [apply HC; [discriminate|]|apply nz_app; [eapply nz_hex4; eassumption|]]. exact IH.
Qed.
Lemma nz_quoted D t s : quoted D t s -> nz t.
Proof.
  intros [raw [-> H]]. apply nz_app; [repeat constructor; lia|]. apply nz_app; [eapply nz_chars; eauto|].
  repeat constructor; lia.
Qed.
Lemma nz_digs ds : Forall is_dig ds -> nz ds.
Proof. apply Forall_impl. unfold is_dig. lia. Qed.
Lemma nz_number t : json_number t -> nz t.
Proof.
  intros (sg&i&f&e&->&Hs&Hi&Hf&He).
  apply nz_app; [destruct Hs as [->| ->]; repeat constructor; lia|].
  apply nz_app.
  { destruct Hi as [->|[d [ds [-> [H1 H2]]]]]; [repeat constructor; lia|]. constructor; [lia|now apply nz_digs]. }
  apply nz_app.
  { destruct Hf as [->|[ds [-> [_ H]]]]; [constructor|]. constructor; [lia|now apply nz_digs]. }
  destruct He as [->|[c [s [ds [-> [H1 [H2 [_ H3]]]]]]]]; [constructor|]. constructor; [lia|].
  apply nz_app; [|now apply nz_digs]. destruct H2 as [->|[->| ->]]; repeat constructor; lia.
Qed.

Section V.
Context {num : Type} (strtod : list N -> option num).
Notation value := (value num).

Lemma nz_all D :
  (forall t v, jvalue strtod D t v -> nz t) /\ (forall t l, jelements strtod D t l -> nz t) /\
  (forall t l, jmembers strtod D t l -> nz t).
Proof.
  apply (jtext_mutind num strtod D (fun t v _ => nz t) (fun t l _ => nz t) (fun t l _ => nz t)); intros;
    repeat match goal with
    | |- nz (_ ++ _) => apply nz_app
    | |- nz [_] => constructor; [discriminate|constructor]
    | H : blank ?w |- nz ?w => exact (nz_blank _ H)
    | H : quoted _ ?w _ |- nz ?w => exact (nz_quoted _ _ _ H)
    | H : json_number ?w |- nz ?w => exact (nz_number _ H)
    end; auto; repeat constructor; discriminate.
Qed.

(** ** induction over values *)
Section Ind.
Context (P : value -> Prop) (P0 : P VNull) (P1 : forall b, P (VBool b)) (P2 : forall x, P (VNum x))
  (P3 : forall s, P (VStr s)) (P4 : forall l, Forall P l -> P (VArr l))
  (P5 : forall l, Forall (fun kv => P (snd kv)) l -> P (VObj l)).
Fixpoint value_ind2 (v : value) : P v :=
  match v with
  | VNull => P0
  | VBool b => P1 b
  | VNum x => P2 x
  | VStr s => P3 s
  | VArr l => P4 l ((fix go (l : list value) : Forall P l :=
      match l with [] => Forall_nil _ | v :: l => Forall_cons v (value_ind2 v) (go l) end) l)
  | VObj l => P5 l ((fix go (l : list (list N * value)) : Forall (fun kv => P (snd kv)) l :=
      match l with [] => Forall_nil _ | kv :: l => Forall_cons kv (value_ind2 (snd kv)) (go l) end) l)
  end.
End Ind.

(** ** strings *)
Lemma hex_char_ok d : d < 16 -> hex (hex_char d) d.
Proof. clear. intros H. unfold hex, hex_char. destruct (N.ltb_spec d 10); lia. Qed.
Lemma generate_char_ok e raw s : chars Common raw s -> chars Common (generate_char e ++ raw) (e :: s).
Proof. clear.
  intros H. unfold generate_char.
  destruct (N.leb_spec e 0x1F) as [L|L]; cbn [orb].
  2:{ destruct (N.eqb_spec e 0x22) as [->|?]; [apply ch_simple; [cbn; auto 12|exact H]|]. cbn [orb].
      destruct (N.eqb_spec e 0x5C) as [->|?]; [apply ch_simple; [cbn; auto 12|exact H]|].
      cbn [app]. apply ch_plain; auto. lia. }
  destruct (N.eqb_spec e 0x22); [lia|]. destruct (N.eqb_spec e 0x5C); [lia|].
  destruct (N.eqb_spec e 0x08) as [->|?]; [apply ch_simple; [cbn; auto 12|exact H]|].
  destruct (N.eqb_spec e 0x0C) as [->|?]; [apply ch_simple; [cbn; auto 12|exact H]|].
  destruct (N.eqb_spec e 0x0A) as [->|?]; [apply ch_simple; [cbn; auto 12|exact H]|].
  destruct (N.eqb_spec e 0x0D) as [->|?]; [apply ch_simple; [cbn; auto 12|exact H]|].
  destruct (N.eqb_spec e 0x09) as [->|?]; [apply ch_simple; [cbn; auto 12|exact H]|].
  change 0x0F with (N.ones 4). rewrite !N.land_ones, N.shiftr_div_pow2. change (2 ^ 4) with 16.
  replace (e :: s) with (utf8 e ++ s).
  2:{ unfold utf8. destruct (N.ltb_spec e 0x80); [reflexivity|lia]. }
  apply (ch_unicode Common [0x30; 0x30; hex_char ((e / 16) mod 16); hex_char (e mod 16)]); auto.
  - exists 0x30, 0x30, (hex_char ((e / 16) mod 16)), (hex_char (e mod 16)), 0, 0, ((e / 16) mod 16), (e mod 16).
    split; auto. split; [unfold hex; lia|]. split; [unfold hex; lia|].
    split; [apply hex_char_ok; lia|]. split; [apply hex_char_ok; lia|]. lia.
  - unfold lead_surrogate. lia.
  - unfold trail_surrogate. lia.
Qed.
Lemma generate_string_ok s : quoted Common (generate_string s) s.
Proof. clear.
  exists (concat (map generate_char s)). split; [reflexivity|].
  induction s as [|e s IH]; [constructor|]. cbn [map concat]. now apply generate_char_ok.
Qed.

(** ** the dictionary built from distinct names *)
Lemma str_eqb_iff a b : str_eqb a b = true <-> a = b.
Proof. clear.
  revert b. induction a as [|x a IH]; intros [|y b]; cbn; split; intros H; try easy.
  - apply andb_true_iff in H. destruct H as [H1 H2]. apply N.eqb_eq in H1. apply IH in H2. congruence.
  - injection H as -> ->. rewrite N.eqb_refl. cbn. now apply IH.
Qed.
Lemma c_str_id k : nz k -> c_str k = k.
Proof. clear.
  induction k as [|c k IH]; intros H; auto. cbn [c_str]. pose proof (Forall_inv H) as Hc. cbn beta in Hc.
  destruct (N.eqb_spec c 0); [lia|]. f_equal. apply IH. exact (Forall_inv_tail H).
Qed.
Lemma dict_set_new o k (v : value) : ~ In k (map fst o) -> dict_set o k v = o ++ [(k, v)].
Proof. clear strtod.
  induction o as [|[k' v'] o IH]; intros H; auto. cbn [dict_set]. cbn [map fst In] in H.
  destruct (str_eqb k' k) eqn:E; [apply str_eqb_iff in E; tauto|]. cbn. f_equal. apply IH. tauto.
Qed.
Lemma build_dict (l : list (list N * value)) : NoDup (map fst l) -> Forall (fun kv => nz (fst kv)) l ->
  fold_left (fun o kv => move_append_obj o (fst kv) (snd kv)) l [] = l.
Proof. clear strtod.
  intros H1 H2. assert (G : forall l o, NoDup (map fst (o ++ l)) -> Forall (fun kv => nz (fst kv)) l ->
    fold_left (fun o (kv : list N * value) => move_append_obj o (fst kv) (snd kv)) l o = o ++ l).
  { clear. induction l as [|[k v] l IH]; intros o HD HZ; cbn [fold_left]; [now rewrite app_nil_r|].
    cbn [fst snd]. unfold move_append_obj at 2. rewrite c_str_id by exact (Forall_inv HZ).
    rewrite dict_set_new.
    - rewrite IH; [now rewrite <- app_assoc| |exact (Forall_inv_tail HZ)]. now rewrite <- app_assoc.
    - rewrite map_app in HD. cbn [map fst] in HD. apply NoDup_remove_2 in HD. intros HI. apply HD.
      apply in_or_app. now left. }
  now rewrite G.
Qed.

(** ** generated texts *)
Context (print : num -> list N) (rt : num -> num).
Notation reread := (reread rt).
Lemma blank_tabs n : blank (tabs n).
Proof. clear. unfold tabs. induction n; constructor; auto. unfold is_ws. auto. Qed.
Lemma blank_nl w : blank w -> blank (0x0A :: w).
Proof. clear. intros. constructor; auto. unfold is_ws. auto. Qed.
Lemma blank_sp : blank [0x20].
Proof. clear. repeat constructor. Qed.

Lemma elements_gen D (n : nat) x vx (items : list ((nat -> list N) * value)) w :
  jvalue strtod D (x n) vx -> Forall (fun iv => jvalue strtod D (fst iv n) (snd iv)) items -> blank w ->
  jelements strtod D (x n ++ concat (map (fun y : nat -> list N => [0x2C; 0x0A] ++ tabs n ++ y n) (map fst items)) ++ w)
    (vx :: map snd items).
Proof.
  revert x vx. induction items as [|[y vy] items IH]; intros x vx HX HI HW; cbn [map concat fst snd app].
  - now apply je_one.
  - rewrite <- !app_assoc.
    apply (je_cons strtod D (x n) vx [] (0x0A :: tabs n) (y n ++ _) (vy :: map snd items)); auto.
    + constructor.
    + apply blank_nl, blank_tabs.
    + apply IH; auto. exact (Forall_inv HI). exact (Forall_inv_tail HI).
Qed.
Lemma members_gen D (n : nat) kx sx (x : nat -> list N) vx (items : list ((list N * list N) * ((nat -> list N) * value))) w :
  quoted D kx sx -> jvalue strtod D (x n) vx ->
  Forall (fun iv => quoted D (fst (fst iv)) (snd (fst iv)) /\ jvalue strtod D (fst (snd iv) n) (snd (snd iv))) items ->
  blank w ->
  jmembers strtod D (kx ++ [0x3A; 0x20] ++ x n ++
      concat (map (fun y : nat -> list N => [0x2C; 0x0A] ++ tabs n ++ y n)
        (map (fun (iv : (list N * list N) * ((nat -> list N) * value)) n => fst (fst iv) ++ [0x3A; 0x20] ++ fst (snd iv) n) items)) ++ w)
    ((sx, vx) :: map (fun iv => (snd (fst iv), snd (snd iv))) items).
Proof.
  revert kx sx x vx. induction items as [|[[ky sy] [y vy]] items IH]; intros kx sx x vx HK HX HI HW; cbn [map concat fst snd app].
  - apply (jm_one strtod D kx sx [] [0x20] (x n) vx w); auto using blank_sp. constructor.
  - repeat (rewrite <- app_assoc; cbn [app]).
    destruct (Forall_inv HI) as [H1 H2]. cbn [fst snd] in H1, H2.
    apply (jm_cons strtod D kx sx [] [0x20] (x n) vx [] (0x0A :: tabs n)
      (ky ++ 0x3A :: 0x20 :: y n ++ _) ((sy, vy) :: _)); auto using blank_sp.
    + constructor.
    + constructor.
    + apply blank_nl, blank_tabs.
    + apply (IH ky sy y vy); auto. exact (Forall_inv_tail HI).
Qed.

Definition num_ok (x : num) : Prop := json_number (print x) /\ strtod (print x) = Some (rt x).
Lemma fold_and_Forall {A} (f : A -> Prop) l : fold_right and True (map f l) <-> Forall f l.
Proof.
  induction l as [|a l IH]; cbn; split; intros H; auto.
  - constructor; tauto.
  - split; [exact (Forall_inv H)|]. apply IH. exact (Forall_inv_tail H).
Qed.
Lemma map_fst_reread (l : list (list N * value)) : map fst (map (fun kv => (fst kv, reread (snd kv))) l) = map fst l.
Proof. induction l; cbn; congruence. Qed.

Theorem generate_jvalue v : proper num_ok v -> forall n, jvalue strtod Common (generate_ print v n) (reread v).
Proof.
  induction v as [|b|x|s|l IH|l IH] using value_ind2; intros HP n; cbn [generate_ reread].
  - constructor.
  - destruct b; constructor.
  - destruct HP as [H1 H2]. now constructor.
  - constructor. apply generate_string_ok.
  - cbn [proper] in HP. apply fold_and_Forall in HP.
    assert (HG : forall n, Forall (fun iv => jvalue strtod Common (fst iv n) (snd iv))
        (map (fun v => (generate_ print v, reread v)) l)).
    { intros m. apply Forall_map. cbn [fst snd]. rewrite Forall_forall in *. intros v Hv. apply IH; auto. }
    destruct l as [|v l]; [apply (j_arr0 strtod Common [0x20] blank_sp)|].
    destruct l as [|v2 l].
    + cbn [map generate_list].
      rewrite <- !app_assoc. replace ([0x5B] ++ [0x20] ++ generate_ print v n ++ [0x20] ++ [0x5D])
        with ([0x5B] ++ [0x20] ++ (generate_ print v n ++ [0x20]) ++ [0x5D]) by (now rewrite <- app_assoc).
      apply j_arr; auto using blank_sp. apply je_one; auto using blank_sp.
      specialize (HG n). exact (Forall_inv HG).
    + remember (v2 :: l) as rest eqn:ER.
      assert (E : generate_list (map (fun v => generate_ print v) (v :: rest)) n =
        (0x0A :: tabs (S n)) ++ generate_ print v (S n) ++
        concat (map (fun y : nat -> list N => [0x2C; 0x0A] ++ tabs (S n) ++ y (S n))
          (map fst (map (fun v => (generate_ print v, reread v)) rest))) ++ (0x0A :: tabs n)).
      { rewrite (map_map (fun v => (generate_ print v, reread v)) fst). cbn [fst]. subst rest.
        cbn [map generate_list]. repeat (rewrite <- app_assoc; cbn [app]). reflexivity. }
      rewrite E.
      match goal with |- jvalue _ _ (_ ++ (?a ++ ?b ++ ?c ++ ?d) ++ ?e) _ =>
        replace ([0x5B] ++ (a ++ b ++ c ++ d) ++ e) with ([0x5B] ++ a ++ (b ++ c ++ d) ++ e) by (now rewrite <- !app_assoc) end.
      apply j_arr; [apply blank_nl, blank_tabs|].
      replace (map reread (v :: rest)) with (reread v :: map snd (map (fun v => (generate_ print v, reread v)) rest))
        by (rewrite map_map; reflexivity).
      specialize (HG (S n)). cbn [map] in HG.
      apply (elements_gen Common (S n) (generate_ print v)); [exact (Forall_inv HG)|exact (Forall_inv_tail HG)|].
      apply blank_nl, blank_tabs.
  - cbn [proper] in HP. destruct HP as [HD [HZ HP]]. apply fold_and_Forall in HP.
    set (item := fun kv : list N * value => ((generate_string (fst kv), fst kv), (generate_ print (snd kv), reread (snd kv)))).
    assert (HG : forall n, Forall (fun iv => quoted Common (fst (fst iv)) (snd (fst iv)) /\
        jvalue strtod Common (fst (snd iv) n) (snd (snd iv))) (map item l)).
    { intros m. apply Forall_map. unfold item. cbn [fst snd]. rewrite Forall_forall in *. intros v Hv.
      split; [apply generate_string_ok|]. apply IH; auto. }
    rewrite <- (build_dict (map (fun kv => (fst kv, reread (snd kv))) l));
      [|now rewrite map_fst_reread|apply Forall_map; exact HZ].
    set (R := fun kv : list N * value => (fst kv, reread (snd kv))).
    destruct l as [|v l]; [apply (j_obj0 strtod Common [0x20] blank_sp)|].
    destruct l as [|v2 l].
    + cbn [map generate_list].
      replace ([0x7B] ++ ([0x20] ++ (generate_string (fst v) ++ [0x3A; 0x20] ++ generate_ print (snd v) n) ++ [0x20]) ++ [0x7D])
        with ([0x7B] ++ [0x20] ++ (generate_string (fst v) ++ [] ++ [0x3A] ++ [0x20] ++ generate_ print (snd v) n ++ [0x20]) ++ [0x7D])
        by (repeat (rewrite <- app_assoc; cbn [app]); reflexivity).
      apply j_obj; auto using blank_sp. specialize (HG n). pose proof (Forall_inv HG) as [HA HB].
      unfold R. apply jm_one; auto using blank_sp. constructor.
    + remember (v2 :: l) as rest eqn:ER.
      match goal with |- jvalue _ _ ([_] ++ ?g ++ [_]) _ => assert (E : g =
        (0x0A :: tabs (S n)) ++ (generate_string (fst v) ++ [0x3A; 0x20] ++ generate_ print (snd v) (S n) ++
        concat (map (fun y : nat -> list N => [0x2C; 0x0A] ++ tabs (S n) ++ y (S n))
          (map (fun (iv : (list N * list N) * ((nat -> list N) * value)) n => fst (fst iv) ++ [0x3A; 0x20] ++ fst (snd iv) n)
            (map item rest))) ++ (0x0A :: tabs n))) end.
      { rewrite (map_map item (fun iv n => fst (fst iv) ++ [0x3A; 0x20] ++ fst (snd iv) n)). subst rest. cbn [map generate_list]. unfold item.
        repeat (rewrite <- app_assoc; cbn [app]). reflexivity. }
      rewrite E. rewrite <- (app_assoc (0x0A :: _)).
      apply j_obj; [apply blank_nl, blank_tabs|].
      replace (map R (v :: rest)) with ((fst v, reread (snd v)) :: map (fun iv => (snd (fst iv), snd (snd iv))) (map item rest))
        by (rewrite map_map; reflexivity).
      specialize (HG (S n)). cbn [map] in HG. pose proof (Forall_inv HG) as [HA HB]. 
      apply (members_gen Common (S n) _ _ (generate_ print (snd v))); [exact HA|exact HB|exact (Forall_inv_tail HG)|].
      apply blank_nl, blank_tabs.
Qed.
End V.
