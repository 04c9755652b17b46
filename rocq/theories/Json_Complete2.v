(** Every JSON text without surrogate escapes is parsed to the value it denotes (for C25, C51). *)
From Verif Require Import Prelude Unicode_Spec Json_Model Json_Spec Json_Safe Json_Utf8 Json_Complete.
Ltac Zify.zify_post_hook ::= idtac.
Local Open Scope N_scope.

Ltac side := first [reflexivity | lia | discriminate].
Definition follow (r : list N) : Prop :=
  match r with [] => False | c :: _ => is_ws c \/ c = 0x2C \/ c = 0x5D \/ c = 0x7D end.
Lemma follow_stops r : follow r -> stops r.
Proof.
  destruct r as [|c r]; [easy|]. cbn. unfold is_ws, digit.
  intros H. destruct (N.leb_spec 0x30 c), (N.leb_spec c 0x39); cbn; try lia; repeat split; try reflexivity; lia.
Qed.
Lemma follow_nz r : follow r -> match r with [] => False | c :: _ => c <> 0 end.
Proof. destruct r as [|c r]; [easy|]. cbn. unfold is_ws. lia. Qed.
Lemma follow_blank w r : blank w -> follow r -> follow (w ++ r).
Proof. intros H F. destruct w as [|c w]; auto. cbn. left. exact (Forall_inv H). Qed.
Lemma skip_len l : (length (skip_ws_list l) <= length l)%nat.
Proof. apply sfx_len, skip_ws_sfx. Qed.
Lemma structural_no x l c r : x <> 0 -> skip_ws_list l = c :: r -> c <> x ->
  is_structural_char x (At l) = Ok (false, At (c :: r)).
Proof.
  intros H E N0. rewrite structural_miss; auto.
  - now rewrite E.
  - intros q. rewrite E. congruence.
Qed.

Section V.
Context {num : Type} (strtod : list N -> option num) (D : dialect) (HD : asl_ok D).
Notation value := (value num).
Notation is_value := (is_value strtod).
Notation jvalue := (jvalue strtod D).
Notation jelements := (jelements strtod D).
Notation jmembers := (jmembers strtod D).

(** how the text of a value starts *)
Definition starts (t : list N) : Prop := match t with [] => False | c :: _ => ws c = false end.
Lemma quoted_hd t s : quoted D t s -> exists u, t = 0x22 :: u.
Proof. intros [raw [-> _]]. eexists. reflexivity. Qed.
Lemma number_hd t : json_number t -> exists c u, t = c :: u /\ (c = 0x2D \/ is_dig c).
Proof.
  intros (sg&i&f&e&->&Hs&Hi&_). unfold is_dig.
  destruct Hs as [->| ->]; [|eexists _, _; split; [reflexivity|now left]].
  destruct Hi as [->|[d [ds [-> [H _]]]]]; eexists _, _; (split; [reflexivity|right; lia]).
Qed.
Lemma jvalue_starts t v : jvalue t v -> starts t.
Proof.
  intros H. destruct H; cbn; auto.
  - destruct (quoted_hd _ _ H) as [u ->]. reflexivity.
  - destruct (number_hd _ H) as [c [u [-> H1]]]. cbn. unfold is_dig in H1.
    destruct (ws c) eqn:E; auto. apply ws_iff in E. unfold is_ws in E. lia.
Qed.
Lemma starts_app t r : starts t -> starts (t ++ r).
Proof. destruct t; easy. Qed.
Lemma starts_skip t : starts t -> skip_ws_list t = t.
Proof. destruct t as [|c t]; [easy|]. apply skip_nws. Qed.
Lemma jelements_starts t l : jelements t l -> starts t.
Proof. intros H. destruct H; apply starts_app; eapply jvalue_starts; eauto. Qed.
Lemma jmembers_hd t l : jmembers t l -> exists u, t = 0x22 :: u.
Proof.
  intros H. destruct H; destruct (quoted_hd _ _ H) as [u ->]; eexists; reflexivity.
Qed.

Definition Pv (t : list N) (v : value) : Prop := forall fuel rest,
  (length t < fuel)%nat -> container v \/ follow rest ->
  exists r, is_value fuel (At (t ++ rest)) = Ok (Some v, At r) /\
    skip_ws_list r = skip_ws_list rest /\ (length r <= length rest)%nat.
Definition Pe (t : list N) (l : list value) : Prop := forall fuel rest,
  (length t < fuel)%nat ->
  exists v l' r, l = v :: l' /\
    is_value fuel (At (t ++ 0x5D :: rest)) = Ok (Some v, At r) /\
    (length r <= length (t ++ 0x5D%N :: rest))%nat /\
    forall acc k, (length r < k)%nat ->
      elements_loop (is_value fuel) k acc (At r) = Ok (acc ++ l', At (0x5D :: rest)).
Definition Pm (t : list N) (l : list (list N * value)) : Prop := forall fuel rest,
  (length t < fuel)%nat ->
  exists s v l' r1 r2, l = (s, v) :: l' /\
    is_string_to [] (At (t ++ 0x7D :: rest)) = Ok (true, s, At r1) /\
    member_value (is_value fuel) (At r1) = Ok (v, At r2) /\
    (length r2 <= length (t ++ 0x7D%N :: rest))%nat /\
    forall acc k, (length r2 < k)%nat ->
      members_loop (is_value fuel) k acc (At r2) =
      Ok (fold_left (fun o kv => move_append_obj o (fst kv) (snd kv)) l' acc, At (0x7D :: rest)).

Lemma value_literal lit v fuel rest :
  (lit = lit_true /\ v = VBool true) \/ (lit = lit_false /\ v = VBool false) \/ (lit = lit_null /\ v = VNull) ->
  follow rest -> is_value (S fuel) (At (lit ++ rest)) = Ok (Some v, At rest).
Proof.
  intros H F. cbn [Json_Model.is_value]. unfold or_else, is_bool, is_null.
  apply follow_nz in F.
  destruct H as [[-> ->]|[[-> ->]|[-> ->]]]; unfold lit_true, lit_false, lit_null; cbn [app].
  - rewrite string_miss by lia. cbn [bind]. rewrite number_miss by side. cbn [bind].
    rewrite object_miss by side. cbn [bind].
    rewrite array_miss by side. cbn [bind].
    unfold is_sequence at 1. rewrite is_char_hit. cbn [bind].
    pose proof (sequence_ok [0x72; 0x75; 0x65] rest F) as Q; cbn [app] in Q; rewrite Q; reflexivity.
  - rewrite string_miss by lia. cbn [bind]. rewrite number_miss by side. cbn [bind].
    rewrite object_miss by side. cbn [bind].
    rewrite array_miss by side. cbn [bind].
    rewrite sequence_miss by lia. cbn [bind].
    unfold is_sequence at 1. rewrite is_char_hit. cbn [bind].
    pose proof (sequence_ok [0x61; 0x6C; 0x73; 0x65] rest F) as Q; cbn [app] in Q; rewrite Q; reflexivity.
  - rewrite string_miss by lia. cbn [bind]. rewrite number_miss by side. cbn [bind].
    rewrite object_miss by side. cbn [bind].
    rewrite array_miss by side. cbn [bind].
    rewrite sequence_miss by lia. cbn [bind].
    rewrite sequence_miss by lia. cbn [bind].
    unfold is_sequence at 1. rewrite is_char_hit. cbn [bind].
    pose proof (sequence_ok [0x75; 0x6C; 0x6C] rest F) as Q; cbn [app] in Q; rewrite Q; reflexivity.
Qed.

Lemma value_array fuel l : is_value (S fuel) (At (0x5B :: l)) =
  bind (is_array (is_value fuel) (At (0x5B :: l)))
    (fun q => let '(o, p) := q in match o with Some v => Ok (Some v, p) | None => or_else is_bool is_null p end).
Proof.
  cbn [Json_Model.is_value]. unfold or_else at 1. rewrite string_miss by lia. cbn [bind].
  unfold or_else at 1. rewrite number_miss by side. cbn [bind].
  unfold or_else at 1. rewrite object_miss by side. cbn [bind]. reflexivity.
Qed.
Lemma value_object fuel l : is_value (S fuel) (At (0x7B :: l)) =
  bind (is_object (is_value fuel) (At (0x7B :: l)))
    (fun q => let '(o, p) := q in match o with Some v => Ok (Some v, p)
       | None => or_else (is_array (is_value fuel)) (or_else is_bool is_null) p end).
Proof.
  cbn [Json_Model.is_value]. unfold or_else at 1. rewrite string_miss by lia. cbn [bind].
  unfold or_else at 1. rewrite number_miss by side. cbn [bind].
  unfold or_else at 1. reflexivity.
Qed.

Lemma array_full fuel w t l rest : blank w -> jelements t l -> Pe t l -> (length t < fuel)%nat ->
  is_array (is_value fuel) (At (([0x5B] ++ w ++ t ++ [0x5D]) ++ rest)) =
  Ok (Some (VArr l), At (skip_ws_list rest)).
Proof.
  intros HW HT HP HF. unfold is_array.
  rewrite <- !app_assoc. cbn [app].
  rewrite (structural_hit 0x5B _ (w ++ t ++ 0x5D :: rest)) by (apply skip_nws; reflexivity).
  cbn [bind negb]. rewrite skip_blank by exact HW.
  rewrite starts_skip by (apply starts_app; eapply jelements_starts; eauto).
  destruct (HP fuel rest HF) as [v [l' [r [-> [E1 [E2 E3]]]]]]. rewrite E1. cbn [bind].
  rewrite E3 by (cbn [plen]; lia). cbn [bind].
  rewrite (structural_hit 0x5D _ rest) by (apply skip_nws; reflexivity). reflexivity.
Qed.
Lemma array_empty fuel w rest : blank w -> (0 < fuel)%nat ->
  is_array (is_value fuel) (At (([0x5B] ++ w ++ [0x5D]) ++ rest)) =
  Ok (Some (VArr []), At (skip_ws_list rest)).
Proof.
  intros HW HF. unfold is_array.
  rewrite <- !app_assoc. cbn [app].
  rewrite (structural_hit 0x5B _ (w ++ 0x5D :: rest)) by (apply skip_nws; reflexivity).
  cbn [bind negb]. rewrite skip_blank by exact HW. rewrite skip_nws by reflexivity.
  destruct fuel as [|fuel]; [lia|]. rewrite value_none by lia. cbn [bind].
  rewrite (structural_hit 0x5D _ rest) by (apply skip_nws; reflexivity). reflexivity.
Qed.
Lemma object_full fuel w t l rest : blank w -> jmembers t l -> Pm t l -> (length t < fuel)%nat ->
  is_object (is_value fuel) (At (([0x7B] ++ w ++ t ++ [0x7D]) ++ rest)) =
  Ok (Some (VObj (fold_left (fun o kv => move_append_obj o (fst kv) (snd kv)) l [])), At (skip_ws_list rest)).
Proof.
  intros HW HT HP HF. unfold is_object.
  rewrite <- !app_assoc. cbn [app].
  rewrite (structural_hit 0x7B _ (w ++ t ++ 0x7D :: rest)) by (apply skip_nws; reflexivity).
  cbn [bind negb]. rewrite skip_blank by exact HW.
  rewrite starts_skip by (destruct (jmembers_hd _ _ HT) as [u ->]; reflexivity).
  destruct (HP fuel rest HF) as [s [v [l' [r1 [r2 [-> [E1 [E2 [E3 E4]]]]]]]]]. rewrite E1. cbn [bind].
  rewrite E2. cbn [bind]. rewrite E4 by (cbn [plen]; lia). cbn [bind].
  rewrite (structural_hit 0x7D _ rest) by (apply skip_nws; reflexivity). reflexivity.
Qed.
Lemma object_empty fuel w rest : blank w ->
  is_object (is_value fuel) (At (([0x7B] ++ w ++ [0x7D]) ++ rest)) =
  Ok (Some (VObj []), At (skip_ws_list rest)).
Proof.
  intros HW. unfold is_object.
  rewrite <- !app_assoc. cbn [app].
  rewrite (structural_hit 0x7B _ (w ++ 0x7D :: rest)) by (apply skip_nws; reflexivity).
  cbn [bind negb]. rewrite skip_blank by exact HW. rewrite skip_nws by reflexivity.
  rewrite string_to_miss by lia. cbn [bind].
  rewrite (structural_hit 0x7D _ rest) by (apply skip_nws; reflexivity). reflexivity.
Qed.

Lemma member_ok fuel w1 w2 t v rest : blank w1 -> blank w2 -> jvalue t v -> Pv t v ->
  (length t < fuel)%nat -> follow rest ->
  exists r, member_value (is_value fuel) (At (w1 ++ [0x3A] ++ w2 ++ t ++ rest)) = Ok (v, At r) /\
    skip_ws_list r = skip_ws_list rest /\ (length r <= length rest)%nat.
Proof.
  intros H1 H2 HT HP HF HR. destruct (HP fuel rest HF (or_intror HR)) as [r [E1 [E2 E3]]].
  exists r. split; [|auto]. unfold member_value.
  rewrite (structural_hit 0x3A _ (w2 ++ t ++ rest)).
  2:{ rewrite skip_blank by exact H1. apply skip_nws. reflexivity. }
  cbn [bind require]. rewrite skip_blank by exact H2.
  rewrite starts_skip by (apply starts_app; eapply jvalue_starts; eauto).
  rewrite E1. reflexivity.
Qed.

Theorem complete_all :
  (forall t v, jvalue t v -> Pv t v) /\ (forall t l, jelements t l -> Pe t l) /\
  (forall t l, jmembers t l -> Pm t l).
Proof.
  apply (jtext_mutind num strtod D (fun t v _ => Pv t v) (fun t l _ => Pe t l) (fun t l _ => Pm t l)).
  - intros fuel rest HF [[]|HR]. destruct fuel as [|fuel]; [lia|]. exists rest.
    split; [|auto]. apply (value_literal lit_null); auto.
  - intros fuel rest HF [[]|HR]. destruct fuel as [|fuel]; [lia|]. exists rest.
    split; [|auto]. apply (value_literal lit_true); auto.
  - intros fuel rest HF [[]|HR]. destruct fuel as [|fuel]; [lia|]. exists rest.
    split; [|auto]. apply (value_literal lit_false); auto.
  - intros t s HQ fuel rest HF HR. destruct fuel as [|fuel]; [lia|]. exists rest.
    split; [|auto]. cbn [Json_Model.is_value]. unfold or_else at 1. unfold is_string.
    rewrite (string_to_ok D HD t s HQ). reflexivity.
  - intros t x HN HX fuel rest HF [[]|HR]. destruct fuel as [|fuel]; [lia|]. exists rest.
    split; [|auto]. cbn [Json_Model.is_value].
    destruct (number_hd _ HN) as [c [u [E Hc]]]. unfold is_dig in Hc.
    unfold or_else at 1. unfold or_else at 1.
    pose proof (number_ok strtod t x rest HN HX (follow_stops _ HR)) as Q. rewrite E in *. cbn [app] in *.
    rewrite string_miss by lia. cbn [bind]. rewrite Q. reflexivity.
  - intros w HW fuel rest HF _. destruct fuel as [|fuel]; [lia|]. exists (skip_ws_list rest).
    split; [|split; [apply skip_ws_idem|apply skip_len]].
    pose proof (array_empty fuel w rest HW) as Q. cbn [app length] in *. rewrite value_array, Q.
    + reflexivity.
    + rewrite app_length in HF. cbn [length] in HF. lia.
  - intros w t l HW HT HP fuel rest HF _. destruct fuel as [|fuel]; [lia|]. exists (skip_ws_list rest).
    split; [|split; [apply skip_ws_idem|apply skip_len]].
    pose proof (array_full fuel w t l rest HW HT HP) as Q. rewrite !app_length in HF.
    cbn [app length] in *. rewrite value_array, Q by lia. reflexivity.
  - intros w HW fuel rest HF _. destruct fuel as [|fuel]; [lia|]. exists (skip_ws_list rest).
    split; [|split; [apply skip_ws_idem|apply skip_len]].
    pose proof (object_empty fuel w rest HW) as Q. cbn [app length] in *. rewrite value_object, Q. reflexivity.
  - intros w t l HW HT HP fuel rest HF _. destruct fuel as [|fuel]; [lia|]. exists (skip_ws_list rest).
    split; [|split; [apply skip_ws_idem|apply skip_len]].
    pose proof (object_full fuel w t l rest HW HT HP) as Q. rewrite !app_length in HF.
    cbn [app length] in *. rewrite value_object, Q by lia. reflexivity.
  - (* last element *)
    intros t v w HT HP HW fuel rest HF.
    rewrite app_length in HF.
    destruct (HP fuel (w ++ 0x5D :: rest)) as [r [E1 [E2 E3]]]; [lia|right; apply follow_blank; cbn; auto|].
    exists v, [], r. split; [reflexivity|]. rewrite <- app_assoc. split; [exact E1|].
    split; [rewrite (app_length t); lia|].
    intros acc k HK. destruct k as [|k]; [lia|]. cbn [elements_loop].
    rewrite skip_blank, (skip_nws 0x5D) in E2 by (reflexivity || exact HW).
    rewrite (structural_no 0x2C r 0x5D rest) by (lia || exact E2). cbn [bind negb]. now rewrite app_nil_r.
  - intros t v w1 w2 t2 l HT HP H1 H2 HT2 HP2 fuel rest HF.
    rewrite !app_length in HF.
    destruct (HP fuel (w1 ++ 0x2C :: w2 ++ t2 ++ 0x5D :: rest)) as [r [E1 [E2 E3]]];
      [lia|right; apply follow_blank; cbn; auto|].
    destruct (HP2 fuel rest) as [v2 [l2 [r2 [-> [F1 [F2 F3]]]]]]; [lia|].
    exists v, (v2 :: l2), r. split; [reflexivity|].
    rewrite <- !app_assoc. cbn [app]. split; [exact E1|].
    split; [rewrite (app_length t); lia|].
    intros acc k HK. destruct k as [|k]; [lia|]. cbn [elements_loop].
    rewrite skip_blank, (skip_nws 0x2C) in E2 by (reflexivity || exact H1).
    rewrite (structural_hit 0x2C r _ E2). cbn [bind negb].
    rewrite skip_blank by exact H2.
    rewrite starts_skip by (apply starts_app; eapply jelements_starts; eauto).
    unfold required. rewrite F1. cbn [bind]. rewrite F3.
    + now rewrite <- app_assoc.
    + assert (length (skip_ws_list r) <= length r)%nat by apply skip_len. rewrite E2 in H. cbn [length] in H.
      rewrite !app_length in H. rewrite !app_length in F2. cbn [length] in *. lia.
  - (* last member *)
    intros k s w1 w2 t v w HQ H1 H2 HT HP HW fuel rest HF.
    rewrite !app_length in HF.
    destruct (member_ok fuel w1 w2 t v (w ++ 0x7D :: rest) H1 H2 HT HP) as [r [E1 [E2 E3]]];
      [lia|apply follow_blank; cbn; auto|].
    eexists s, v, [], _, r. split; [reflexivity|].
    rewrite <- !app_assoc. cbn [app]. split; [apply (string_to_ok D HD); exact HQ|].
    split; [exact E1|].
    split; [rewrite (app_length k), (app_length w1); cbn [length]; rewrite (app_length w2), (app_length t); lia|].
    intros acc n HK. destruct n as [|n]; [lia|]. cbn [members_loop].
    rewrite skip_blank, (skip_nws 0x7D) in E2 by (reflexivity || exact HW).
    rewrite (structural_no 0x2C r 0x7D rest) by (lia || exact E2). reflexivity.
  - intros k s w1 w2 t v w3 w4 t2 l HQ H1 H2 HT HP H3 H4 HT2 HP2 fuel rest HF.
    rewrite !app_length in HF.
    destruct (member_ok fuel w1 w2 t v (w3 ++ 0x2C :: w4 ++ t2 ++ 0x7D :: rest) H1 H2 HT HP) as [r [E1 [E2 E3]]];
      [lia|apply follow_blank; cbn; auto|].
    destruct (HP2 fuel rest) as [s2 [v2 [l2 [r1 [r2 [-> [F1 [F2 [F3 F4]]]]]]]]]; [lia|].
    eexists s, v, ((s2, v2) :: l2), _, r. split; [reflexivity|].
    rewrite <- !app_assoc. cbn [app]. split; [apply (string_to_ok D HD); exact HQ|].
    split; [exact E1|].
    split; [rewrite (app_length k), (app_length w1); cbn [length]; rewrite (app_length w2), (app_length t); lia|].
    intros acc n HK. destruct n as [|n]; [lia|]. cbn [members_loop].
    rewrite skip_blank, (skip_nws 0x2C) in E2 by (reflexivity || exact H3).
    rewrite (structural_hit 0x2C r _ E2). cbn [bind negb].
    rewrite skip_blank by exact H4.
    rewrite starts_skip by (destruct (jmembers_hd _ _ HT2) as [u ->]; reflexivity).
    rewrite F1. cbn [bind require]. rewrite F2. cbn [bind]. rewrite F4.
    + reflexivity.
    + assert (length (skip_ws_list r) <= length r)%nat by apply skip_len. rewrite E2 in H. cbn [length] in H.
      rewrite !app_length in H. rewrite !app_length in F3. cbn [length] in *. lia.
Qed.

(** the whole parser; it ignores everything after the outermost bracket *)
Theorem parse_complete w u v junk : blank w -> jvalue u v -> container v ->
  json_parse strtod (w ++ u ++ junk) = Ok v.
Proof.
  intros HW HV HC. unfold json_parse. destruct complete_all as [_ [CE CM]].
  set (val := is_value (S (length (w ++ u ++ junk)))).
  assert (G : exists r, or_else (is_object val) (is_array val) (At (w ++ u ++ junk)) = Ok (Some v, r)).
  { assert (HL : (length u < S (length (w ++ u ++ junk)))%nat) by (rewrite !app_length; lia).
    assert (Sk : forall x l, skip_ws_list (w ++ x :: l) = skip_ws_list (x :: l)) by (intros; apply skip_blank, HW).
    assert (SO : forall l, is_object val (At (w ++ 0x7B :: l)) = is_object val (At (0x7B :: l))).
    { intros l. unfold is_object. now rewrite (structural_hit 0x7B (w ++ 0x7B :: l) l), (structural_hit 0x7B (0x7B :: l) l)
        by (rewrite ?Sk; apply skip_nws; reflexivity). }
    assert (SA : forall l, is_object val (At (w ++ 0x5B :: l)) = Ok (None, At (0x5B :: l))).
    { intros l. unfold is_object. rewrite (structural_no 0x7B (w ++ 0x5B :: l) 0x5B l); auto; try lia.
      rewrite ?Sk; apply skip_nws; reflexivity. }
    destruct HV as [| | | | |w' HB|w' t' l' HB He|w' HB|w' t' l' HB He]; try easy.
    - pose proof (array_empty (S (length (w ++ ([0x5B] ++ w' ++ [0x5D]) ++ junk))) w' junk HB ltac:(lia)) as Q.
      cbn [app] in *. unfold or_else. rewrite SA. cbn [bind]. unfold val. rewrite Q. eexists; reflexivity.
    - pose proof (array_full (S (length (w ++ ([0x5B] ++ w' ++ t' ++ [0x5D]) ++ junk))) w' t' l' junk HB He (CE _ _ He)) as Q.
      cbn [app] in *. unfold or_else. rewrite SA. cbn [bind]. unfold val. rewrite Q. { eexists; reflexivity. }
      clear. repeat (rewrite app_length; cbn [length]). lia.
    - pose proof (object_empty (S (length (w ++ ([0x7B] ++ w' ++ [0x7D]) ++ junk))) w' junk HB) as Q.
      cbn [app] in *. unfold or_else. rewrite SO. unfold val. rewrite Q. eexists; reflexivity.
    - pose proof (object_full (S (length (w ++ ([0x7B] ++ w' ++ t' ++ [0x7D]) ++ junk))) w' t' l' junk HB He (CM _ _ He)) as Q.
      cbn [app] in *. unfold or_else. rewrite SO. unfold val. rewrite Q. { eexists; reflexivity. }
      clear. repeat (rewrite app_length; cbn [length]). lia. }
  destruct G as [r G]. unfold required. rewrite G. reflexivity.
Qed.
End V.
