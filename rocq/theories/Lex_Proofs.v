(** The lexer's functions, computed exactly on lexemes. *)
From Coq Require Import String Ascii ZArith List Bool Lia Floats.SpecFloat.
From Verif Require Import Prelude Vm_Value Search_Model Token_Model Token_Props Expr_Model Lex_Model Lex_Spec.
Import ListNotations.
Local Open Scope Z_scope.
Ltac Zify.zify_post_hook ::= idtac.

(** *** characters *)
Lemma every_byte (P : ascii -> bool) :
  (forallb P (map (fun n => ascii_of_nat n) (seq 0 256)) = true) -> forall c, P c = true.
Proof.
  intros H c. rewrite forallb_forall in H. apply H. rewrite <- (ascii_nat_embedding c). apply in_map_iff.
  exists (nat_of_ascii c). split; [reflexivity|]. apply in_seq. split; [lia|]. cbn [Nat.add].
  exact (nat_ascii_bounded c).
Qed.
Definition obeq (a b : option bool) : bool :=
  match a, b with Some x, Some y => Bool.eqb x y | None, None => true | _, _ => false end.
Lemma obeq_eq a b : obeq a b = true -> a = b.
Proof. destruct a as [[]|], b as [[]|]; cbn; congruence. Qed.
Definition guard (c : ascii) (b : bool) : option bool := if high c then None else Some b.
Ltac bytes := intros c; apply obeq_eq; revert c; apply every_byte; vm_compute; reflexivity.
Lemma isdigit_c : forall c, isdigit (to_int c) = guard c (digit c). Proof. bytes. Qed.
Lemma isxdigit_c : forall c, isxdigit (to_int c) = guard c (hexit c). Proof. bytes. Qed.
Lemma isalpha_c : forall c, isalpha (to_int c) = guard c (letter c). Proof. bytes. Qed.
Lemma isalnum_c : forall c, isalnum (to_int c) = guard c (letter c || digit c). Proof. bytes. Qed.
Lemma isspace_c : forall c, isspace (to_int c) = guard c (space c). Proof. bytes. Qed.
Ltac bytesb := intros c; let H := fresh in
  match goal with |- ?a = ?b => assert (H : Bool.eqb a b = true); [|apply eqb_prop in H; exact H] end;
  revert c; apply every_byte; vm_compute; reflexivity.
Lemma to_int_eq z c : 0 <= z < 128 -> (to_int c =? z) = (code c =? z).
Proof.
  intros H. unfold to_int, code. destruct (Z.of_N (N_of_ascii c) <? 128) eqn:E; [reflexivity|].
  pose proof (N_ascii_bounded c) as B.
  destruct (Z.eqb_spec (Z.of_N (N_of_ascii c) - 256) z); destruct (Z.eqb_spec (Z.of_N (N_of_ascii c)) z); lia.
Qed.
Lemma code_ascii c d : (code c =? code d) = Ascii.eqb c d.
Proof.
  destruct (Ascii.eqb_spec c d) as [-> | N]; [apply Z.eqb_refl|]. apply Z.eqb_neq. unfold code. intros H.
  apply N. apply (f_equal Z.to_N) in H. rewrite !N2Z.id in H.
  rewrite <- (ascii_N_embedding c), <- (ascii_N_embedding d), H. reflexivity.
Qed.
Lemma to_int_char d c : (code d <? 128) = true -> (to_int c =? code d) = Ascii.eqb c d.
Proof.
  intros H. rewrite to_int_eq; [apply code_ascii|]. unfold code in *. lia.
Qed.
Lemma high_char c d : Ascii.eqb c d = true -> high d = false -> high c = false.
Proof. intros H ?. apply Ascii.eqb_eq in H. subst. assumption. Qed.

(** *** the view of a state *)
Definition rem (s : st) : list ascii := pb s ++ inp s.
Definition here (s : st) : place := mk_place (position s) (line s) (line_start s).
Definition at_ (s : st) (n : nat) (r : list ascii) (p : place) : Prop :=
  rem s = r /\ (List.length (pb s) <= n)%nat /\ here s = p.

Lemma at_weaken s n m r p : (n <= m)%nat -> at_ s n r p -> at_ s m r p.
Proof. intros H (a & b & c). repeat split; auto; lia. Qed.
Lemma get_nil s n p : at_ s n [] p -> get_char s = None.
Proof.
  intros (H & _). unfold rem in H. apply app_eq_nil in H as [H1 H2]. unfold get_char. rewrite H1, H2. reflexivity.
Qed.
Lemma get_cons s n c r p :
  at_ s n (c :: r) p -> exists s', get_char s = Some (c, s') /\ at_ s' (pred n) r (move 1 p).
Proof.
  intros (H & L & E). unfold rem in H. unfold get_char. destruct s as [b i po li ls]. cbn [pb inp position line line_start] in *.
  destruct b as [|x b].
  - cbn in H. subst i. eexists. split; [reflexivity|]. repeat split; [cbn; lia|]. subst p. reflexivity.
  - cbn in H. injection H as <- <-. eexists. split; [reflexivity|]. repeat split; [cbn [List.length pb] in *; lia|]. subst p. reflexivity.
Qed.
Definition unmove (p : place) : place := mk_place (characters p - 1) (line_number p) (line_begins p).
Lemma unmove_move p : unmove (move 1 p) = p.
Proof. destruct p. unfold unmove, move. cbn. f_equal. lia. Qed.
Lemma put s n c r p :
  (n < 7)%nat -> at_ s n r (move 1 p) -> exists s', putback_char c s = LOk tt s' /\ at_ s' (S n) (c :: r) p.
Proof.
  intros Hn (H & L & E). unfold putback_char. destruct (Nat.ltb_spec (List.length (pb s)) 7); [|lia].
  eexists. split; [reflexivity|]. repeat split.
  - unfold rem in *. cbn. rewrite H. reflexivity.
  - cbn. lia.
  - transitivity (unmove (here s)); [reflexivity|]. rewrite E. apply unmove_move.
Qed.
Lemma peek_nil s n p : at_ s n [] p -> peek_char s = -1.
Proof. intros (H & _). unfold rem in H. apply app_eq_nil in H as [H1 H2]. unfold peek_char. rewrite H1, H2. reflexivity. Qed.
Lemma peek_cons s n c r p : at_ s n (c :: r) p -> peek_char s = to_int c.
Proof.
  intros (H & _). unfold rem in H. unfold peek_char. destruct (pb s); cbn in H; [rewrite H; reflexivity|].
  injection H as -> _. reflexivity.
Qed.
Lemma ignore_cons s n c r p : at_ s n (c :: r) p -> at_ (ignore_char s) (pred n) r (move 1 p).
Proof.
  intros (H & L & E). unfold rem in H. unfold ignore_char. destruct s as [b i po li ls]. cbn [pb inp position line line_start] in *.
  destruct b as [|x b].
  - cbn in H. subst i. repeat split; [cbn; lia|]. subst p. reflexivity.
  - cbn in H. injection H as <- <-. repeat split; [cbn [List.length pb] in *; lia|]. subst p. reflexivity.
Qed.
Lemma move_move a b p : move a (move b p) = move (a + b) p.
Proof. destruct p. unfold move. cbn. f_equal. lia. Qed.
Lemma move_0 p : move 0 p = p.
Proof. destruct p. unfold move. cbn. f_equal. lia. Qed.

(** is_line_end just after [c] was got *)
Lemma line_end_no c s : line_end c = false -> is_line_end c s = (false, s).
Proof.
  intros H. apply orb_false_iff in H as [H1 H2]. unfold is_line_end.
  change nl with LF. change cr with CR. rewrite H1, H2. reflexivity.
Qed.
Lemma line_end_lf s r p : at_ s 0 r p -> exists s', is_line_end LF s = (true, s') /\ at_ s' 0 r (new_line p).
Proof.
  intros (H & L & E). unfold is_line_end. rewrite Ascii.eqb_refl. eexists. split; [reflexivity|].
  repeat split; [exact H|exact L|]. subst p. reflexivity.
Qed.
Lemma line_end_crlf s r p : at_ s 0 (LF :: r) p -> exists s', is_line_end CR s = (true, s') /\ at_ s' 0 r (new_line (move 1 p)).
Proof.
  intros (H & L & E). unfold is_line_end. cbn [Ascii.eqb].
  replace (Ascii.eqb CR nl) with false by reflexivity. replace (Ascii.eqb CR cr) with true by reflexivity.
  destruct s as [b i po li ls]. unfold rem in H. cbn [pb inp position line line_start] in *.
  destruct b; [|cbn in L; lia]. cbn in H. subst i. replace (Ascii.eqb LF nl) with true by reflexivity.
  eexists. split; [reflexivity|]. repeat split; [cbn; lia|]. subst p. reflexivity.
Qed.
Lemma line_end_cr s r p : at_ s 0 r p -> not_first (Ascii.eqb LF) r -> exists s', is_line_end CR s = (true, s') /\ at_ s' 0 r (new_line p).
Proof.
  intros (H & L & E) N. unfold is_line_end.
  replace (Ascii.eqb CR nl) with false by reflexivity. replace (Ascii.eqb CR cr) with true by reflexivity.
  destruct s as [b i po li ls]. unfold rem in H. cbn [pb inp position line line_start] in *.
  destruct b; [|cbn in L; lia]. cbn in H. subst i. destruct r as [|d r].
  - eexists. split; [reflexivity|]. repeat split; [cbn; lia|]. subst p. reflexivity.
  - cbn in N. replace (Ascii.eqb d nl) with false by (rewrite Ascii.eqb_sym; symmetry; exact N).
    eexists. split; [reflexivity|]. repeat split; [cbn; lia|]. subst p. reflexivity.
Qed.

(** *** white space *)
(** the white space loop, for the text [ws ++ r] where [r] does not start with white space *)
Lemma skip_exact : forall ws r s n p fuel,
  all space ws -> not_first space r -> (n <= 1)%nat -> at_ s n (ws ++ r) p -> (List.length ws < fuel)%nat ->
  (not_first high r -> exists s', skip_white_space fuel s = LOk tt s' /\ at_ s' 1 r (walk ws p)) /\
  (~ not_first high r -> skip_white_space fuel s = LUndef).
Proof.
  intros ws. induction ws as [ws IH] using (induction_ltof1 _ (@List.length ascii)). unfold ltof in IH.
  intros r s n p fuel Hw Hr Hn Hs Hf. destruct fuel as [|fuel]; [lia|]. cbn [skip_white_space].
  destruct ws as [|c ws].
  - cbn [app walk] in *. destruct r as [|d r].
    + rewrite (get_nil _ _ _ Hs). split; [intros _|cbn; tauto]. exists s. split; [reflexivity|]. apply (at_weaken _ n); auto; lia.
    + destruct (get_cons _ _ _ _ _ Hs) as (s1 & -> & H1).
      assert (Ld : line_end d = false).
      { cbn in Hr. unfold space, in_range in Hr. unfold line_end. apply orb_false_iff in Hr as [_ Hr].
        apply orb_false_iff. split; (destruct (Ascii.eqb_spec d LF) as [E|]; destruct (Ascii.eqb_spec d CR) as [E'|]; try reflexivity;
          try (rewrite E in Hr; vm_compute in Hr; discriminate); rewrite E' in Hr; vm_compute in Hr; discriminate). }
      rewrite (line_end_no _ _ Ld), isspace_c. unfold guard. cbn in Hr. rewrite Hr. cbn [not_first].
      destruct (high d); cbn [check].
      * split; [discriminate|reflexivity].
      * split; [intros _|intros H; exfalso; apply H; reflexivity].
        destruct (put s1 (pred n) d r p) as (s2 & -> & H2); [lia|exact H1|]. exists s2. split; [reflexivity|].
        apply (at_weaken _ (S (pred n))); [lia|exact H2].
  - inversion Hw as [|? ? Hc Hw']; subst. cbn [app] in Hs. destruct (get_cons _ _ _ _ _ Hs) as (s1 & -> & H1).
    assert (E0 : pred n = 0%nat) by lia. rewrite E0 in H1.
    destruct (Ascii.eqb_spec c LF) as [-> | N1].
    + destruct (line_end_lf _ _ _ H1) as (s2 & -> & H2). cbn [walk]. rewrite Ascii.eqb_refl.
      apply (IH ws) with (n := 0%nat); auto; cbn [List.length pb] in *; lia.
    + destruct (Ascii.eqb_spec c CR) as [-> | N2].
      * cbn [walk]. replace (Ascii.eqb CR LF) with false by reflexivity. rewrite Ascii.eqb_refl.
        destruct ws as [|d ws].
        -- cbn [app] in H1. destruct (line_end_cr _ _ _ H1) as (s2 & -> & H2).
           { destruct r as [|d r]; [exact I|]. cbn [not_first] in *. destruct (Ascii.eqb_spec LF d) as [<- | ]; [discriminate Hr|reflexivity]. }
           apply (IH []) with (n := 0%nat); auto; cbn [List.length pb] in *; lia.
        -- destruct (Ascii.eqb_spec d LF) as [-> | N3].
           ++ cbn [app] in H1. destruct (line_end_crlf _ _ _ H1) as (s2 & -> & H2). rewrite move_move in H2.
              inversion Hw'; subst. apply (IH ws) with (n := 0%nat); auto; cbn [List.length pb] in *; lia.
           ++ cbn [app] in H1. destruct (line_end_cr _ _ _ H1) as (s2 & -> & H2).
              { cbn [not_first]. apply Ascii.eqb_neq. congruence. }
              apply (IH (d :: ws)) with (n := 0%nat); auto; cbn [List.length pb] in *; lia.
      * assert (Le : line_end c = false) by (apply orb_false_iff; split; apply Ascii.eqb_neq; assumption).
        rewrite (line_end_no _ _ Le), isspace_c. unfold guard. rewrite Hc.
        assert (Hh : high c = false).
        { revert Hc. clear. unfold space, high, in_range. intros H. apply orb_true_iff in H as [H|H]; [apply Ascii.eqb_eq in H; subst; reflexivity|].
          apply andb_true_iff in H as [H1 H2]. apply andb_false_iff. left. lia. }
        rewrite Hh. cbn [check]. cbn [walk].
        replace (Ascii.eqb c LF) with false by (symmetry; apply Ascii.eqb_neq; assumption).
        replace (Ascii.eqb c CR) with false by (symmetry; apply Ascii.eqb_neq; assumption).
        apply (IH ws) with (n := 0%nat); auto; cbn [List.length pb] in *; lia.
Qed.

(** *** numbers *)
Lemma not_high_first r : not_first high r \/ ~ not_first high r.
Proof. destruct r as [|c r]; cbn [not_first]; [left; exact I|]. destruct (high c); [right; discriminate|left; reflexivity]. Qed.
Lemma bytes_imp (P Q : ascii -> bool) :
  forallb (fun c => implb (P c) (Q c)) (map (fun n => ascii_of_nat n) (seq 0 256)) = true -> forall c, P c = true -> Q c = true.
Proof. intros H c Hp. pose proof (every_byte (fun c => implb (P c) (Q c)) H c) as Hi. cbn beta in Hi. rewrite Hp in Hi. exact Hi. Qed.
Lemma hexit_low c : hexit c = true -> high c = false.
Proof. intros H. apply negb_true_iff. revert c H. apply bytes_imp. vm_compute. reflexivity. Qed.
Lemma dec_low c : dec_char c = true -> high c = false.
Proof. intros H. apply negb_true_iff. revert c H. apply bytes_imp. vm_compute. reflexivity. Qed.
Lemma word_low c : word_char c = true -> high c = false.
Proof. intros H. apply negb_true_iff. revert c H. apply bytes_imp. vm_compute. reflexivity. Qed.
Lemma start_word c : word_start c = true -> word_char c = true.
Proof. apply bytes_imp. vm_compute. reflexivity. Qed.
Lemma digit_dec c : digit c = true -> dec_char c = true.
Proof. apply bytes_imp. vm_compute. reflexivity. Qed.

(** what the three loops that read to the first other character do when it is not ASCII: nothing defined *)
Definition outcome {A} (r : list ascii) (x : lres A) (P : st -> Prop) (a : A) : Prop :=
  (not_first high r -> exists s', x = LOk a s' /\ P s') /\ (~ not_first high r -> x = LUndef).

Lemma hex_exact : forall ds r s p v k,
  all hexit ds -> not_first hexit r -> at_ s 0 (ds ++ r) p -> (List.length ds < k)%nat ->
  outcome r (hex_loop k v s) (fun s' => at_ s' 1 r (move (List.length ds) p)) (fold_left hex_step ds v).
Proof.
  induction ds as [|d ds IH]; intros r s p v k Hd Hr Hs Hk; (destruct k as [|k]; [lia|]); cbn [hex_loop fold_left].
  - cbn [app List.length] in *. rewrite move_0. destruct r as [|c r].
    + rewrite (get_nil _ _ _ Hs). split; [intros _|cbn; tauto]. exists s. split; [reflexivity|].
      apply (at_weaken _ 0); auto.
    + destruct (get_cons _ _ _ _ _ Hs) as (s1 & -> & H1). cbn [not_first pred] in *. rewrite isxdigit_c. unfold guard, outcome. cbn [not_first].
      rewrite Hr. destruct (high c); cbn [check]; [split; [discriminate|reflexivity]|].
      split; [intros _|intros H; exfalso; apply H; reflexivity].
      destruct (put s1 0 c r p) as (s2 & -> & H2); [lia|exact H1|]. cbn [lbind]. exists s2. split; [reflexivity|exact H2].
  - cbn [app] in Hs. inversion Hd as [|? ? Hc Hd']; subst. destruct (get_cons _ _ _ _ _ Hs) as (s1 & -> & H1). cbn [pred] in H1.
    rewrite isxdigit_c. unfold guard. rewrite (hexit_low _ Hc), Hc. cbn [check].
    replace (move (List.length (d :: ds)) p) with (move (List.length ds) (move 1 p)) by (rewrite move_move; f_equal; cbn; lia).
    apply IH; auto. cbn in Hk; lia.
Qed.
Lemma dec_exact : forall ds r s p acc n k,
  all dec_char ds -> not_first dec_char r -> (n <= S (List.length ds))%nat -> (n < 7)%nat -> at_ s n (ds ++ r) p -> (List.length ds < k)%nat ->
  outcome r (dec_loop k acc s) (fun s' => at_ s' 1 r (move (List.length ds) p)) (acc ++ ds).
Proof.
  induction ds as [|d ds IH]; intros r s p acc n k Hd Hr Hn Hn7 Hs Hk; (destruct k as [|k]; [lia|]); cbn [dec_loop].
  - cbn [app List.length] in *. rewrite move_0, app_nil_r. destruct r as [|c r].
    + rewrite (get_nil _ _ _ Hs). split; [intros _|cbn; tauto]. exists s. split; [reflexivity|].
      apply (at_weaken _ n); auto.
    + destruct (get_cons _ _ _ _ _ Hs) as (s1 & -> & H1). cbn [not_first pred] in *. rewrite isdigit_c. unfold guard, outcome. cbn [not_first].
      apply orb_false_iff in Hr as [Hr1 Hr2]. rewrite Hr1, Hr2. destruct (high c); [split; [discriminate|reflexivity]|].
      cbn [negb andb]. split; [intros _|intros H; exfalso; apply H; reflexivity].
      destruct (put s1 (pred n) c r p) as (s2 & -> & H2); [lia|exact H1|]. cbn [lbind]. exists s2. split; [reflexivity|apply (at_weaken _ (S (pred n))); [lia|exact H2]].
  - cbn [app] in Hs. inversion Hd as [|? ? Hc Hd']; subst. destruct (get_cons _ _ _ _ _ Hs) as (s1 & -> & H1).
    rewrite isdigit_c. unfold guard. rewrite (dec_low _ Hc).
    assert (negb (digit d) && negb (Ascii.eqb d ".") = false) as ->.
    { unfold dec_char in Hc. destruct (digit d); [reflexivity|]. cbn in *. destruct (Ascii.eqb d "."); [reflexivity|discriminate]. }
    replace (move (List.length (d :: ds)) p) with (move (List.length ds) (move 1 p)) by (rewrite move_move; f_equal; cbn; lia).
    replace (acc ++ d :: ds) with ((acc ++ [d]) ++ ds) by (rewrite <- app_assoc; reflexivity).
    apply IH with (n := pred n); auto; cbn in *; lia.
Qed.
Lemma word_exact : forall w r c s p acc k,
  word_char c = true -> all word_char w -> not_first word_char r -> at_ s 0 (w ++ r) p -> (S (List.length w) < k)%nat ->
  outcome r (ident_loop k acc c s) (fun s' => at_ s' 1 r (move (List.length w) p)) (acc ++ c :: w).
Proof.
  induction w as [|d w IH]; intros r c s p acc k Hc Hw Hr Hs Hk; (destruct k as [|k]; [lia|]); cbn [ident_loop];
    rewrite isalnum_c; unfold guard; rewrite (word_low _ Hc); unfold word_char in Hc; rewrite Hc.
  - cbn [app List.length] in *. rewrite move_0. destruct r as [|d r].
    + rewrite (get_nil _ _ _ Hs). split; [intros _|cbn; tauto]. exists s. split; [reflexivity|].
      apply (at_weaken _ 0); auto.
    + destruct (get_cons _ _ _ _ _ Hs) as (s1 & -> & H1). cbn [not_first pred] in *. destruct k as [|k]; [lia|]. cbn [ident_loop].
      rewrite isalnum_c. unfold guard, outcome. cbn [not_first]. unfold word_char in Hr.
      destruct (high d); [split; [discriminate|reflexivity]|]. rewrite Hr.
      split; [intros _|intros H; exfalso; apply H; reflexivity].
      destruct (put s1 0 d r p) as (s2 & -> & H2); [lia|exact H1|]. cbn [lbind]. exists s2. split; [reflexivity|exact H2].
  - cbn [app] in Hs. inversion Hw as [|? ? Hd Hw']; subst. destruct (get_cons _ _ _ _ _ Hs) as (s1 & -> & H1). cbn [pred] in H1.
    replace (move (List.length (d :: w)) p) with (move (List.length w) (move 1 p)) by (rewrite move_move; f_equal; cbn; lia).
    replace (acc ++ c :: d :: w) with ((acc ++ [c]) ++ d :: w) by (rewrite <- app_assoc; reflexivity).
    apply IH; auto. cbn in Hk; lia.
Qed.

(** the hexadecimal arithmetic *)
Lemma hex_digit_value c : hexit c = true -> hex_digit c = hexit_value c.
Proof.
  intros H. apply Z.eqb_eq. revert c H. apply bytes_imp. vm_compute. reflexivity.
Qed.
Lemma hex_fold ds : all hexit ds -> forall v w, v = w mod 2 ^ 64 ->
  fold_left hex_step ds v = fold_left (fun v d => v * 16 + hexit_value d) ds w mod 2 ^ 64.
Proof.
  intros H. induction H as [|d ds Hd _ IH]; intros v w E; [exact E|]. cbn [fold_left]. apply IH.
  unfold hex_step. rewrite hex_digit_value by exact Hd. subst v. rewrite Z.add_mod_idemp_l by discriminate.
  rewrite <- Z.add_mod_idemp_l by discriminate. rewrite Z.mul_mod_idemp_l by discriminate. rewrite Z.add_mod_idemp_l by discriminate. reflexivity.
Qed.
Lemma hex_fold_value ds : all hexit ds -> fold_left hex_step ds 0 = hex_value ds mod 2 ^ 64.
Proof. intros H. apply (hex_fold ds H 0 0). reflexivity. Qed.

(** *** comments *)
Lemma trail_body : forall body r s p acc k,
  all (fun c => negb (line_end c)) body -> at_ s 0 (body ++ r) p -> (List.length body < k)%nat ->
  exists s', trail_loop k acc s = trail_loop (k - List.length body) (acc ++ body) s' /\ at_ s' 0 r (move (List.length body) p).
Proof.
  induction body as [|c body IH]; intros r s p acc k Hb Hs Hk.
  - exists s. cbn [List.length]. rewrite Nat.sub_0_r, app_nil_r, move_0. auto.
  - destruct k as [|k]; [lia|]. cbn [trail_loop app] in *. inversion Hb as [|? ? Hc Hb']; subst. apply negb_true_iff in Hc.
    destruct (get_cons _ _ _ _ _ Hs) as (s1 & -> & H1). rewrite (line_end_no _ _ Hc).
    destruct (IH r s1 (move 1 p) (acc ++ [c]) k Hb' H1) as (s' & E & H'); [cbn in Hk; lia|].
    exists s'. rewrite <- app_assoc in E. cbn [app] in E. split; [exact E|]. rewrite move_move in H'.
    replace (List.length (c :: body)) with (List.length body + 1)%nat by (cbn; lia). exact H'.
Qed.
Lemma trail_exact body le r s p k :
  well_formed (Trail body le) -> ends_before (Trail body le) r -> at_ s 0 (body ++ le ++ r) p -> (List.length body < k)%nat ->
  exists s', trail_loop k [] s = LOk body s' /\ at_ s' 0 r (walk le (move (List.length body) p)).
Proof.
  intros [Hb Hl] He Hs Hk. destruct (trail_body body (le ++ r) s p [] k Hb Hs Hk) as (s1 & -> & H1). cbn [app].
  destruct (k - List.length body)%nat as [|k'] eqn:Ek; [lia|]. cbn [trail_loop].
  destruct Hl as [-> |[-> |[-> | ->]]].
  - cbn in He. subst r. cbn [app] in H1. rewrite (get_nil _ _ _ H1). exists s1. auto.
  - cbn [app] in H1. destruct (get_cons _ _ _ _ _ H1) as (s2 & -> & H2). destruct (line_end_lf _ _ _ H2) as (s3 & -> & H3).
    exists s3. split; [reflexivity|]. exact H3.
  - cbn [app] in H1. destruct (get_cons _ _ _ _ _ H1) as (s2 & -> & H2).
    destruct (line_end_cr _ _ _ H2) as (s3 & -> & H3); [apply He; reflexivity|]. exists s3. split; [reflexivity|exact H3].
  - cbn [app] in H1. destruct (get_cons _ _ _ _ _ H1) as (s2 & -> & H2).
    destruct (line_end_crlf _ _ _ H2) as (s3 & -> & H3). exists s3. split; [reflexivity|]. rewrite move_move in H3. exact H3.
Qed.

Lemma no_close_tail c l : no_close (c :: l) -> no_close l.
Proof. intros H (a & b & E). apply H. exists (c :: a), b. rewrite E. reflexivity. Qed.
Definition closing : list ascii := ["*"; "/"]%char.
Lemma lead_exact : forall body r s p acc k,
  no_close body -> at_ s 0 (body ++ closing ++ r) p -> (List.length body < k)%nat ->
  exists s', lead_loop k acc s = LOk (acc ++ unify_line_ends body) s' /\ at_ s' 0 r (move 2 (walk body p)).
Proof.
  intros body. induction body as [body IH] using (induction_ltof1 _ (@List.length ascii)). unfold ltof in IH.
  intros r s p acc k Hb Hs Hk. destruct k as [|k]; [lia|]. cbn [lead_loop]. destruct body as [|c body].
  - cbn [app closing] in *. destruct (get_cons _ _ _ _ _ Hs) as (s1 & -> & H1). cbn [pred] in H1.
    rewrite Ascii.eqb_refl, (peek_cons _ _ _ _ _ H1). replace (to_int "/" =? 47) with true by reflexivity.
    exists (ignore_char s1). cbn [unify_line_ends]. rewrite app_nil_r. split; [reflexivity|].
    apply ignore_cons in H1. cbn [pred] in H1. rewrite move_move in H1. exact H1.
  - cbn [app] in Hs. destruct (get_cons _ _ _ _ _ Hs) as (s1 & -> & H1). cbn [pred] in H1.
    destruct (Ascii.eqb_spec c "*") as [-> | N0].
    + assert (Hp : (peek_char s1 =? 47) = false).
      { destruct body as [|d body].
        - cbn [app closing] in H1. rewrite (peek_cons _ _ _ _ _ H1). reflexivity.
        - cbn [app] in H1. rewrite (peek_cons _ _ _ _ _ H1). change 47 with (code "/"). rewrite to_int_char by reflexivity.
          apply Ascii.eqb_neq. intros ->. apply Hb. exists [], body. reflexivity. }
      rewrite Hp. destruct (IH body) with (r := r) (s := s1) (p := move 1 p) (acc := acc ++ ["*"%char]) (k := k) as (s' & E & H');
        [cbn; lia|apply (no_close_tail _ _ Hb)|exact H1|cbn in Hk; lia|].
      exists s'. split.
      * rewrite E. cbn [unify_line_ends]. replace (Ascii.eqb "*" CR) with false by reflexivity. rewrite <- app_assoc. reflexivity.
      * cbn [walk]. replace (Ascii.eqb "*" LF) with false by reflexivity. replace (Ascii.eqb "*" CR) with false by reflexivity. exact H'.
    + destruct (Ascii.eqb_spec c LF) as [-> | N1].
      * destruct (line_end_lf _ _ _ H1) as (s2 & -> & H2).
        destruct (IH body) with (r := r) (s := s2) (p := new_line (move 1 p)) (acc := acc ++ [nl]) (k := k) as (s' & E & H');
          [cbn; lia|apply (no_close_tail _ _ Hb)|exact H2|cbn in Hk; lia|].
        exists s'. split.
        -- rewrite E. cbn [unify_line_ends]. replace (Ascii.eqb LF CR) with false by reflexivity. rewrite <- app_assoc. reflexivity.
        -- cbn [walk]. rewrite Ascii.eqb_refl. exact H'.
      * destruct (Ascii.eqb_spec c CR) as [-> | N2].
        -- assert (Hn : body = [] \/ (exists d b, body = d :: b /\ d <> LF) \/ exists b, body = LF :: b).
           { destruct body as [|d b]; [auto|right]. destruct (Ascii.eqb_spec d LF) as [-> | N]; [right; eauto|left; eauto]. }
           assert (Hcr : forall b', (b' = body /\ not_first (Ascii.eqb LF) (body ++ closing ++ r)) ->
              unify_line_ends (CR :: body) = LF :: unify_line_ends body -> walk (CR :: body) p = walk body (new_line (move 1 p)) ->
              exists s', (let (e, s2) := is_line_end CR s1 in lead_loop k (acc ++ [if e then nl else CR]) s2)
                         = LOk (acc ++ unify_line_ends (CR :: body)) s' /\ at_ s' 0 r (move 2 (walk (CR :: body) p))).
           { intros b' [_ Hnf] Eu Ew. destruct (line_end_cr _ _ _ H1 Hnf) as (s2 & -> & H2).
             destruct (IH body) with (r := r) (s := s2) (p := new_line (move 1 p)) (acc := acc ++ [nl]) (k := k) as (s' & E & H');
               [cbn; lia|apply (no_close_tail _ _ Hb)|exact H2|cbn in Hk; lia|].
             exists s'. rewrite Eu, Ew. split; [|exact H']. rewrite E, <- app_assoc. reflexivity. }
           destruct Hn as [-> |[(d & b & -> & N)|[b ->]]].
           ++ apply (Hcr []); [split; [reflexivity|reflexivity]|reflexivity|reflexivity].
           ++ apply (Hcr (d :: b)).
              ** split; [reflexivity|]. cbn [app not_first]. apply Ascii.eqb_neq. congruence.
              ** cbn [unify_line_ends]. rewrite Ascii.eqb_refl. replace (Ascii.eqb d LF) with false by (symmetry; apply Ascii.eqb_neq; exact N). reflexivity.
              ** cbn [walk]. rewrite Ascii.eqb_refl. replace (Ascii.eqb CR LF) with false by reflexivity.
                 replace (Ascii.eqb d LF) with false by (symmetry; apply Ascii.eqb_neq; exact N). reflexivity.
           ++ cbn [app] in H1. destruct (line_end_crlf _ _ _ H1) as (s2 & -> & H2). rewrite move_move in H2.
              destruct (IH b) with (r := r) (s := s2) (p := new_line (move 2 p)) (acc := acc ++ [nl]) (k := k) as (s' & E & H');
                [cbn; lia|apply (no_close_tail LF), (no_close_tail CR); exact Hb|exact H2|cbn in Hk; lia|].
              exists s'. split.
              ** rewrite E. cbn [unify_line_ends]. rewrite !Ascii.eqb_refl. rewrite <- app_assoc. reflexivity.
              ** cbn [walk]. rewrite !Ascii.eqb_refl. replace (Ascii.eqb CR LF) with false by reflexivity. exact H'.
        -- assert (Le : line_end c = false) by (apply orb_false_iff; split; apply Ascii.eqb_neq; assumption).
           rewrite (line_end_no _ _ Le).
           destruct (IH body) with (r := r) (s := s1) (p := move 1 p) (acc := acc ++ [c]) (k := k) as (s' & E & H');
             [cbn; lia|apply (no_close_tail _ _ Hb)|exact H1|cbn in Hk; lia|].
           exists s'. split.
           ++ rewrite E. cbn [unify_line_ends]. replace (Ascii.eqb c CR) with false by (symmetry; apply Ascii.eqb_neq; exact N2). rewrite <- app_assoc. reflexivity.
           ++ cbn [walk]. replace (Ascii.eqb c LF) with false by (symmetry; apply Ascii.eqb_neq; exact N1).
              replace (Ascii.eqb c CR) with false by (symmetry; apply Ascii.eqb_neq; exact N2). exact H'.
Qed.
(** without a closing the loop throws *)
Lemma lead_open : forall body s p acc k,
  no_close body -> at_ s 0 body p -> (List.length body < k)%nat -> lead_loop k acc s = LThrow.
Proof.
  intros body. induction body as [body IH] using (induction_ltof1 _ (@List.length ascii)). unfold ltof in IH.
  intros s p acc k Hb Hs Hk. destruct k as [|k]; [lia|]. cbn [lead_loop]. destruct body as [|c body].
  - rewrite (get_nil _ _ _ Hs). reflexivity.
  - destruct (get_cons _ _ _ _ _ Hs) as (s1 & -> & H1). cbn [pred] in H1. cbn [List.length] in *.
    destruct (Ascii.eqb_spec c "*") as [-> | N0].
    + assert (Hp : (peek_char s1 =? 47) = false).
      { destruct body as [|d body].
        - rewrite (peek_nil _ _ _ H1). reflexivity.
        - rewrite (peek_cons _ _ _ _ _ H1). change 47 with (code "/"). rewrite to_int_char by reflexivity.
          apply Ascii.eqb_neq. intros ->. apply Hb. exists [], body. reflexivity. }
      rewrite Hp. apply (IH body) with (p := move 1 p); auto; [apply (no_close_tail _ _ Hb)|lia].
    + destruct (Ascii.eqb_spec c LF) as [-> | N1].
      * destruct (line_end_lf _ _ _ H1) as (s2 & -> & H2). apply (IH body) with (p := new_line (move 1 p)); auto; [apply (no_close_tail _ _ Hb)|lia].
      * destruct (Ascii.eqb_spec c CR) as [-> | N2].
        -- destruct body as [|d b].
           ++ destruct (line_end_cr _ _ _ H1 I) as (s2 & -> & H2). apply (IH []) with (p := new_line (move 1 p)); auto; [apply (no_close_tail _ _ Hb)|cbn in *; lia].
           ++ destruct (Ascii.eqb_spec d LF) as [-> | N].
              ** destruct (line_end_crlf _ _ _ H1) as (s2 & -> & H2). apply (IH b) with (p := new_line (move 1 (move 1 p))); auto;
                 [apply (no_close_tail LF), (no_close_tail CR); exact Hb|cbn [List.length] in *; lia].
              ** destruct (line_end_cr _ _ _ H1) as (s2 & -> & H2); [cbn [not_first]; apply Ascii.eqb_neq; congruence|].
                 apply (IH (d :: b)) with (p := new_line (move 1 p)); auto; [apply (no_close_tail _ _ Hb)|cbn [List.length] in *; lia].
        -- assert (Le : line_end c = false) by (apply orb_false_iff; split; apply Ascii.eqb_neq; assumption).
           rewrite (line_end_no _ _ Le). apply (IH body) with (p := move 1 p); auto; [apply (no_close_tail _ _ Hb)|lia].
Qed.

(** *** strings *)
Lemma quoted_exact : forall body r s p acc q c k,
  all (fun c => negb (Ascii.eqb c q)) body -> at_ s 0 (body ++ q :: r) p -> (List.length body < k)%nat ->
  exists s', quoted_loop k acc q c s = LOk (acc ++ body, q) s' /\ at_ s' 0 r (move (S (List.length body)) p).
Proof.
  induction body as [|d body IH]; intros r s p acc q c k Hb Hs Hk; (destruct k as [|k]; [lia|]); cbn [quoted_loop app] in *.
  - destruct (get_cons _ _ _ _ _ Hs) as (s1 & -> & H1). rewrite Ascii.eqb_refl. exists s1. rewrite app_nil_r. auto.
  - inversion Hb as [|? ? Hd Hb']; subst. apply negb_true_iff in Hd.
    destruct (get_cons _ _ _ _ _ Hs) as (s1 & -> & H1). rewrite Hd.
    destruct (IH r s1 (move 1 p) (acc ++ [d]) q d k Hb' H1) as (s' & E & H'); [cbn in Hk; lia|].
    exists s'. rewrite E, <- app_assoc. split; [reflexivity|]. rewrite move_move in H'.
    replace (S (List.length (d :: body))) with (S (List.length body) + 1)%nat by (cbn; lia). exact H'.
Qed.
Lemma quoted_open : forall body s p acc q c k,
  all (fun c => negb (Ascii.eqb c q)) body -> at_ s 0 body p -> (List.length body < k)%nat ->
  exists s', quoted_loop k acc q c s = LOk (acc ++ body, last body c) s' /\ at_ s' 0 [] (move (List.length body) p).
Proof.
  induction body as [|d body IH]; intros s p acc q c k Hb Hs Hk; (destruct k as [|k]; [lia|]); cbn [quoted_loop] in *.
  - rewrite (get_nil _ _ _ Hs). exists s. rewrite app_nil_r. cbn [List.length]. rewrite move_0. auto.
  - inversion Hb as [|? ? Hd Hb']; subst. apply negb_true_iff in Hd.
    destruct (get_cons _ _ _ _ _ Hs) as (s1 & -> & H1). rewrite Hd.
    destruct (IH s1 (move 1 p) (acc ++ [d]) q d k Hb' H1) as (s' & E & H'); [cbn in Hk; lia|].
    exists s'. rewrite E, <- app_assoc. split.
    + assert (El : last (d :: body) c = last body d).
      { clear. revert d. induction body as [|b body IH]; intros d; [reflexivity|].
        change (last (d :: b :: body) c) with (last (b :: body) c). rewrite IH. destruct body; [reflexivity|].
        change (last (b :: a :: body) d) with (last (a :: body) d). clear. revert a b d.
        induction body as [|x body IH]; intros a b d; [reflexivity|]. exact (IH x b d). }
      rewrite El. reflexivity.
    + rewrite move_move in H'. replace (List.length (d :: body)) with (List.length body + 1)%nat by (cbn; lia). exact H'.
Qed.
Lemma quote_cases q : quote q = true -> negb (Ascii.eqb q "'") && negb (Ascii.eqb q """") = false.
Proof. unfold quote. destruct (Ascii.eqb q "'"); [reflexivity|]. destruct (Ascii.eqb q """"); [reflexivity|discriminate]. Qed.
Lemma not_quote_cases q : quote q = false -> negb (Ascii.eqb q "'") && negb (Ascii.eqb q """") = true.
Proof. unfold quote. destruct (Ascii.eqb q "'"); [discriminate|]. destruct (Ascii.eqb q """"); [discriminate|reflexivity]. Qed.
Lemma quote_not_space q : quote q = true -> space q = false.
Proof. intros H. apply negb_true_iff. revert q H. apply bytes_imp. vm_compute. reflexivity. Qed.
Lemma quote_low q : quote q = true -> high q = false.
Proof. intros H. apply negb_true_iff. revert q H. apply bytes_imp. vm_compute. reflexivity. Qed.

Lemma lone_exact fuel q s p acc n :
  at_ s 0 [] p -> (0 < fuel)%nat -> exists s', string_loop fuel (S n) acc q s = LOk acc s' /\ at_ s' 1 [] p.
Proof.
  intros Hs Hf. cbn [string_loop]. destruct (quoted_open [] s p acc q q fuel) as (s1 & -> & H1); [constructor|exact Hs|cbn; lia|].
  cbn [lbind last]. rewrite Ascii.eqb_refl. cbn [negb]. rewrite app_nil_r. cbn [List.length] in H1. rewrite move_0 in H1.
  destruct (proj1 (skip_exact [] [] s1 0 p fuel (Forall_nil _) I ltac:(lia) H1 ltac:(cbn; lia)) I) as (s2 & -> & H2). cbn [lbind].
  rewrite (get_nil _ _ _ H2). exists s2. auto.
Qed.
Definition str_rest (ps : list piece) (lone r : list ascii) : list ascii := concat (map written_piece ps) ++ lone ++ r.
(** after its opening quote, the string [x :: ps] followed by [lone] and [r] *)
Lemma string_exact fuel : forall ps x lone r s p acc n,
  Forall piece_ok (x :: ps) -> (lone = [] \/ exists q, lone = [q] /\ quote q = true) -> ends_before (Str (x :: ps) lone) r ->
  at_ s 0 (p_body x ++ p_quote x :: p_space x ++ str_rest ps lone r) (move 1 p) ->
  (List.length (p_body x ++ p_quote x :: p_space x ++ str_rest ps lone r) < fuel)%nat -> (List.length ps + List.length lone < n)%nat ->
  (lone = [] -> outcome r (string_loop fuel n acc (p_quote x) s)
       (fun s' => at_ s' 1 r (fold_left after_piece (x :: ps) p)) (acc ++ concat (map p_body (x :: ps)))) /\
  (lone <> [] -> exists s', string_loop fuel n acc (p_quote x) s = LOk (acc ++ concat (map p_body (x :: ps))) s' /\
       at_ s' 1 r (move (List.length lone) (fold_left after_piece (x :: ps) p))).
Proof.
  induction ps as [|y ps IH]; intros x lone r s p acc n Hps Hl He Hs Hf Hn; (destruct n as [|n]; [lia|]); cbn [string_loop].
  - inversion Hps as [|? ? [Hq [Hb Hw]] _]; subst. clear Hps. rewrite app_length in Hf. cbn [List.length] in Hf. rewrite app_length in Hf.
    destruct (quoted_exact _ _ _ _ acc (p_quote x) (p_quote x) fuel Hb Hs) as (s1 & -> & H1); [lia|].
    cbn [lbind]. rewrite Ascii.eqb_refl. cbn [negb]. rewrite move_move in H1.
    assert (Ha : walk (p_space x) (move (S (List.length (p_body x)) + 1) p) = fold_left after_piece [x] p)
      by (cbn [fold_left]; unfold after_piece; do 2 f_equal; lia).
    cbn [map concat]. rewrite !app_nil_r. unfold str_rest in *. cbn [map concat app] in *.
    destruct Hl as [-> |(q & -> & Hlq)].
    + split; [intros _|congruence]. cbn [app] in *. destruct He as [He1 He2].
      destruct (skip_exact _ _ _ _ _ fuel Hw He1 (Nat.le_0_l 1) H1) as [Hok Hbad]; [lia|].
      split.
      * intros Hh. destruct (Hok Hh) as (s2 & -> & H2). cbn [lbind]. rewrite Ha in H2. destruct r as [|c r].
        -- rewrite (get_nil _ _ _ H2). exists s2. auto.
        -- destruct (get_cons _ _ _ _ _ H2) as (s3 & -> & H3). rewrite (not_quote_cases _ He2).
           destruct (put s3 0 c r (fold_left after_piece [x] p)) as (s4 & -> & H4); [lia|exact H3|]. cbn [lbind]. exists s4. auto.
      * intros Hh. rewrite (Hbad Hh). reflexivity.
    + split; [discriminate|intros _]. cbn in He. subst r. cbn [app] in *.
      destruct (skip_exact (p_space x) [q] s1 0 _ fuel Hw (quote_not_space _ Hlq) (Nat.le_0_l 1) H1) as [Hok _]; [lia|].
      destruct (Hok (quote_low _ Hlq)) as (s2 & -> & H2). cbn [lbind]. rewrite Ha in H2.
      destruct (get_cons _ _ _ _ _ H2) as (s3 & -> & H3). rewrite (quote_cases _ Hlq).
      destruct n as [|n]; [cbn in Hn; lia|].
      destruct (lone_exact fuel q s3 _ (acc ++ p_body x) n H3) as (s4 & -> & H4); [lia|]. exists s4. auto.
  - inversion Hps as [|? ? [Hq [Hb Hw]] Hps']; subst. inversion Hps' as [|? ? [Hq' [Hb' Hw']] _]; subst.
    rewrite app_length in Hf. cbn [List.length] in Hf. rewrite app_length in Hf.
    destruct (quoted_exact _ _ _ _ acc (p_quote x) (p_quote x) fuel Hb Hs) as (s1 & -> & H1); [lia|].
    cbn [lbind]. rewrite Ascii.eqb_refl. cbn [negb]. rewrite move_move in H1.
    assert (Ha : walk (p_space x) (move (S (List.length (p_body x)) + 1) p) = after_piece p x)
      by (unfold after_piece; do 2 f_equal; lia).
    assert (Er : str_rest (y :: ps) lone r = p_quote y :: p_body y ++ p_quote y :: p_space y ++ str_rest ps lone r).
    { unfold str_rest. cbn [map concat]. unfold written_piece at 1. cbn [app]. rewrite <- !app_assoc. reflexivity. }
    rewrite Er in H1, Hf.
    destruct (skip_exact (p_space x) (p_quote y :: p_body y ++ p_quote y :: p_space y ++ str_rest ps lone r) s1 0 _ fuel Hw (quote_not_space _ Hq') (Nat.le_0_l 1) H1) as [Hok _]; [lia|].
    destruct (Hok (quote_low _ Hq')) as (s2 & -> & H2). cbn [lbind]. rewrite Ha in H2.
    destruct (get_cons _ _ _ _ _ H2) as (s3 & -> & H3). rewrite (quote_cases _ Hq').
    assert (Eb : acc ++ concat (map p_body (x :: y :: ps)) = (acc ++ p_body x) ++ concat (map p_body (y :: ps)))
      by (cbn [map concat]; rewrite <- app_assoc; reflexivity).
    rewrite Eb. change (fold_left after_piece (x :: y :: ps) p) with (fold_left after_piece (y :: ps) (after_piece p x)).
    apply IH; auto; cbn [List.length] in *; lia.
Qed.
(** unclosed strings *)
Lemma string_open fuel body x c s p acc n :
  all (fun c => negb (Ascii.eqb c x)) (c :: body) -> at_ s 0 (c :: body) p -> (List.length (c :: body) < fuel)%nat ->
  string_loop fuel (S n) acc x s = LThrow.
Proof.
  intros Hb Hs Hf. cbn [string_loop]. destruct (quoted_open _ _ _ acc x x fuel Hb Hs Hf) as (s1 & -> & H1). cbn [lbind].
  assert (Hl : Ascii.eqb (last (c :: body) x) x = false).
  { clear - Hb. revert c Hb. induction body as [|d body IH]; intros c Hb; inversion Hb as [|? ? Hc Hb']; subst.
    - apply negb_true_iff, Hc.
    - change (last (c :: d :: body) x) with (last (d :: body) x). apply IH, Hb'. }
  rewrite Hl. reflexivity.
Qed.
