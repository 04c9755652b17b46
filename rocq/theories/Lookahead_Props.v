(** C58: get_token and putback_token behave as a cursor in the sequence of tokens. *)
From Coq Require Import Lia PeanoNat.
From Verif Require Import Prelude CircularQueue_Model Lookahead_Model.
Ltac Zify.zify_post_hook ::= idtac.

(** *** Specification *)
Section Spec.
Context {T : Type}.
Variable eof : T.
(** The tokens of the text, in order, then eof for ever *)
Fixpoint tokens (src : list (option T)) : list T :=
  match src with [] => [] | None :: s => tokens s | Some t :: s => t :: tokens s end.
Definition token_at (src : list (option T)) (i : nat) : T := nth i (tokens src) eof.
(** A cursor and the furthest place it has been *)
Record cursor := mk_cursor { pos : nat; high : nat }.
(** A call is allowed if it is a get, or a putback of a token that was got, with fewer than S tokens
    already put back *)
Definition allowed (S : nat) (c : cursor) (k : call) : Prop :=
  match k with Get => True | Putback => 0 < pos c /\ high c - pos c < S end.
Definition move (c : cursor) (k : call) : cursor :=
  match k with
  | Get => mk_cursor (pos c + 1) (Nat.max (high c) (pos c + 1))
  | Putback => mk_cursor (pos c - 1) (high c)
  end.
Fixpoint legal (S : nat) (c : cursor) (cs : list call) : Prop :=
  match cs with [] => True | k :: cs' => allowed S c k /\ legal S (move c k) cs' end.
(** The tokens at the places the cursor passes *)
Fixpoint delivered (src : list (option T)) (c : cursor) (cs : list call) : list T :=
  match cs with
  | [] => []
  | Get :: cs' => token_at src (pos c) :: delivered src (move c Get) cs'
  | Putback :: cs' => delivered src (move c Putback) cs'
  end.
End Spec.

(** *** Refinement *)
Section Proofs.
Context {T : Type}.
Variable eof : T.
Variable cap : nat.
Hypothesis Hcap : 0 < cap.

Record repr (src : list (option T)) (c : cursor) (l : @lexer T) : Prop := {
  r_cap : length (container (last_token l)) = cap;
  r_le : pos c <= high c /\ high c - pos c <= cap;
  r_begin : qbegin (last_token l) = pos c mod cap;
  r_end : qend (last_token l) = high c mod cap;
  r_empty : is_empty (last_token l) = Nat.eqb (pos c) (high c);
  r_slots : forall j, j < high c -> high c - j <= cap ->
            nth_error (container (last_token l)) (j mod cap) = Some (token_at eof src j);
  r_rest : forall i, token_at eof (source l) i = token_at eof src (high c + i) }.

Lemma mod_lt j : j mod cap < cap. Proof. apply Nat.mod_upper_bound. lia. Qed.
Lemma advance_mod j : advance cap (j mod cap) = Some ((j + 1) mod cap).
Proof.
  unfold advance. pose proof (mod_lt j) as B. replace (j mod cap <? cap) with true by (symmetry; apply Nat.ltb_lt; exact B).
  f_equal. pose proof (Nat.div_mod j cap ltac:(lia)) as D.
  destruct (Nat.eqb_spec (S (j mod cap)) cap) as [E|E].
  - apply Nat.mod_unique with (q := S (j / cap)); [lia|]. rewrite <- E at 1. nia.
  - apply Nat.mod_unique with (q := j / cap); [lia|]. lia.
Qed.
Lemma mod_eq_near a b : a <= b -> b - a <= cap -> a mod cap = b mod cap -> a = b \/ b - a = cap.
Proof.
  intros L D E. pose proof (Nat.div_mod a cap ltac:(lia)). pose proof (Nat.div_mod b cap ltac:(lia)).
  assert (b - a = cap * (b / cap - a / cap)) by nia.
  destruct (b / cap - a / cap) as [|[|k]] eqn:K; [left; nia|right; nia|]. exfalso. nia.
Qed.
Lemma mod_add_cap a : (a + cap) mod cap = a mod cap.
Proof. replace (a + cap) with (a + 1 * cap) by lia. apply Nat.mod_add. lia. Qed.

Lemma full_spec src c l : repr src c l -> full (last_token l) = Nat.eqb (high c - pos c) cap.
Proof.
  intros R. unfold full. rewrite (r_empty _ _ _ R), (r_begin _ _ _ R), (r_end _ _ _ R).
  destruct (r_le _ _ _ R) as [L D].
  destruct (Nat.eqb_spec (pos c) (high c)) as [E|E]; cbn [negb andb].
  - symmetry. apply Nat.eqb_neq. lia.
  - destruct (Nat.eqb_spec (pos c mod cap) (high c mod cap)) as [M|M]; symmetry.
    + apply Nat.eqb_eq. destruct (mod_eq_near _ _ L D M); lia.
    + apply Nat.eqb_neq. intros K. apply M. replace (high c) with (pos c + cap) by lia. symmetry. apply mod_add_cap.
Qed.

Lemma nth_error_upd (l : list T) i j x : i < length l -> nth_error (upd l i x) j = if Nat.eqb i j then Some x else nth_error l j.
Proof.
  revert i j. induction l as [|y l IH]; intros [|i] [|j] H; cbn in *; try lia; try reflexivity. apply IH. lia.
Qed.
Lemma length_upd (l : list T) i x : length (upd l i x) = length l.
Proof. revert i. induction l as [|y l IH]; intros [|i]; cbn; auto. Qed.

(** one put_token on an empty ring *)
Lemma push_repr src c l t : repr src c l -> pos c = high c -> t = token_at eof src (high c) ->
  forall rest, (forall i, token_at eof rest i = token_at eof src (high c + 1 + i)) ->
  exists q, push_back (last_token l) t = Some q /\ repr src (mk_cursor (pos c) (high c + 1)) (mk_lexer q rest).
Proof.
  intros R E Ht rest Hrest. pose proof (full_spec _ _ _ R) as F. unfold push_back, capacity.
  rewrite F, (r_cap _ _ _ R), (r_begin _ _ _ R), (r_end _ _ _ R). pose proof (mod_lt (high c)) as B.
  replace (high c mod cap <? cap) with true by (symmetry; apply Nat.ltb_lt; exact B).
  rewrite advance_mod. replace (high c - pos c =? cap) with false by (symmetry; apply Nat.eqb_neq; lia).
  eexists; split; [reflexivity|]. constructor; cbn [last_token source container qbegin qend is_empty pos high].
  - rewrite length_upd. apply (r_cap _ _ _ R).
  - lia.
  - reflexivity.
  - reflexivity.
  - symmetry. apply Nat.eqb_neq. lia.
  - intros j Hj Hd. rewrite nth_error_upd by (rewrite (r_cap _ _ _ R); exact B).
    destruct (Nat.eqb_spec (high c mod cap) (j mod cap)) as [M|M].
    + destruct (mod_eq_near j (high c) ltac:(lia) ltac:(lia) (eq_sym M)) as [-> | K]; [subst t; reflexivity|lia].
    + apply (r_slots _ _ _ R); [|lia]. destruct (Nat.eq_dec j (high c)) as [-> | ]; [contradiction|lia].
  - exact Hrest.
Qed.

Lemma fill_repr src c l : repr src c l ->
  exists q rest, fill eof (last_token l) (source l) = Some (q, rest) /\
    repr src (mk_cursor (pos c) (Nat.max (high c) (pos c + 1))) (mk_lexer q rest).
Proof.
  destruct l as [q0 s0]. cbn [last_token source]. revert q0.
  induction s0 as [|[t|] s0 IH]; intros q0 R; cbn [fill]; unfold empty;
    pose proof (r_empty _ _ _ R) as X0; cbn [last_token] in X0; rewrite X0; clear X0; destruct (Nat.eqb_spec (pos c) (high c)) as [E|E].
  - destruct (push_repr _ _ _ eof R E) with (rest := @nil (option T)) as (q & P & R').
    + rewrite <- (Nat.add_0_r (high c)). rewrite <- (r_rest _ _ _ R). reflexivity.
    + intros i. pose proof (r_rest _ _ _ R (1 + i)) as X. cbn [source] in X.
      replace (high c + 1 + i) with (high c + (1 + i)) by lia. rewrite <- X. unfold token_at; cbn. destruct i; reflexivity.
    + cbn [last_token] in P. rewrite P. exists q, []. split; [reflexivity|].
      replace (Nat.max (high c) (pos c + 1)) with (high c + 1) by lia. exact R'.
  - exists q0, []. split; [reflexivity|]. destruct (r_le _ _ _ R). replace (Nat.max (high c) (pos c + 1)) with (high c) by lia. destruct c; exact R.
  - destruct (push_repr _ _ _ t R E) with (rest := s0) as (q & P & R').
    + rewrite <- (Nat.add_0_r (high c)). rewrite <- (r_rest _ _ _ R). reflexivity.
    + intros i. pose proof (r_rest _ _ _ R (1 + i)) as X. cbn [source] in X.
      replace (high c + 1 + i) with (high c + (1 + i)) by lia. rewrite <- X. reflexivity.
    + cbn [last_token] in P. rewrite P. exists q, s0. split.
      * pose proof (r_empty _ _ _ R') as X. cbn [last_token pos high] in X. destruct s0; cbn [fill]; unfold empty; rewrite X;
          replace (pos c =? high c + 1) with false by (symmetry; apply Nat.eqb_neq; lia); reflexivity.
      * replace (Nat.max (high c) (pos c + 1)) with (high c + 1) by lia. exact R'.
  - exists q0, (Some t :: s0). split; [reflexivity|]. destruct (r_le _ _ _ R). replace (Nat.max (high c) (pos c + 1)) with (high c) by lia. destruct c; exact R.
  - apply IH. destruct R; constructor; cbn in *; auto.
  - exists q0, (None :: s0). split; [reflexivity|]. destruct (r_le _ _ _ R). replace (Nat.max (high c) (pos c + 1)) with (high c) by lia. destruct c; exact R.
Qed.

Lemma get_repr src c l : repr src c l ->
  exists l', get_token eof l = Some (token_at eof src (pos c), l') /\ repr src (move c Get) l'.
Proof.
  intros R. destruct (fill_repr _ _ _ R) as (q & rest & F & R'). unfold get_token. rewrite F.
  set (c' := mk_cursor (pos c) (Nat.max (high c) (pos c + 1))) in *.
  pose proof (r_empty _ _ _ R') as Em. pose proof (r_begin _ _ _ R') as Bg. pose proof (r_end _ _ _ R') as En.
  pose proof (r_cap _ _ _ R') as Cp. destruct (r_le _ _ _ R') as [L D]. cbn [last_token] in *.
  assert (N : pos c' =? high c' = false) by (subst c'; cbn [pos high]; apply Nat.eqb_neq; lia).
  rewrite N in Em. unfold front, pop_front, empty, capacity. rewrite Em, Bg, Cp, advance_mod, En.
  pose proof (r_slots _ _ _ R' (pos c')) as Sl. cbn [last_token] in Sl. rewrite Sl.
  2:{ subst c'; cbn [pos high]; lia. } 2:{ exact D. }
  eexists; split; [reflexivity|]. apply Nat.eqb_neq in N.
  constructor; cbn [move last_token source container qbegin qend is_empty pos high].
  - exact Cp.
  - subst c'; cbn [pos high] in *; lia.
  - reflexivity.
  - reflexivity.
  - destruct (Nat.eqb_spec ((pos c' + 1) mod cap) (high c' mod cap)) as [M|M].
    + symmetry. subst c'; cbn [pos high] in *. apply Nat.eqb_eq.
      destruct (mod_eq_near (pos c + 1) (Nat.max (high c) (pos c + 1)) ltac:(lia) ltac:(lia) M); lia.
    + symmetry. subst c'; cbn [pos high] in *. apply Nat.eqb_neq. intros K. apply M. rewrite K at 1. reflexivity.
  - intros j Hj Hd. apply (r_slots _ _ _ R'); subst c'; cbn [pos high]; lia.
  - intros i. apply (r_rest _ _ _ R').
Qed.

Lemma putback_repr src c l : repr src c l -> allowed cap c Putback ->
  exists l', putback_token l = Some l' /\ repr src (move c Putback) l'.
Proof.
  intros R [P A]. unfold putback_token, putback. rewrite (full_spec _ _ _ R).
  replace (high c - pos c =? cap) with false by (symmetry; apply Nat.eqb_neq; lia).
  rewrite (r_begin _ _ _ R), (r_end _ _ _ R). unfold capacity. rewrite (r_cap _ _ _ R).
  destruct (r_le _ _ _ R) as [L D].
  assert (Pm : exists b', (if pos c mod cap =? 0 then cap else pos c mod cap) = S b' /\ b' = (pos c - 1) mod cap).
  { pose proof (advance_mod (pos c - 1)) as X. replace (pos c - 1 + 1) with (pos c) in X by lia.
    unfold advance in X. pose proof (mod_lt (pos c - 1)) as B.
    replace ((pos c - 1) mod cap <? cap) with true in X by (symmetry; apply Nat.ltb_lt; exact B).
    injection X as X. exists ((pos c - 1) mod cap). split; [|reflexivity].
    destruct (Nat.eqb_spec (S ((pos c - 1) mod cap)) cap) as [E|E].
    - rewrite <- X. cbn [Nat.eqb]. lia.
    - rewrite <- X. reflexivity. }
  destruct Pm as (b' & -> & ->). eexists; split; [reflexivity|].
  constructor; cbn [move last_token source container qbegin qend is_empty pos high].
  - apply (r_cap _ _ _ R).
  - lia.
  - reflexivity.
  - reflexivity.
  - symmetry. apply Nat.eqb_neq. lia.
  - intros j Hj Hd. apply (r_slots _ _ _ R); assumption.
  - apply (r_rest _ _ _ R).
Qed.

Lemma start_repr d src : repr src (mk_cursor 0 0) (start d cap src).
Proof.
  constructor; cbn [start make last_token source container qbegin qend is_empty pos high].
  - apply repeat_length.
  - lia.
  - symmetry. apply Nat.mod_0_l. lia.
  - symmetry. apply Nat.mod_0_l. lia.
  - reflexivity.
  - intros j Hj. lia.
  - intros i. reflexivity.
Qed.

Lemma run_repr src cs : forall c l, repr src c l -> legal cap c cs ->
  exists l', run eof l cs = Some (delivered eof src c cs, l').
Proof.
  induction cs as [|[] cs IH]; intros c l R H; cbn [run legal delivered] in *.
  - exists l. reflexivity.
  - destruct (get_repr _ _ _ R) as (l' & -> & R'). destruct (IH _ _ R' (proj2 H)) as (l'' & ->). exists l''. reflexivity.
  - destruct H as [A H]. destruct (putback_repr _ _ _ R A) as (l' & -> & R'). apply (IH _ _ R' H).
Qed.
End Proofs.

(** Over a ring buffer of any capacity: every legal history of get_token and putback_token from the
    beginning of a text is free of undefined behaviour and delivers the tokens at the places the cursor
    passes, nothing lost or repeated. *)
Theorem C58_lookahead_is_a_cursor :
  forall (T : Type) (eof d : T) (S : nat) (src : list (option T)) (cs : list call),
    0 < S -> legal S (mk_cursor 0 0) cs ->
    exists l', run eof (start d S src) cs = Some (delivered eof src (mk_cursor 0 0) cs, l').
Proof. intros T eof d S src cs HS H. apply (run_repr eof S HS src cs _ _ (start_repr eof S HS d src) H). Qed.

(** lex_stream_t (S = 2): after any n gets with nothing put back, two more gets and two putbacks — what
    the parser does to look for `identifier :' — give both tokens again *)
Fixpoint gets (n : nat) : list call := match n with O => [] | S n => Get :: gets n end.
Lemma legal_gets cap n : forall k cs, legal cap (mk_cursor k k) (gets n ++ cs) <-> legal cap (mk_cursor (k + n) (k + n)) cs.
Proof.
  induction n as [|n IH]; intros k cs; cbn [gets app].
  - rewrite Nat.add_0_r. reflexivity.
  - cbn [legal move allowed pos high]. replace (Nat.max k (k + 1)) with (k + 1) by lia. rewrite IH.
    replace (k + 1 + n) with (k + S n) by lia. tauto.
Qed.
Lemma delivered_gets {T} (eof : T) src n : forall k cs, delivered eof src (mk_cursor k k) (gets n ++ cs) =
  map (token_at eof src) (seq k n) ++ delivered eof src (mk_cursor (k + n) (k + n)) cs.
Proof.
  induction n as [|n IH]; intros k cs; cbn [gets app seq map].
  - rewrite Nat.add_0_r. reflexivity.
  - cbn [delivered move pos high]. replace (Nat.max k (k + 1)) with (k + 1) by lia. rewrite IH.
    replace (k + 1 + n) with (k + S n) by lia. replace (k + 1) with (S k) by lia. reflexivity.
Qed.
Corollary C58_two_tokens_of_lookahead :
  forall (T : Type) (eof d : T) (src : list (option T)) (n : nat),
    exists l', run eof (start d 2 src) (gets n ++ [Get; Get; Putback; Putback; Get; Get]) =
      Some (map (token_at eof src) (seq 0 n) ++
            [token_at eof src n; token_at eof src (n + 1); token_at eof src n; token_at eof src (n + 1)], l').
Proof.
  intros T eof d src n.
  destruct (C58_lookahead_is_a_cursor T eof d 2 src (gets n ++ [Get; Get; Putback; Putback; Get; Get])) as (l' & R); [lia| |].
  - apply legal_gets. cbn [legal allowed move pos high]. lia.
  - exists l'. rewrite R, delivered_gets. cbn [delivered move pos high].
    replace (0 + n + 1 + 1 - 1 - 1) with n by lia. reflexivity.
Qed.

(** A third putback in a row is not allowed, and it does overflow the buffer of two *)
Theorem C58_third_putback_overflows :
  forall (T : Type) (eof d : T) (src : list (option T)),
    run eof (start d 2 src) [Get; Get; Get; Putback; Putback; Putback] = None.
Proof.
  intros T eof d src.
  destruct (C58_lookahead_is_a_cursor T eof d 2 src [Get; Get; Get; Putback; Putback]) as (l' & R);
    [lia|cbn [legal allowed move pos high]; lia|].
  pose proof (run_repr eof 2 ltac:(lia) src [Get; Get; Get] _ _ (start_repr eof 2 ltac:(lia) d src) ltac:(cbn [legal allowed]; tauto)) as (l3 & R3).
  assert (H : exists l5, repr eof 2 src (mk_cursor 1 3) l5 /\ forall cs, run eof (start d 2 src) ([Get; Get; Get; Putback; Putback] ++ cs) =
     match run eof l5 cs with Some (ts, l'') => Some (map (token_at eof src) [0; 1; 2] ++ ts, l'') | None => None end).
  { destruct (get_repr eof 2 ltac:(lia) src _ _ (start_repr eof 2 ltac:(lia) d src)) as (a & Ha & Ra).
    destruct (get_repr eof 2 ltac:(lia) src _ _ Ra) as (b & Hb & Rb).
    destruct (get_repr eof 2 ltac:(lia) src _ _ Rb) as (c & Hc & Rc).
    destruct (putback_repr eof 2 ltac:(lia) src _ _ Rc ltac:(cbn [allowed move pos high]; lia)) as (p & Hp & Rp).
    destruct (putback_repr eof 2 ltac:(lia) src _ _ Rp ltac:(cbn [allowed move pos high]; lia)) as (q & Hq & Rq).
    exists q. split; [exact Rq|]. intros cs. cbn [app run]. rewrite Ha, Hb, Hc, Hp, Hq.
    cbn [map pos move]. destruct (run eof q cs) as [[ts l'']|]; reflexivity. }
  destruct H as (l5 & R5 & H). change [Get; Get; Get; Putback; Putback; Putback] with ([Get; Get; Get; Putback; Putback] ++ [Putback]).
  rewrite H. cbn [run]. unfold putback_token, putback. rewrite (full_spec eof 2 ltac:(lia) _ _ _ R5). reflexivity.
Qed.

Example C58_case : run 0 (start 99 2 [Some 1; None; Some 2; Some 3]) [Get; Get; Putback; Putback; Get; Get; Get; Get; Get] =
  Some ([1; 2; 1; 2; 3; 0; 0], mk_lexer (Queue [0; 0] 1 1 true) []).
Proof. reflexivity. Qed.
