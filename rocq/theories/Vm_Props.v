(** C39, C40, C55, C56: the virtual machine. *)
From Coq Require Import String Ascii ZArith Floats.SpecFloat List.
From Verif Require Import Prelude Entity_Model Vm_Value Vm_Model Vm_Spec Vm_Float Vm_Proofs.
Import ListNotations.
Local Open Scope Z_scope.
Ltac Zify.zify_post_hook ::= idtac.

(** *** C39: the machine computes the meaning of every expression *)
(** Evaluating the array an expression compiles to, on any stack and after any history of callback
    invocations, pushes exactly the value of the expression, makes exactly the callback invocations
    its meaning makes and leaves the rest of the stack alone; when the meaning is an exception the
    same exception is thrown after the same invocations, with the previous stack still below whatever
    was being computed.  Undefined behaviour happens exactly when the meaning is undefined
    (double-to-integer conversions out of range, % by zero, shifts of 32 or more). *)
Theorem C39_machine_computes_the_meaning :
  forall (E : env) (e : expr) (st : list value) (h : list event), overrides_binary E -> wf e ->
    match eval E e h with
    | (Val v, h') => runs E (compile e) (mk_state st h) (ROk (mk_state (v :: st) h'))
    | (Exn x, h') => exists junk, runs E (compile e) (mk_state st h) (RThrow x (mk_state (junk ++ st) h'))
    | (Undef, _) => runs E (compile e) (mk_state st h) RUB
    end.
Proof. intros E e st h O W. exact (compile_correct E O e W st h). Qed.

(** In particular the machine always finishes *)
Corollary C39_always_finishes :
  forall (E : env) (e : expr) (st : list value) (h : list event), overrides_binary E -> wf e ->
    exists r, runs E (compile e) (mk_state st h) r.
Proof.
  intros E e st h O W. pose proof (compile_correct E O e W st h) as A.
  destruct (eval E e h) as [[v|x|] h']; cbn [agrees] in A.
  - eexists. exact A.
  - destruct A as [junk A]. eexists. exact A.
  - eexists. exact A.
Qed.

(** *** C40: the operand that does not decide the result is never evaluated *)
(** If the first operand of && is false the result is false, after exactly the invocations of that
    operand, whatever array [q] the second operand is: it may be erroneous in any way. *)
Theorem C40_and_skips_its_second_operand :
  forall (E : env) (a : expr) (q : list value) (st : list value) (h h' : list event),
    overrides_binary E -> wf a -> eval E a h = (Val (VBool false), h') ->
    runs E (compile a ++ [VArr q; VName ".and"]) (mk_state st h) (ROk (mk_state (VBool false :: st) h')).
Proof.
  intros E a q st h h' O W Ha. pose proof (compile_correct E O a W st h) as A. rewrite Ha in A. cbn [agrees] in A.
  eapply runs_app; [exact A|]. eapply runs_cons; [apply runs_push; reflexivity|].
  eapply (runs_op E); [reflexivity|apply (no_override E O); intros []; discriminate|discriminate|].
  exists 0%nat. intros fuel _. reflexivity.
Qed.
Theorem C40_or_skips_its_second_operand :
  forall (E : env) (a : expr) (q : list value) (st : list value) (h h' : list event),
    overrides_binary E -> wf a -> eval E a h = (Val (VBool true), h') ->
    runs E (compile a ++ [VArr q; VName ".or"]) (mk_state st h) (ROk (mk_state (VBool true :: st) h')).
Proof.
  intros E a q st h h' O W Ha. pose proof (compile_correct E O a W st h) as A. rewrite Ha in A. cbn [agrees] in A.
  eapply runs_app; [exact A|]. eapply runs_cons; [apply runs_push; reflexivity|].
  eapply (runs_op E); [reflexivity|apply (no_override E O); intros []; discriminate|discriminate|].
  exists 0%nat. intros fuel _. reflexivity.
Qed.
(** c ? a : b runs exactly the chosen branch: the machine does what it does on that branch alone,
    whatever array the other branch is and whatever the chosen branch does. *)
Theorem C40_conditional_runs_one_branch :
  forall (E : env) (c : expr) (pa pb : list value) (st : list value) (h h' : list event) (b : bool) (r : res),
    overrides_binary E -> wf c -> eval E c h = (Val (VBool b), h') ->
    runs E (if b then pa else pb) (mk_state st h') r ->
    runs E (compile c ++ [VArr pa; VArr pb; VName ".ifelse"]) (mk_state st h) r.
Proof.
  intros E c pa pb st h h' b r O W Hc [N [n R]]. pose proof (compile_correct E O c W st h) as A.
  rewrite Hc in A. cbn [agrees] in A.
  eapply runs_app; [exact A|]. eapply runs_cons; [apply runs_push; reflexivity|].
  eapply runs_cons; [apply runs_push; reflexivity|].
  eapply (runs_op E); [reflexivity|apply (no_override E O); intros []; discriminate|exact N|].
  exists n. intros fuel L. rewrite <- (R fuel L). reflexivity.
Qed.
(** And when the first operand does not decide, the second is evaluated, once, and must be boolean *)
Theorem C40_and_or_evaluate_second_when_needed :
  forall (E : env) (a b : expr) (st : list value) (h h1 h2 : list event) (w : bool),
    overrides_binary E -> wf a -> wf b ->
    (eval E a h = (Val (VBool true), h1) -> eval E b h1 = (Val (VBool w), h2) ->
     runs E (compile (EAnd a b)) (mk_state st h) (ROk (mk_state (VBool w :: st) h2))) /\
    (eval E a h = (Val (VBool false), h1) -> eval E b h1 = (Val (VBool w), h2) ->
     runs E (compile (EOr a b)) (mk_state st h) (ROk (mk_state (VBool w :: st) h2))).
Proof.
  intros E a b st h h1 h2 w O Wa Wb. split; intros Ha Hb.
  - pose proof (compile_correct E O (EAnd a b) (conj Wa Wb) st h) as A. cbn [eval] in A.
    rewrite Ha in A. cbn [bind] in A. rewrite Hb in A. exact A.
  - pose proof (compile_correct E O (EOr a b) (conj Wa Wb) st h) as A. cbn [eval] in A.
    rewrite Ha in A. cbn [bind] in A. rewrite Hb in A. exact A.
Qed.

(** *** C55: a[i] is the i-th element of the array a *)
(** Where std::size_t has 4 bytes this holds for every array and every index in range; past the end
    the machine throws. *)
Theorem C55_element_of_array_partial :
  forall (E : env) (a i : expr) (st : list value) (h h1 h2 : list event) (l : list value) (n : nat),
    overrides_binary E -> wf a -> wf i -> e_size64 E = false -> e_numeric_index E = None ->
    eval E a h = (Val (VArr l), h1) -> eval E i h1 = (Val (VNum (f_of_Z (Z.of_nat n))), h2) ->
    Z.of_nat n < 2 ^ 32 ->
    match nth_error l n with
    | Some v => runs E (compile (EIndex a i)) (mk_state st h) (ROk (mk_state (v :: st) h2))
    | None => exists junk, runs E (compile (EIndex a i)) (mk_state st h) (RThrow XIndex (mk_state (junk ++ st) h2))
    end.
Proof.
  intros E a i st h h1 h2 l n O Wa Wi S N Ha Hi Hn.
  pose proof (compile_correct E O (EIndex a i) (conj Wa Wi) st h) as A. cbn [eval] in A.
  rewrite Ha in A. cbn [bind] in A. rewrite Hi in A. cbn [bind] in A.
  unfold index_sem, element in A. rewrite S, N in A.
  rewrite f_trunc_of_Z in A by (split; [lia|]; apply Z.lt_trans with (2 ^ 32); [lia|reflexivity]).
  destruct (Z.leb_spec 0 (Z.of_nat n)); [|lia]. destruct (Z.ltb_spec (Z.of_nat n) (2 ^ 32)); [|lia].
  cbn [andb] in A. rewrite Z_N_nat, Nat2Z.id in A. destruct (nth_error l n); exact A.
Qed.
(** Where std::size_t has 8 bytes (every current platform) indexing by a number always throws a type
    error, whatever the array, the number and the numeric_index_lookup callback, which is never
    called. *)
Theorem C55_number_index_always_throws_refuted :
  forall (E : env) (a i : expr) (st : list value) (h h1 h2 : list event) (v : value) (f : spec_float),
    overrides_binary E -> wf a -> wf i -> e_size64 E = true ->
    eval E a h = (Val v, h1) -> eval E i h1 = (Val (VNum f), h2) ->
    exists junk, runs E (compile (EIndex a i)) (mk_state st h) (RThrow XType (mk_state (junk ++ st) h2)).
Proof.
  intros E a i st h h1 h2 v f O Wa Wi S Ha Hi.
  pose proof (compile_correct E O (EIndex a i) (conj Wa Wi) st h) as A. cbn [eval] in A.
  rewrite Ha in A. cbn [bind] in A. rewrite Hi in A. cbn [bind] in A.
  unfold index_sem, element in A. rewrite S in A. exact A.
Qed.
(** a.k and a[@k] are the member k of the dictionary a; a missing key throws *)
Theorem C55_member_of_dictionary :
  forall (E : env) (a : expr) (k : string) (st : list value) (h h1 : list event) (d : list (string * value)),
    overrides_binary E -> wf a -> plain_name k -> e_named_index E = None ->
    eval E a h = (Val (VDict d), h1) ->
    (forall v, dfind k d = Some v ->
       runs E (compile (EDot a k)) (mk_state st h) (ROk (mk_state (v :: st) h1)) /\
       runs E (compile (EIndex a (ELit (VName k)))) (mk_state st h) (ROk (mk_state (v :: st) h1))) /\
    (dfind k d = None ->
       (exists junk, runs E (compile (EDot a k)) (mk_state st h) (RThrow XKey (mk_state (junk ++ st) h1))) /\
       (exists junk, runs E (compile (EIndex a (ELit (VName k)))) (mk_state st h) (RThrow XKey (mk_state (junk ++ st) h1)))).
Proof.
  intros E a k st h h1 d O Wa Wk N Ha.
  pose proof (compile_correct E O (EDot a k) (conj Wa Wk) st h) as A. cbn [eval] in A.
  rewrite Ha in A. cbn [bind index_sem] in A. rewrite N in A.
  pose proof (compile_correct E O (EIndex a (ELit (VName k))) (conj Wa Wk) st h) as B. cbn [eval] in B.
  rewrite Ha in B. cbn [bind index_sem] in B. rewrite N in B.
  split.
  - intros v Hv. rewrite Hv in A, B. split; assumption.
  - intros Hv. rewrite Hv in A, B. split; assumption.
Qed.

(** *** C56: min and max *)
(** number order: true for all doubles but NaN *)
Definition number (f : spec_float) : Prop := match f with S754_nan => False | _ => True end.
Definition le (x y : spec_float) : Prop := SFleb x y = true.

Definition rank (f : spec_float) : Z * Z * Z :=
  match f with
  | S754_zero _ => (0, 0, 0)
  | S754_infinity false => (2, 0, 0) | S754_infinity true => (-2, 0, 0)
  | S754_finite false m e => (1, e, Zpos m) | S754_finite true m e => (-1, - e, Zneg m)
  | S754_nan => (3, 0, 0)
  end.
Definition lex_lt (x y : Z * Z * Z) : Prop :=
  match x, y with
  | (a, b, c), (a', b', c') => a < a' \/ (a = a' /\ (b < b' \/ (b = b' /\ c < c')))
  end.
Lemma SFltb_rank x y : number x -> number y -> (SFltb x y = true <-> lex_lt (rank x) (rank y)).
Proof.
  assert (C : forall s1 m1 e1 s2 m2 e2, SFltb (S754_finite s1 m1 e1) (S754_finite s2 m2 e2) = true <->
    lex_lt (rank (S754_finite s1 m1 e1)) (rank (S754_finite s2 m2 e2))).
  { intros s1 m1 e1 s2 m2 e2. unfold SFltb, SFcompare, rank, lex_lt.
    destruct s1, s2.
    - destruct (Z.compare_spec e1 e2); subst; [|split; [discriminate|lia]|split; [lia|reflexivity]].
      change (Pos.compare_cont Eq m1 m2) with (Pos.compare m1 m2).
      destruct (Pos.compare_spec m1 m2); cbn [CompOpp]; split; intros; try discriminate; try reflexivity; lia.
    - split; [lia|reflexivity].
    - split; [discriminate|lia].
    - destruct (Z.compare_spec e1 e2); subst; [|split; [lia|reflexivity]|split; [discriminate|lia]].
      change (Pos.compare_cont Eq m1 m2) with (Pos.compare m1 m2).
      destruct (Pos.compare_spec m1 m2); split; intros; try discriminate; try reflexivity; lia. }
  destruct x as [s1|[|]| |s1 m1 e1], y as [s2|[|]| |s2 m2 e2]; intros Hx Hy;
    try contradiction; try apply C; try (destruct s1); try (destruct s2);
    (split; [intros H; try discriminate H; cbn; lia|cbn; intros; try reflexivity; lia]).
Qed.
Lemma SFleb_negb x y : number x -> number y -> SFleb x y = negb (SFltb y x).
Proof.
  assert (S : forall c1 c2 : option comparison, c1 <> None -> c2 = option_map CompOpp c1 ->
    match c1 with Some (Eq | Lt) => true | _ => false end =
    negb match c2 with Some Lt => true | _ => false end).
  { intros [[| |]|] c2 H ->; try reflexivity. congruence. }
  intros Hx Hy. unfold SFleb, SFltb.
  assert (N : SFcompare x y <> None).
  { destruct x as [s1|[|]| |s1 m1 e1], y as [s2|[|]| |s2 m2 e2]; try contradiction; cbn; try discriminate;
      try (destruct s1; discriminate); try (destruct s2; discriminate);
      destruct s1, s2; try discriminate; destruct (Z.compare e1 e2); discriminate. }
  assert (O : SFcompare y x = option_map CompOpp (SFcompare x y)).
  { destruct x as [s1|[|]| |s1 m1 e1], y as [s2|[|]| |s2 m2 e2]; try contradiction; try reflexivity;
      try (destruct s1; reflexivity); try (destruct s2; reflexivity).
    cbn. destruct s1, s2; try reflexivity; rewrite (Z.compare_antisym e1 e2); destruct (Z.compare e1 e2); try reflexivity;
      cbn; change (Pos.compare_cont Eq) with Pos.compare; rewrite (Pos.compare_antisym m1 m2); reflexivity. }
  pose proof (S _ _ N O) as R.
  destruct (SFcompare x y) as [[| |]|]; destruct (SFcompare y x) as [[| |]|]; cbn in *; try discriminate R; reflexivity || congruence.
Qed.

Definition nums (fs : list spec_float) : list expr := map (fun f => ELit (VNum f)) fs.
Lemma eval_nums E fs : forall h, eval_list E (nums fs) h = (Vals (map VNum fs), h).
Proof.
  induction fs as [|f fs IH]; intros h; [reflexivity|]. unfold nums in *. cbn [map eval_list eval].
  rewrite IH. reflexivity.
Qed.
Lemma wf_nums fs : wf_list (nums fs).
Proof. induction fs; cbn; auto. Qed.

Lemma le_lex x y : number x -> number y -> (le x y <-> ~ lex_lt (rank y) (rank x)).
Proof.
  intros Hx Hy. unfold le. rewrite SFleb_negb by assumption. rewrite <- (SFltb_rank y x) by assumption.
  destruct (SFltb y x); cbn; split; intros; try discriminate; try reflexivity; try congruence.
Qed.
Lemma min_from_spec l : forall best, number best -> Forall number l ->
  exists m, min_from (VNum best) (map VNum l) = inr (VNum m) /\ In m (best :: l) /\ number m /\
    Forall (le m) (best :: l).
Proof.
  assert (T : forall x y z, number x -> number y -> number z -> le x y -> le y z -> le x z).
  { intros x y z Hx Hy Hz. rewrite !le_lex by assumption.
    destruct (rank x) as [[a b] c], (rank y) as [[a' b'] c'], (rank z) as [[a'' b''] c'']. cbn. lia. }
  assert (R : forall x, number x -> le x x).
  { intros x Hx. rewrite le_lex by assumption. destruct (rank x) as [[a b] c]. cbn. lia. }
  induction l as [|f l IH]; intros best Hb Hl; cbn [map min_from].
  - exists best. split; [reflexivity|]. split; [left; reflexivity|]. split; [exact Hb|].
    constructor; [apply R; exact Hb|constructor].
  - pose proof (Forall_inv Hl) as Hf. pose proof (Forall_inv_tail Hl) as Hl'.
    set (b' := if SFltb f best then f else best).
    assert (Hb' : number b') by (unfold b'; destruct (SFltb f best); assumption).
    replace (if SFltb f best then VNum f else VNum best) with (VNum b') by (unfold b'; destruct (SFltb f best); reflexivity).
    destruct (IH b' Hb' Hl') as (m & Em & Im & Hm & Fm). exists m. split; [exact Em|].
    split; [|split; [exact Hm|]].
    + destruct Im as [<-|Im]; [|right; right; exact Im]. unfold b'. destruct (SFltb f best); [right; left|left]; reflexivity.
    + pose proof (Forall_inv Fm) as Fb. pose proof (Forall_inv_tail Fm) as Fl.
      assert (L : le b' best /\ le b' f).
      { unfold b'. destruct (SFltb f best) eqn:Ef.
        - split; [|apply R; exact Hf]. rewrite le_lex by assumption. apply SFltb_rank in Ef; [|assumption|assumption].
          destruct (rank f) as [[a b] c], (rank best) as [[p q] r]. cbn in *. lia.
        - split; [apply R; exact Hb|]. unfold le. rewrite SFleb_negb by assumption. rewrite Ef. reflexivity. }
      destruct L as [L1 L2]. constructor; [exact (T m b' best Hm Hb' Hb Fb L1)|].
      constructor; [exact (T m b' f Hm Hb' Hf Fb L2)|exact Fl].
Qed.
Lemma max_from_spec l : forall best, number best -> Forall number l ->
  exists m, max_from (VNum best) (map VNum l) = inr (VNum m) /\ In m (best :: l) /\ number m /\
    Forall (fun x => le x m) (best :: l).
Proof.
  assert (T : forall x y z, number x -> number y -> number z -> le x y -> le y z -> le x z).
  { intros x y z Hx Hy Hz. rewrite !le_lex by assumption.
    destruct (rank x) as [[a b] c], (rank y) as [[a' b'] c'], (rank z) as [[a'' b''] c'']. cbn. lia. }
  assert (R : forall x, number x -> le x x).
  { intros x Hx. rewrite le_lex by assumption. destruct (rank x) as [[a b] c]. cbn. lia. }
  induction l as [|f l IH]; intros best Hb Hl; cbn [map max_from].
  - exists best. split; [reflexivity|]. split; [left; reflexivity|]. split; [exact Hb|].
    constructor; [apply R; exact Hb|constructor].
  - pose proof (Forall_inv Hl) as Hf. pose proof (Forall_inv_tail Hl) as Hl'.
    set (b' := if SFltb best f then f else best).
    assert (Hb' : number b') by (unfold b'; destruct (SFltb best f); assumption).
    replace (if SFltb best f then VNum f else VNum best) with (VNum b') by (unfold b'; destruct (SFltb best f); reflexivity).
    destruct (IH b' Hb' Hl') as (m & Em & Im & Hm & Fm). exists m. split; [exact Em|].
    split; [|split; [exact Hm|]].
    + destruct Im as [<-|Im]; [|right; right; exact Im]. unfold b'. destruct (SFltb best f); [right; left|left]; reflexivity.
    + pose proof (Forall_inv Fm) as Fb. pose proof (Forall_inv_tail Fm) as Fl.
      assert (L : le best b' /\ le f b').
      { unfold b'. destruct (SFltb best f) eqn:Ef.
        - split; [|apply R; exact Hf]. rewrite le_lex by assumption. apply SFltb_rank in Ef; [|assumption|assumption].
          destruct (rank f) as [[a b] c], (rank best) as [[p q] r]. cbn in *. lia.
        - split; [apply R; exact Hb|]. unfold le. rewrite SFleb_negb by assumption. rewrite Ef. reflexivity. }
      destruct L as [L1 L2]. constructor; [exact (T best b' m Hb Hb' Hm L1 Fb)|].
      constructor; [exact (T f b' m Hf Hb' Hm L2 Fb)|exact Fl].
Qed.
(** min(x, ...) and max(x, ...) of any numbers (no NaN) push one of the arguments that is not above
    (below) any other; with no arguments they throw *)
Theorem C56_min_is_the_least_argument :
  forall (E : env) (fs : list spec_float) (st : list value) (h : list event),
    overrides_binary E -> short fs -> Forall number fs -> fs <> [] ->
    exists m, In m fs /\ Forall (le m) fs /\
      runs E (compile (ECall "min" (nums fs))) (mk_state st h) (ROk (mk_state (VNum m :: st) h)).
Proof.
  intros E fs st h O S N NE. destruct fs as [|f fs]; [congruence|].
  destruct (min_from_spec fs f (Forall_inv N) (Forall_inv_tail N)) as (m & Em & Im & Hm & Fm).
  exists m. split; [exact Im|]. split; [exact Fm|].
  assert (W : wf (ECall "min" (nums (f :: fs)))).
  { rewrite wf_call. split; [discriminate|]. split; [apply wf_nums|]. unfold short, nums in *. rewrite map_length. exact S. }
  pose proof (compile_correct E O _ W st h) as A. rewrite eval_call, eval_nums in A.
  unfold call_sem in A. cbn [map array_function String.eqb Ascii.eqb Bool.eqb] in A. rewrite Em in A. exact A.
Qed.
Theorem C56_max_is_the_greatest_argument :
  forall (E : env) (fs : list spec_float) (st : list value) (h : list event),
    overrides_binary E -> short fs -> Forall number fs -> fs <> [] ->
    exists m, In m fs /\ Forall (fun x => le x m) fs /\
      runs E (compile (ECall "max" (nums fs))) (mk_state st h) (ROk (mk_state (VNum m :: st) h)).
Proof.
  intros E fs st h O S N NE. destruct fs as [|f fs]; [congruence|].
  destruct (max_from_spec fs f (Forall_inv N) (Forall_inv_tail N)) as (m & Em & Im & Hm & Fm).
  exists m. split; [exact Im|]. split; [exact Fm|].
  assert (W : wf (ECall "max" (nums (f :: fs)))).
  { rewrite wf_call. split; [discriminate|]. split; [apply wf_nums|]. unfold short, nums in *. rewrite map_length. exact S. }
  pose proof (compile_correct E O _ W st h) as A. rewrite eval_call, eval_nums in A.
  unfold call_sem in A. cbn [map array_function String.eqb Ascii.eqb Bool.eqb] in A. rewrite Em in A. exact A.
Qed.

(** *** Examples *)
Definition E0 (wide : bool) : env := {|
  e_variable := Some (fun n h => inr (VNum (f_of_Z (Z.of_nat (List.length h)))));
  e_array_fn := None; e_dict_fn := None; e_named_index := None; e_numeric_index := None;
  e_override := fun _ => None; e_localize := fun s => s; e_other_type := fun _ => ""%string;
  e_code_index := []; e_name_index := []; e_size64 := wide |}.
Definition num (z : Z) : expr := ELit (VNum (f_of_Z z)).
(** 1 + x * 3 < max(4, 2) && [5, x].. : two lookups, in order *)
Definition ex1 : expr :=
  EAnd (EBin BLess (EBin BAdd (num 1) (EBin BMul (EVar "x") (num 3))) (ECall "max" [num 4; num 2]))
       (EBin BEq (EArray [num 5; EVar "y"]) (EArray [num 5; num 1])).
Example C39_example :
  overrides_binary (E0 true) /\ wf ex1 /\
  eval (E0 true) ex1 [] = (Val (VBool true), [EvVariable "x"; EvVariable "y"]) /\
  evaluate (E0 true) 40 (compile ex1) (mk_state [VEmpty] []) =
    ROk (mk_state [VBool true; VEmpty] [EvVariable "x"; EvVariable "y"]).
Proof.
  split; [intros n H; exfalso; apply H; reflexivity|].
  split; [cbn; unfold short, plain_name; cbn; repeat split; try exact I; try discriminate; lia|].
  vm_compute. split; reflexivity.
Qed.
Example C40_example :
  evaluate (E0 true) 40 (compile (ECond (ELit (VBool false)) (EUn UNegate (ELit (VStr "x"))) (num 7))) (mk_state [] []) =
    ROk (mk_state [VNum (f_of_Z 7)] []) /\
  evaluate (E0 true) 40 (compile (EAnd (ELit (VBool false)) (EUn UNegate (ELit (VStr "x"))))) (mk_state [] []) =
    ROk (mk_state [VBool false] []).
Proof. vm_compute. split; reflexivity. Qed.
Example C55_example :
  evaluate (E0 false) 40 (compile (EIndex (EArray [num 5; num 6]) (num 1))) (mk_state [] []) =
    ROk (mk_state [VNum (f_of_Z 6)] []) /\
  evaluate (E0 true) 40 (compile (EIndex (EArray [num 5; num 6]) (num 1))) (mk_state [] []) =
    RThrow XType (mk_state [VNum (f_of_Z 1); VArr [VNum (f_of_Z 5); VNum (f_of_Z 6)]] []).
Proof. vm_compute. split; reflexivity. Qed.
Example C56_example :
  Forall number [f_of_Z 3; S754_infinity true; f_of_Z (-5); S754_zero true] /\
  evaluate (E0 true) 40 (compile (ECall "min" (nums [f_of_Z 3; S754_zero true; f_of_Z (-5)]))) (mk_state [] []) =
    ROk (mk_state [VNum (f_of_Z (-5))] []).
Proof. split; [repeat constructor|vm_compute; reflexivity]. Qed.
