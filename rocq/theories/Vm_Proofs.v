(** Proofs about the virtual machine: running the array an expression compiles to computes its
    meaning. *)
From Coq Require Import String Ascii ZArith Floats.SpecFloat List.
From Verif Require Import Prelude Vm_Value Vm_Model Vm_Spec Vm_Float.
Import ListNotations.
Local Open Scope Z_scope.
Ltac Zify.zify_post_hook ::= idtac.

(** *** induction over nested expressions *)
Section expr_ind'.
Variable P : expr -> Prop.
Hypothesis Hlit : forall v, P (ELit v).
Hypothesis Harray : forall l, Forall P l -> P (EArray l).
Hypothesis Hdict : forall l : list (string * expr), Forall (fun e => P (snd e)) l -> P (EDict l).
Hypothesis Hvar : forall n, P (EVar n).
Hypothesis Hcall : forall f l, Forall P l -> P (ECall f l).
Hypothesis Hcalln : forall f (l : list (string * expr)), Forall (fun e => P (snd e)) l -> P (ECallNamed f l).
Hypothesis Hun : forall op a, P a -> P (EUn op a).
Hypothesis Hbin : forall op a b, P a -> P b -> P (EBin op a b).
Hypothesis Hand : forall a b, P a -> P b -> P (EAnd a b).
Hypothesis Hor : forall a b, P a -> P b -> P (EOr a b).
Hypothesis Hcond : forall c a b, P c -> P a -> P b -> P (ECond c a b).
Hypothesis Hindex : forall a b, P a -> P b -> P (EIndex a b).
Hypothesis Hdot : forall a n, P a -> P (EDot a n).
Fixpoint expr_ind' (e : expr) : P e :=
  let all := fix go (l : list expr) : Forall P l :=
    match l with [] => Forall_nil _ | x :: l' => Forall_cons _ (expr_ind' x) (go l') end in
  let named := fix go (l : list (string * expr)) : Forall (fun e => P (snd e)) l :=
    match l with [] => Forall_nil _ | x :: l' => Forall_cons x (expr_ind' (snd x)) (go l') end in
  match e with
  | ELit v => Hlit v | EArray l => Harray l (all l) | EDict l => Hdict l (named l) | EVar n => Hvar n
  | ECall f l => Hcall f l (all l) | ECallNamed f l => Hcalln f l (named l)
  | EUn op a => Hun op a (expr_ind' a)
  | EBin op a b => Hbin op a b (expr_ind' a) (expr_ind' b)
  | EAnd a b => Hand a b (expr_ind' a) (expr_ind' b)
  | EOr a b => Hor a b (expr_ind' a) (expr_ind' b)
  | ECond c a b => Hcond c a b (expr_ind' c) (expr_ind' a) (expr_ind' b)
  | EIndex a b => Hindex a b (expr_ind' a) (expr_ind' b)
  | EDot a n => Hdot a n (expr_ind' a)
  end.
End expr_ind'.

Section Proofs.
Variable E : env.

(** *** the lists inside the definitions, named *)
Fixpoint eval_list (l : list expr) (h : list event) : outcomes * list event :=
  match l with
  | [] => (Vals [], h)
  | x :: l' => match eval E x h with
               | (Val v, h') => match eval_list l' h' with
                                | (Vals vs, h'') => (Vals (v :: vs), h'')
                                | r => r
                                end
               | (o, h') => (Fails o, h')
               end
  end.
Fixpoint items (l : list expr) : list value :=
  match l with [] => [] | x :: l' => compile x ++ items l' end.
Fixpoint named (l : list (string * expr)) : list value :=
  match l with [] => [] | (k, x) :: l' => VName k :: compile x ++ named l' end.
Fixpoint eval_named (l : list (string * expr)) (h : list event) : outcomes * list event :=
    match l with
    | [] => (Vals [], h)
    | (_, x) :: l' => match eval E x h with
                      | (Val v, h') => match eval_named l' h' with
                                       | (Vals vs, h'') => (Vals (v :: vs), h'')
                                       | r => r
                                       end
                      | (o, h') => (Fails o, h')
                      end
    end.
Fixpoint wf_list (l : list expr) : Prop := match l with [] => True | x :: l' => wf x /\ wf_list l' end.
Fixpoint wf_named (l : list (string * expr)) : Prop :=
  match l with [] => True | (k, x) :: l' => plain_name k /\ wf x /\ wf_named l' end.
Definition dict_of (keys : list (string * expr)) (vs : list value) :=
  fold_left (fun d kv => dinsert (fst kv) (snd kv) d) (combine (map fst keys) vs) [].
Definition count (n : nat) : value := VNum (f_of_Z (Z.of_nat n)).
Definition c_array (l : list expr) : list value :=
    match l with [] => [VArr []] | _ => items l ++ [count (List.length l); VName ".array"] end.
Definition c_dict (l : list (string * expr)) : list value :=
    match l with [] => [VDict []] | _ => named l ++ [count (List.length l); VName ".dictionary"] end.

Lemma eval_array l h : eval E (EArray l) h =
  match eval_list l h with (Vals vs, h') => (Val (VArr vs), h') | (Fails o, h') => (o, h') end.
Proof. reflexivity. Qed.
Lemma eval_dict l h : eval E (EDict l) h =
  match eval_named l h with (Vals vs, h') => (Val (VDict (dict_of l vs)), h') | (Fails o, h') => (o, h') end.
Proof. reflexivity. Qed.
Lemma eval_call f l h : eval E (ECall f l) h =
  match eval_list l h with (Vals vs, h') => call_sem E f vs h' | (Fails o, h') => (o, h') end.
Proof. reflexivity. Qed.
Lemma eval_calln f l h : eval E (ECallNamed f l) h =
  match eval_named l h with
  | (Vals vs, h') => call_named_sem E f (dict_of l vs) h' | (Fails o, h') => (o, h') end.
Proof. reflexivity. Qed.
Lemma compile_array l : compile (EArray l) = c_array l. Proof. reflexivity. Qed.
Lemma compile_dict l : compile (EDict l) = c_dict l. Proof. reflexivity. Qed.
Lemma compile_call f l : compile (ECall f l) = c_array l ++ [VName f; VName ".function"].
Proof. reflexivity. Qed.
Lemma compile_calln f l : compile (ECallNamed f l) = c_dict l ++ [VName f; VName ".function"].
Proof. reflexivity. Qed.
Lemma wf_array l : wf (EArray l) = (wf_list l /\ short l). Proof. reflexivity. Qed.
Lemma wf_dict l : wf (EDict l) = (wf_named l /\ short l). Proof. reflexivity. Qed.
Lemma wf_call f l : wf (ECall f l) = (plain_name f /\ wf_list l /\ short l). Proof. reflexivity. Qed.
Lemma wf_calln f l : wf (ECallNamed f l) = (plain_name f /\ wf_named l /\ short l). Proof. reflexivity. Qed.

(** *** running *)
Definition stops (r : res) : Prop := match r with RThrow _ _ | RUB => True | _ => False end.
Lemma evaluate_app_ok p : forall fuel s s' q, evaluate E fuel p s = ROk s' ->
  exists f', (fuel = List.length p + S f')%nat /\ evaluate E fuel (p ++ q) s = evaluate E (S f') q s'.
Proof.
  induction p as [|e p IH]; intros fuel s s' q H.
  - destruct fuel as [|f]; [discriminate|]. cbn [evaluate] in H. injection H as ->.
    exists f. split; reflexivity.
  - destruct fuel as [|f]; [discriminate|]. cbn [evaluate app] in *.
    destruct (step E (evaluate E f) e s) as [s1| | |] eqn:Es; try discriminate.
    destruct (IH f s1 s' q H) as (f' & Hf & He). exists f'. split; [cbn [List.length]; lia|].
    rewrite He. reflexivity.
Qed.
Lemma evaluate_app_stop p : forall fuel s r q, evaluate E fuel p s = r -> stops r ->
  evaluate E fuel (p ++ q) s = r.
Proof.
  induction p as [|e p IH]; intros fuel s r q H S.
  - destruct fuel as [|f]; cbn [evaluate] in H; subst r; contradiction.
  - destruct fuel as [|f]; [cbn [evaluate] in H; subst r; contradiction|]. cbn [evaluate app] in *.
    destruct (step E (evaluate E f) e s) as [s1| | |] eqn:Es; try (exact H).
    exact (IH f s1 r q H S).
Qed.
Lemma runs_app p q s s' r : runs E p s (ROk s') -> runs E q s' r -> runs E (p ++ q) s r.
Proof.
  intros [_ [n1 H1]] [N2 [n2 H2]]. split; [exact N2|]. exists (n1 + List.length p + n2)%nat. intros fuel L.
  destruct (evaluate_app_ok p fuel s s' q) as (f' & Hf & He); [apply H1; lia|].
  rewrite He. apply H2. lia.
Qed.
Lemma runs_app_stop p q s r : runs E p s r -> stops r -> runs E (p ++ q) s r.
Proof.
  intros [N1 [n1 H1]] S. split; [exact N1|]. exists n1. intros fuel L.
  apply evaluate_app_stop; [apply H1; exact L|exact S].
Qed.
Lemma runs_nil s : runs E [] s (ROk s).
Proof. split; [discriminate|]. exists 1%nat. intros [|f] L; [lia|reflexivity]. Qed.
(** one element *)
Lemma runs_one e s r : r <> RFuel ->
  (exists n, forall fuel, (n <= fuel)%nat -> step E (evaluate E fuel) e s = r) -> runs E [e] s r.
Proof.
  intros N [n H]. split; [exact N|]. exists (S (S n)). intros [|f] L; [lia|]. cbn [evaluate].
  rewrite H by lia. destruct r as [s'| | |]; try reflexivity. destruct f; [lia|reflexivity].
Qed.
Lemma runs_cons e q s s' r : runs E [e] s (ROk s') -> runs E q s' r -> runs E (e :: q) s r.
Proof. intros H1 H2. exact (runs_app [e] q s s' r H1 H2). Qed.
Lemma runs_push e s : is_operator e = None -> runs E [e] s (ROk (push e s)).
Proof.
  intros H. apply runs_one; [discriminate|]. exists 0%nat. intros f _. unfold step. rewrite H. reflexivity.
Qed.
Lemma plain_not_operator v : plain_value v -> is_operator v = None.
Proof.
  destruct v; cbn; intros H; try reflexivity. destruct n as [|c n]; [reflexivity|]. cbn in H.
  destruct (Ascii.eqb_spec c "."); [contradiction|reflexivity].
Qed.

(** *** agreement of the machine with the meaning *)
Definition agrees (p : list value) (r : result) (st : list value) (h : list event) : Prop :=
  match r with
  | (Val v, h') => runs E p (mk_state st h) (ROk (mk_state (v :: st) h'))
  | (Exn x, h') => exists junk, runs E p (mk_state st h) (RThrow x (mk_state (junk ++ st) h'))
  | (Undef, h') => runs E p (mk_state st h) RUB
  end.

(** what remains of an expression after some operands are on the stack *)
Definition agrees_from (p : list value) (r : result) (top st : list value) (h : list event) : Prop :=
  match r with
  | (Val v, h') => runs E p (mk_state (top ++ st) h) (ROk (mk_state (v :: st) h'))
  | (Exn x, h') => exists junk, runs E p (mk_state (top ++ st) h) (RThrow x (mk_state (junk ++ st) h'))
  | (Undef, h') => runs E p (mk_state (top ++ st) h) RUB
  end.
Lemma agrees_bind p q r top st h k :
  agrees p r (top ++ st) h ->
  (forall v h', r = (Val v, h') -> agrees_from q (k v h') (v :: top) st h') ->
  agrees_from (p ++ q) (bind r k) top st h.
Proof.
  intros H K. destruct r as [[v|x|] h']; cbn [bind agrees agrees_from] in *.
  - specialize (K v h' eq_refl). unfold agrees_from in *. destruct (k v h') as [[w|x|] h''].
    + eapply runs_app; [exact H|exact K].
    + destruct K as [junk K]. exists junk. eapply runs_app; [exact H|exact K].
    + eapply runs_app; [exact H|exact K].
  - destruct H as [junk H]. exists (junk ++ top). rewrite <- app_assoc. apply runs_app_stop; [exact H|exact I].
  - apply runs_app_stop; [exact H|exact I].
Qed.
Lemma agrees_push v q r top st h : plain_value v ->
  agrees_from q r (v :: top) st h -> agrees_from (v :: q) r top st h.
Proof.
  intros Hv K. assert (P : runs E [v] (mk_state (top ++ st) h) (ROk (mk_state (v :: top ++ st) h))).
  { apply (runs_push v (mk_state (top ++ st) h)). apply plain_not_operator. exact Hv. }
  unfold agrees_from in *. destruct r as [[w|x|] h''].
  - eapply runs_cons; [exact P|exact K].
  - destruct K as [junk K]. exists junk. eapply runs_cons; [exact P|exact K].
  - eapply runs_cons; [exact P|exact K].
Qed.
(** an operator without recursion *)
Lemma step_op op rest s (rec : list value -> state -> res) :
  op = String "."%char rest -> e_override E op = None ->
  step E rec (VName op) s = match find_operator E rec op with Some f => f s | None => RThrow XNoOperator s end.
Proof. intros -> H. unfold step. cbn [is_operator Ascii.eqb Bool.eqb]. rewrite H. reflexivity. Qed.
Lemma runs_op op rest s r : op = String "."%char rest -> e_override E op = None -> r <> RFuel ->
  (exists n, forall fuel, (n <= fuel)%nat ->
     match find_operator E (evaluate E fuel) op with Some f => f s | None => RThrow XNoOperator s end = r) ->
  runs E [VName op] s r.
Proof.
  intros Ho Hn N [n H]. apply runs_one; [exact N|]. exists n. intros f L.
  rewrite (step_op op rest s (evaluate E f) Ho Hn). apply H. exact L.
Qed.

Definition res_agrees (rs : res) (r : result) (st : list value) : Prop :=
  match r with
  | (Val v, h') => rs = ROk (mk_state (v :: st) h')
  | (Exn x, h') => exists junk, rs = RThrow x (mk_state (junk ++ st) h')
  | (Undef, _) => rs = RUB
  end.
Lemma agrees_of_res e top st h r :
  (exists rs n, (forall fuel, (n <= fuel)%nat -> step E (evaluate E fuel) e (mk_state (top ++ st) h) = rs) /\
   res_agrees rs r st) -> agrees_from [e] r top st h.
Proof.
  intros (rs & n & H & A). unfold agrees_from, res_agrees in *. destruct r as [[v|x|] h'].
  - apply runs_one; [discriminate|]. subst rs. exists n. exact H.
  - destruct A as [junk ->]. exists junk. apply runs_one; [discriminate|]. exists n. exact H.
  - apply runs_one; [discriminate|]. subst rs. exists n. exact H.
Qed.
Lemma agrees_prim op rest f top st h r : op = String "."%char rest -> e_override E op = None ->
  (forall rec, find_operator E rec op = Some f) ->
  res_agrees (f (mk_state (top ++ st) h)) r st -> agrees_from [VName op] r top st h.
Proof.
  intros Ho Hn Hf A. apply agrees_of_res. exists (f (mk_state (top ++ st) h)), 0%nat. split; [|exact A].
  intros fuel _. rewrite (step_op op rest _ _ Ho Hn), Hf. reflexivity.
Qed.
Lemma invoke_agrees c ev n st st' h : skipn n st' = st -> (exists junk, st' = junk ++ st) ->
  res_agrees (call c ev (mk_state st' h) (replace_top n)) (invoke c ev h) st.
Proof.
  intros Hs [junk Hj]. unfold call, invoke, replace_top, record, with_stack. cbn [stack history].
  destruct (c h) as [x|v]; cbn [res_agrees].
  - exists junk. rewrite Hj. reflexivity.
  - rewrite Hs. reflexivity.
Qed.
Lemma pure_agrees r n st st' h : skipn n st' = st -> (exists junk, st' = junk ++ st) ->
  res_agrees (replace_top n r (mk_state st' h)) (pure r h) st.
Proof.
  intros Hs [junk Hj]. unfold pure, replace_top, with_stack. cbn [stack history].
  destruct r as [x|v]; cbn [res_agrees].
  - exists junk. rewrite Hj. reflexivity.
  - rewrite Hs. reflexivity.
Qed.

Hypothesis OB : overrides_binary E.
Lemma no_override op : (forall b, op <> bin_name b) -> e_override E op = None.
Proof.
  intros H. destruct (e_override E op) eqn:Eo; [|reflexivity].
  destruct (OB op) as [b Hb]; [congruence|]. exfalso. exact (H b Hb).
Qed.
Ltac no_ov := apply no_override; intros []; discriminate.
Ltac junk l := exists l; reflexivity.

(** *** the operators *)
Lemma un_agrees op n v st h : un_name op = Some n -> agrees_from [VName n] (un_sem op v, h) [v] st h.
Proof.
  destruct op; cbn [un_name]; intros Hn; try discriminate; injection Hn as <-.
  - eapply agrees_prim; [reflexivity|no_ov|reflexivity|]. unfold unary_not. cbn [stack app].
    destruct v; cbn [un_sem res_agrees]; try (junk [v]); try reflexivity;
      match goal with |- exists j, RThrow _ (mk_state (?x :: _) _) = _ => junk [x] end.
  - eapply agrees_prim; [reflexivity|no_ov|reflexivity|]. unfold unary_negate. cbn [stack app].
    destruct v; cbn [un_sem res_agrees]; try reflexivity;
      match goal with |- exists j, RThrow _ (mk_state (?x :: _) _) = _ => junk [x] end.
  - eapply agrees_prim; [reflexivity|no_ov|reflexivity|]. unfold bitwise_negate, pop_u32. cbn [stack app].
    destruct v; cbn [un_sem res_agrees];
      try match goal with |- exists j, RThrow _ (mk_state (?x :: _) _) = _ => junk [x] end.
    destruct (f_to_u32 f) as [z|] eqn:Ez; [|reflexivity].
    cbn [res_agrees]. unfold push, with_stack. cbn [stack history]. do 4 f_equal.
    unfold f_to_u32 in Ez. destruct (f_trunc f) as [y|]; [|discriminate].
    destruct (Z.leb_spec 0 y); [|discriminate]. destruct (Z.ltb_spec y (2 ^ 32)); [|discriminate].
    injection Ez as <-. unfold Z.lnot. f_equal.
    replace (Z.pred (- y)) with ((2 ^ 32 - 1 - y) + (-1) * 2 ^ 32) by lia.
    rewrite Z_mod_plus_full, Z.mod_small; lia.
Qed.
Lemma num_agrees f a b st h :
  res_agrees (num_op f (mk_state (b :: a :: st) h)) (arith f a b, h) st.
Proof.
  unfold num_op, binary_double, arith. cbn [stack].
  destruct b, a; cbn [res_agrees]; try reflexivity;
    match goal with |- exists j, RThrow _ (mk_state (?x :: ?y :: _) _) = _ => junk [x; y] end.
Qed.
Lemma cmp_agrees f a b st h :
  res_agrees (cmp_op f (mk_state (b :: a :: st) h)) (compare f a b, h) st.
Proof.
  unfold cmp_op, binary_double, compare. cbn [stack].
  destruct b, a; cbn [res_agrees]; try reflexivity;
    match goal with |- exists j, RThrow _ (mk_state (?x :: ?y :: _) _) = _ => junk [x; y] end.
Qed.
Lemma rem_sgn i j : j <> 0 -> Z.rem i j = Z.sgn i * (Z.abs i mod Z.abs j).
Proof.
  intros Hj. destruct (Z.lt_trichotomy i 0) as [Hi|[->|Hi]].
  - rewrite (Z.sgn_neg i Hi). replace i with (- (- i)) at 1 by lia.
    rewrite Z.rem_opp_l by lia. rewrite <- (Z.rem_abs_r (- i) j) by lia.
    rewrite Z.rem_mod_nonneg by lia. rewrite (Z.abs_neq i) by lia. lia.
  - rewrite Z.rem_0_l by lia. reflexivity.
  - rewrite (Z.sgn_pos i Hi). rewrite <- (Z.rem_abs_r i j) by lia.
    rewrite Z.rem_mod_nonneg by lia. rewrite (Z.abs_eq i) by lia. lia.
Qed.
Lemma mod_agrees a b st h :
  res_agrees (binary_modulus (mk_state (b :: a :: st) h)) (modulus a b, h) st.
Proof.
  unfold binary_modulus, modulus. cbn [stack].
  destruct b as [g| | | | | | | |], a as [f| | | | | | | |]; cbn [res_agrees];
    try match goal with |- exists j, RThrow _ (mk_state (?x :: ?y :: _) _) = _ => junk [x; y] end.
  unfold f_to_i32. destruct (f_trunc f) as [i|]; [|reflexivity].
  destruct (f_trunc g) as [j|].
  2:{ destruct ((- 2 ^ 31 <=? i) && (i <? 2 ^ 31)); reflexivity. }
  destruct ((- 2 ^ 31 <=? i) && (i <? 2 ^ 31)) eqn:E1; cbn [negb andb]; [|reflexivity].
  destruct (- 2 ^ 31 <=? j); cbn [negb andb]; [|reflexivity].
  destruct (j <? 2 ^ 31); cbn [negb andb]; [|reflexivity].
  destruct (Z.eqb_spec j 0) as [->|Hj]; cbn [orb]; [reflexivity|].
  destruct ((i =? - 2 ^ 31) && (j =? -1)); [reflexivity|]. cbn [res_agrees].
  rewrite (rem_sgn i j Hj). reflexivity.
Qed.
Lemma bits_agrees f g a b st h : (forall i j, 0 <= i < 2 ^ 32 -> 0 <= j < 2 ^ 32 -> f i j = g i j) ->
  res_agrees (bitwise_binary f (mk_state (b :: a :: st) h)) (bits g a b, h) st.
Proof.
  intros FG. assert (R : forall x z, f_to_u32 x = Some z -> 0 <= z < 2 ^ 32).
  { intros x z Ez. unfold f_to_u32 in Ez. destruct (f_trunc x) as [y|]; [|discriminate].
    destruct (Z.leb_spec 0 y); [|discriminate]. destruct (Z.ltb_spec y (2 ^ 32)); [|discriminate].
    injection Ez as <-. lia. }
  unfold bitwise_binary, bits, pop_u32, with_stack. cbn [stack history].
  destruct b as [y| | | | | | | |]; cbn [res_agrees];
    try match goal with |- exists j, RThrow _ (mk_state (?x :: ?y :: _) _) = _ => junk [x; y] end.
  destruct (f_to_u32 y) as [j|] eqn:Ej; [|reflexivity].
  destruct a as [x| | | | | | | |]; cbn [res_agrees];
    try match goal with |- exists j, RThrow _ (mk_state (?x :: _) _) = _ => junk [x] end.
  destruct (f_to_u32 x) as [i|] eqn:Ei; [|reflexivity].
  rewrite (FG i j (R x i Ei) (R y j Ej)). destruct (g i j) as [z|]; reflexivity.
Qed.
Lemma bin_agrees op a b st h :
  agrees_from [VName (bin_name op)]
    match e_override E (bin_name op) with
    | Some f => invoke (f a b) (EvOverride (bin_name op) a b) h
    | None => (bin_sem op a b, h)
    end [b; a] st h.
Proof.
  destruct (e_override E (bin_name op)) as [f|] eqn:Eo.
  - apply agrees_of_res. eexists; exists 0%nat; split; [intros fuel _; unfold step|].
    + replace (is_operator (VName (bin_name op))) with (Some (bin_name op)) by (destruct op; reflexivity).
      rewrite Eo. cbn [stack app]. reflexivity.
    + apply invoke_agrees; [reflexivity|]. junk [b; a].
  - destruct op; (eapply agrees_prim; [reflexivity|exact Eo|reflexivity|]); cbn [app bin_sem].
    + apply num_agrees. + apply num_agrees. + apply num_agrees. + apply num_agrees.
    + apply mod_agrees.
    + apply cmp_agrees. + apply cmp_agrees. + apply cmp_agrees. + apply cmp_agrees.
    + reflexivity. + reflexivity.
    + apply bits_agrees. reflexivity.
    + apply bits_agrees. reflexivity.
    + apply bits_agrees. reflexivity.
    + apply bits_agrees. intros i j Hi Hj. unfold shift_left. destruct (j <? 32); [|reflexivity].
      rewrite Z.shiftl_mul_pow2 by lia. reflexivity.
    + apply bits_agrees. intros i j Hi Hj. unfold shift_right. destruct (j <? 32); [|reflexivity].
      rewrite Z.shiftr_div_pow2 by lia. reflexivity.
Qed.
Lemma index_agrees a i st h : agrees_from [VName ".index"] (index_sem E a i h) [i; a] st h.
Proof.
  eapply agrees_prim; [reflexivity|no_ov|reflexivity|]. unfold index_operator, index_sem. cbn [stack app].
  assert (G : res_agrees
    match cast_size E i with
    | SzUB => RUB
    | SzThrow => RThrow XType (mk_state (i :: a :: st) h)
    | SzOk n =>
      match e_numeric_index E with
      | Some f => call (f a n) (EvNumericIndex a n) (mk_state (i :: a :: st) h) (replace_top 2)
      | None => match a with
                | VArr l => match nth_error l (N.to_nat n) with
                            | Some v => replace_top 2 (inr v) (mk_state (i :: a :: st) h)
                            | None => RThrow XIndex (mk_state (i :: a :: st) h)
                            end
                | _ => RThrow XType (mk_state (i :: a :: st) h)
                end
      end
    end
    match element E i with
    | UndefElement => (Undef, h)
    | NoElement => (Exn XType, h)
    | Element n =>
      match e_numeric_index E with
      | Some f => invoke (f a n) (EvNumericIndex a n) h
      | None => (match a with
                 | VArr l => match nth_error l (N.to_nat n) with Some v => Val v | None => Exn XIndex end
                 | _ => Exn XType
                 end, h)
      end
    end st).
  { assert (C : cast_size E i = match element E i with
                                | Element n => SzOk n | NoElement => SzThrow | UndefElement => SzUB end).
    { unfold cast_size, element. destruct (e_size64 E), i; try reflexivity.
      unfold f_to_u32. destruct (f_trunc f) as [z|]; [|reflexivity].
      destruct ((0 <=? z) && (z <? 2 ^ 32)); reflexivity. }
    rewrite C. destruct (element E i) as [n| |]; [| junk [i; a] |reflexivity].
    destruct (e_numeric_index E) as [f|].
    - apply invoke_agrees; [reflexivity|]. junk [i; a].
    - destruct a as [| | | | |l| | |]; try (match goal with |- res_agrees (RThrow _ (mk_state (?x :: ?y :: _) _)) _ _ => junk [x; y] end).
      destruct (nth_error l (N.to_nat n)); [reflexivity|]. junk [i; VArr l]. }
  destruct i as [f|b|s|n|  |l|d|n|k]; try exact G. clear G.
  destruct (e_named_index E) as [f|].
  - apply invoke_agrees; [reflexivity|]. junk [VName n; a].
  - destruct a as [| | | | |l|d| |]; try (match goal with |- res_agrees (RThrow _ (mk_state (?x :: ?y :: _) _)) _ _ => junk [x; y] end).
    destruct (dfind n d); [reflexivity|]. junk [VName n; VDict d].
Qed.
Lemma variable_agrees n st h : agrees_from [VName ".variable"]
  match e_variable E with
  | Some f => invoke (f n) (EvVariable n) h
  | None => (Exn XNoVariableLookup, h)
  end [VName n] st h.
Proof.
  eapply agrees_prim; [reflexivity|no_ov|reflexivity|]. unfold variable_operator. cbn [stack app].
  destruct (e_variable E) as [f|].
  - unfold with_stack. cbn [history]. apply invoke_agrees; [reflexivity|]. junk (@nil value).
  - unfold with_stack. cbn [history]. junk (@nil value).
Qed.
Lemma function_agrees f args st h :
  agrees_from [VName ".function"] (call_sem E f args h) [VName f; VArr args] st h.
Proof.
  eapply agrees_prim; [reflexivity|no_ov|reflexivity|]. unfold function_operator, call_sem, with_stack.
  cbn [stack history app]. destruct (array_function E f args) as [r|].
  - apply pure_agrees; [reflexivity|]. junk [VArr args].
  - destruct (e_array_fn E) as [g|].
    + apply invoke_agrees; [reflexivity|]. junk [VArr args].
    + junk [VArr args].
Qed.
Lemma function_named_agrees f args st h :
  agrees_from [VName ".function"] (call_named_sem E f args h) [VName f; VDict args] st h.
Proof.
  eapply agrees_prim; [reflexivity|no_ov|reflexivity|]. unfold function_operator, call_named_sem, with_stack.
  cbn [stack history app]. destruct (dictionary_function f args) as [r|].
  - apply pure_agrees; [reflexivity|]. junk [VDict args].
  - destruct (e_dict_fn E) as [g|].
    + apply invoke_agrees; [reflexivity|]. junk [VDict args].
    + junk [VDict args].
Qed.

(** *** lists of operands *)
Definition agrees_list (p : list value) (r : outcomes * list event) (push_all : list value -> list value)
  (st : list value) (h : list event) : Prop :=
  match r with
  | (Vals vs, h') => runs E p (mk_state st h) (ROk (mk_state (push_all vs ++ st) h'))
  | (Fails (Val _), h') => False
  | (Fails (Exn x), h') => exists junk, runs E p (mk_state st h) (RThrow x (mk_state (junk ++ st) h'))
  | (Fails Undef, h') => runs E p (mk_state st h) RUB
  end.
Definition main (e : expr) : Prop := wf e -> forall st h, agrees (compile e) (eval E e h) st h.

Lemma list_agrees l : Forall main l -> wf_list l ->
  forall st h, agrees_list (items l) (eval_list l h) (@rev value) st h.
Proof.
  induction 1 as [|e l He Hl IH]; intros W st h; [apply runs_nil|].
  cbn [wf_list] in W. destruct W as [We Wl]. specialize (He We st h). cbn [items eval_list].
  destruct (eval E e h) as [[v|x|] h1]; cbn [agrees agrees_list] in *.
  - specialize (IH Wl (v :: st) h1). destruct (eval_list l h1) as [[vs|[w|x|]] h2]; cbn [agrees_list] in *.
    + cbn [rev]. rewrite <- app_assoc. eapply runs_app; [exact He|exact IH].
    + exact IH.
    + destruct IH as [junk IH]. exists (junk ++ [v]). rewrite <- app_assoc. eapply runs_app; [exact He|exact IH].
    + eapply runs_app; [exact He|exact IH].
  - destruct He as [junk He]. exists junk. apply runs_app_stop; [exact He|exact I].
  - apply runs_app_stop; [exact He|exact I].
Qed.
Lemma list_length l : forall h vs h', eval_list l h = (Vals vs, h') -> List.length vs = List.length l.
Proof.
  induction l as [|e l IH]; intros h vs h' H; cbn [eval_list] in H.
  - injection H as <- <-. reflexivity.
  - destruct (eval E e h) as [[v|x|] h1]; [|discriminate|discriminate].
    destruct (eval_list l h1) as [[ws|o] h2] eqn:El; [|discriminate].
    injection H as <- <-. cbn [List.length]. f_equal. exact (IH h1 ws h2 El).
Qed.
Fixpoint interleave (ks : list string) (vs : list value) : list value :=
  match ks, vs with k :: ks', v :: vs' => VName k :: v :: interleave ks' vs' | _, _ => [] end.
Lemma named_agrees l : Forall (fun e => main (snd e)) l -> wf_named l ->
  forall st h, agrees_list (named l) (eval_named l h) (fun vs => rev (interleave (map fst l) vs)) st h.
Proof.
  induction 1 as [|[k e] l He Hl IH]; intros W st h; [apply runs_nil|].
  cbn [wf_named] in W. destruct W as (Wk & We & Wl). cbn [snd] in He. specialize (He We (VName k :: st) h).
  cbn [named eval_named map fst].
  assert (P : runs E [VName k] (mk_state st h) (ROk (mk_state (VName k :: st) h))).
  { apply (runs_push (VName k) (mk_state st h)). apply plain_not_operator. exact Wk. }
  destruct (eval E e h) as [[v|x|] h1]; cbn [agrees agrees_list] in *.
  - specialize (IH Wl (v :: VName k :: st) h1).
    destruct (eval_named l h1) as [[vs|[w|x|]] h2]; cbn [agrees_list] in *.
    + cbn [interleave rev]. rewrite <- !app_assoc. cbn [app].
      eapply runs_cons; [exact P|]. eapply runs_app; [exact He|exact IH].
    + exact IH.
    + destruct IH as [junk IH]. exists (junk ++ [v; VName k]). rewrite <- app_assoc.
      eapply runs_cons; [exact P|]. eapply runs_app; [exact He|exact IH].
    + eapply runs_cons; [exact P|]. eapply runs_app; [exact He|exact IH].
  - destruct He as [junk He]. exists (junk ++ [VName k]). rewrite <- app_assoc.
    eapply runs_cons; [exact P|]. apply runs_app_stop; [exact He|exact I].
  - eapply runs_cons; [exact P|]. apply runs_app_stop; [exact He|exact I].
Qed.
Lemma named_length l : forall h vs h', eval_named l h = (Vals vs, h') -> List.length vs = List.length l.
Proof.
  induction l as [|[k e] l IH]; intros h vs h' H; cbn [eval_named] in H.
  - injection H as <- <-. reflexivity.
  - destruct (eval E e h) as [[v|x|] h1]; [|discriminate|discriminate].
    destruct (eval_named l h1) as [[ws|o] h2] eqn:El; [|discriminate].
    injection H as <- <-. cbn [List.length]. f_equal. exact (IH h1 ws h2 El).
Qed.

Lemma firstn_rev_app (l st : list value) : firstn (List.length l) (rev l ++ st) = rev l.
Proof. rewrite <- (rev_length l). rewrite firstn_app, Nat.sub_diag, firstn_all. cbn. apply app_nil_r. Qed.
Lemma skipn_rev_app (l st : list value) : skipn (List.length l) (rev l ++ st) = st.
Proof. rewrite <- (rev_length l). rewrite skipn_app, Nat.sub_diag, skipn_all. reflexivity. Qed.
Lemma short_range n : Z.of_nat n < 2 ^ 31 -> f_to_u32 (f_of_Z (Z.of_nat n)) = Some (Z.of_nat n).
Proof. intros H. apply f_to_u32_of_Z. lia. Qed.

Lemma array_runs vs st h : Z.of_nat (List.length vs) < 2 ^ 31 ->
  runs E [VName ".array"] (mk_state (count (List.length vs) :: rev vs ++ st) h) (ROk (mk_state (VArr vs :: st) h)).
Proof.
  intros Hs. eapply runs_op; [reflexivity|no_ov|discriminate|]. exists 0%nat. intros fuel _.
  cbn [find_operator String.eqb Ascii.eqb Bool.eqb]. unfold array_operator, pop_u32, count, with_stack.
  cbn [stack history]. rewrite (short_range _ Hs), Nat2Z.id.
  destruct (Nat.ltb_spec (List.length (rev vs ++ st)) (List.length vs)) as [L|_].
  { rewrite app_length, rev_length in L. lia. }
  rewrite firstn_rev_app, skipn_rev_app, rev_involutive. reflexivity.
Qed.
Lemma build_interleave ks : forall vs d, List.length vs = List.length ks ->
  build_dictionary (interleave ks vs) d =
  Some (inr (fold_left (fun d kv => dinsert (fst kv) (snd kv) d) (combine ks vs) d)).
Proof.
  induction ks as [|k ks IH]; intros [|v vs] d H; cbn in H; try discriminate; [reflexivity|].
  cbn [interleave build_dictionary combine fold_left fst snd]. apply IH. lia.
Qed.
Lemma interleave_length ks : forall vs, List.length vs = List.length ks ->
  List.length (interleave ks vs) = (2 * List.length ks)%nat.
Proof.
  induction ks as [|k ks IH]; intros [|v vs] H; cbn in H; try discriminate; [reflexivity|].
  cbn [interleave List.length]. rewrite IH by lia. lia.
Qed.
Lemma dict_runs (l : list (string * expr)) vs st h : short l -> List.length vs = List.length l ->
  runs E [VName ".dictionary"] (mk_state (count (List.length l) :: rev (interleave (map fst l) vs) ++ st) h)
    (ROk (mk_state (VDict (dict_of l vs) :: st) h)).
Proof.
  intros Hs Hl. eapply runs_op; [reflexivity|no_ov|discriminate|]. exists 0%nat. intros fuel _.
  cbn [find_operator String.eqb Ascii.eqb Bool.eqb]. unfold dictionary_operator, pop_u32, count, with_stack.
  cbn [stack history]. rewrite (short_range _ Hs).
  assert (L : List.length (interleave (map fst l) vs) = (2 * List.length l)%nat).
  { rewrite interleave_length; rewrite map_length; [reflexivity|exact Hl]. }
  assert (N : Z.to_nat ((Z.of_nat (List.length l) * 2) mod 2 ^ 32) = List.length (interleave (map fst l) vs)).
  { unfold short in Hs. rewrite Z.mod_small by lia. lia. }
  rewrite N. destruct (Nat.ltb_spec (List.length (rev (interleave (map fst l) vs) ++ st)) (List.length (interleave (map fst l) vs))) as [L'|_].
  { rewrite app_length, rev_length in L'. lia. }
  rewrite firstn_rev_app, skipn_rev_app, rev_involutive.
  rewrite build_interleave by (rewrite map_length; exact Hl). reflexivity.
Qed.

Lemma c_array_agrees l : Forall main l -> wf_list l -> short l -> forall st h,
  agrees (c_array l) match eval_list l h with (Vals vs, h') => (Val (VArr vs), h') | (Fails o, h') => (o, h') end st h.
Proof.
  intros Hm W Hs st h. pose proof (list_agrees l Hm W st h) as A. pose proof (list_length l h) as L.
  assert (Ec : c_array l = [VArr []] /\ l = [] \/ c_array l = items l ++ [count (List.length l); VName ".array"]).
  { destruct l; [left; split; reflexivity|right; reflexivity]. }
  destruct Ec as [[-> ->]| -> ].
  - cbn [eval_list agrees]. apply (runs_push (VArr []) (mk_state st h)). reflexivity.
  - destruct (eval_list l h) as [[vs|[w|x|]] h1]; cbn [agrees agrees_list] in *.
    + specialize (L vs h1 eq_refl). eapply runs_app; [exact A|].
      eapply runs_cons; [apply runs_push; reflexivity|]. unfold push. cbn [stack history].
      rewrite <- L. apply array_runs. rewrite L. exact Hs.
    + contradiction.
    + destruct A as [junk A]. exists junk. apply runs_app_stop; [exact A|exact I].
    + apply runs_app_stop; [exact A|exact I].
Qed.
Lemma c_dict_agrees l : Forall (fun e => main (snd e)) l -> wf_named l -> short l -> forall st h,
  agrees (c_dict l) match eval_named l h with (Vals vs, h') => (Val (VDict (dict_of l vs)), h') | (Fails o, h') => (o, h') end st h.
Proof.
  intros Hm W Hs st h. pose proof (named_agrees l Hm W st h) as A. pose proof (named_length l h) as L.
  assert (Ec : c_dict l = [VDict []] /\ l = [] \/ c_dict l = named l ++ [count (List.length l); VName ".dictionary"]).
  { destruct l; [left; split; reflexivity|right; reflexivity]. }
  destruct Ec as [[-> ->]| -> ].
  - cbn [eval_named agrees]. apply (runs_push (VDict []) (mk_state st h)). reflexivity.
  - destruct (eval_named l h) as [[vs|[w|x|]] h1]; cbn [agrees agrees_list] in *.
    + specialize (L vs h1 eq_refl). eapply runs_app; [exact A|].
      eapply runs_cons; [apply runs_push; reflexivity|]. unfold push. cbn [stack history].
      apply dict_runs; assumption.
    + contradiction.
    + destruct A as [junk A]. exists junk. apply runs_app_stop; [exact A|exact I].
    + apply runs_app_stop; [exact A|exact I].
Qed.

(** *** operators that evaluate a nested array *)
Lemma push_any v q r top st h : is_operator v = None ->
  agrees_from q r (v :: top) st h -> agrees_from (v :: q) r top st h.
Proof.
  intros Hv K. assert (P : runs E [v] (mk_state (top ++ st) h) (ROk (mk_state (v :: top ++ st) h))).
  { apply (runs_push v (mk_state (top ++ st) h)). exact Hv. }
  unfold agrees_from in *. destruct r as [[w|x|] h''].
  - eapply runs_cons; [exact P|exact K].
  - destruct K as [junk K]. exists junk. eapply runs_cons; [exact P|exact K].
  - eapply runs_cons; [exact P|exact K].
Qed.
(** the result of running [p], known for enough fuel *)
Lemma agrees_fuel p r st h : agrees p r st h ->
  exists rs n, (forall fuel, (n <= fuel)%nat -> evaluate E fuel p (mk_state st h) = rs) /\ res_agrees rs r st.
Proof.
  unfold agrees, res_agrees. destruct r as [[v|x|] h'].
  - intros [_ [n H]]. eexists; exists n; split; [exact H|reflexivity].
  - intros [junk [_ [n H]]]. eexists; exists n; split; [exact H|]. exists junk. reflexivity.
  - intros [_ [n H]]. eexists; exists n; split; [exact H|reflexivity].
Qed.
Definition boolean (w : value) (h : list event) : result :=
  match w with VBool _ => (Val w, h) | _ => (Exn XType, h) end.
Lemma logical_agrees op (do_and : bool) p v r st h :
  op = (if do_and then ".and" else ".or")%string -> agrees p r st h ->
  agrees_from [VName op]
    match v with
    | VBool b => if Bool.eqb b do_and then bind r boolean else (Val (VBool b), h)
    | _ => (Exn XType, h)
    end [VArr p; v] st h.
Proof.
  intros Ho A. destruct (agrees_fuel p r st h A) as (rs & n & Hn & R).
  assert (Hov : e_override E op = None) by (destruct do_and; subst op; no_ov).
  assert (Hrest : exists rest, op = String "."%char rest) by (destruct do_and; subst op; eexists; reflexivity).
  assert (Hf : forall rec, find_operator E rec op = Some (logical_operator rec do_and))
    by (intros rec; destruct do_and; subst op; reflexivity).
  destruct Hrest as [rest Hrest]. apply agrees_of_res.
  destruct v as [f|b|s|k|  |l|d|k|k];
    try (exists (RThrow XType (mk_state ([VArr p; v] ++ st) h)), 0%nat; fail).
  2:{ destruct (Bool.eqb b do_and) eqn:Eb.
      - exists (match rs with
                | ROk s' => match stack s' with VBool _ :: _ => ROk s' | _ :: _ => RThrow XType s' | [] => RUB end
                | r => r end), n. split.
        + intros fuel L. rewrite (step_op op rest _ _ Hrest Hov), Hf. unfold logical_operator, pop_array, with_stack.
          cbn [stack history app]. rewrite Eb, (Hn fuel L). destruct rs; reflexivity.
        + unfold res_agrees in R. destruct r as [[w|x|] h']; cbn [bind res_agrees].
          * subst rs. cbn [stack]. unfold boolean. destruct w; cbn [res_agrees]; try reflexivity;
              match goal with |- exists j, RThrow _ (mk_state (?x :: _) _) = _ => junk [x] end.
          * destruct R as [jk ->]. junk jk.
          * subst rs. reflexivity.
      - eexists; exists 0%nat. split.
        + intros fuel L. rewrite (step_op op rest _ _ Hrest Hov), Hf. unfold logical_operator, pop_array, with_stack.
          cbn [stack history app]. rewrite Eb. reflexivity.
        + reflexivity. }
  all: eexists; exists 0%nat; (split; [intros fuel L; rewrite (step_op op rest _ _ Hrest Hov), Hf; unfold logical_operator, pop_array, with_stack; cbn [stack history app]; reflexivity|]);
    match goal with |- res_agrees (RThrow _ (mk_state (?x :: _) _)) _ _ => junk [x] end.
Qed.
Lemma ifelse_agrees pa pb v ra rb st h : agrees pa ra st h -> agrees pb rb st h ->
  agrees_from [VName ".ifelse"]
    match v with VBool true => ra | VBool false => rb | _ => (Exn XType, h) end [VArr pb; VArr pa; v] st h.
Proof.
  intros A B. destruct (agrees_fuel pa ra st h A) as (rsa & na & Ha & Ra).
  destruct (agrees_fuel pb rb st h B) as (rsb & nb & Hb & Rb).
  apply agrees_of_res.
  assert (S : forall fuel, step E (evaluate E fuel) (VName ".ifelse") (mk_state ([VArr pb; VArr pa; v] ++ st) h) =
    match v with
    | VBool b => evaluate E fuel (if b then pa else pb) (mk_state st h)
    | _ => RThrow XType (mk_state (v :: st) h)
    end).
  { intros fuel. erewrite step_op; [|reflexivity|no_ov]. cbn [find_operator String.eqb Ascii.eqb Bool.eqb].
    unfold ifelse_operator, pop_array, pop_bool, with_stack. cbn [stack history app]. destruct v; reflexivity. }
  destruct v as [f|[|]|s|k|  |l|d|k|k].
  2:{ exists rsa, na. split; [intros fuel L; rewrite S; apply Ha; exact L|exact Ra]. }
  2:{ exists rsb, nb. split; [intros fuel L; rewrite S; apply Hb; exact L|exact Rb]. }
  all: eexists; exists 0%nat; (split; [intros fuel L; rewrite S; reflexivity|]);
    match goal with |- res_agrees (RThrow _ (mk_state (?x :: _) _)) _ _ => junk [x] end.
Qed.

Theorem compile_correct e : main e.
Proof.
  induction e as [v|l IH|l IH|n|f l IH|f l IH|op a IHa|op a b IHa IHb|a b IHa IHb|a b IHa IHb|c a b IHc IHa IHb|a i IHa IHi|a n IHa] using expr_ind';
    unfold main in *; intros W st h.
  - cbn [compile eval agrees]. apply (runs_push v (mk_state st h)). apply plain_not_operator. exact W.
  - rewrite wf_array in W. rewrite compile_array, eval_array. apply c_array_agrees; tauto.
  - rewrite wf_dict in W. rewrite compile_dict, eval_dict. apply c_dict_agrees; tauto.
  - cbn [compile eval]. change (agrees_from ([VName n; VName ".variable"]) (eval E (EVar n) h) [] st h).
    apply agrees_push; [exact W|]. apply variable_agrees.
  - rewrite wf_call in W. destruct W as (Wf & Wl & Ws). rewrite compile_call, eval_call.
    pose proof (c_array_agrees l IH Wl Ws st h) as A.
    assert (EQ : match eval_list l h with (Vals vs, h') => call_sem E f vs h' | (Fails o, h') => (o, h') end =
      bind match eval_list l h with (Vals vs, h') => (Val (VArr vs), h') | (Fails o, h') => (o, h') end
       (fun v h => match v with VArr vs => call_sem E f vs h | _ => (Exn XType, h) end)).
    { pose proof (list_agrees l IH Wl st h) as A'. destruct (eval_list l h) as [[vs|[w|x|]] h1]; try reflexivity. contradiction. }
    rewrite EQ. apply (agrees_bind (c_array l) [VName f; VName ".function"] _ [] st h _ A).
    intros v h' Hv. pose proof (list_agrees l IH Wl st h) as A'.
    destruct (eval_list l h) as [[vs|[w|x|]] h1]; try discriminate; [|contradiction].
    injection Hv as <- <-. apply agrees_push; [exact Wf|]. apply function_agrees.
  - rewrite wf_calln in W. destruct W as (Wf & Wl & Ws). rewrite compile_calln, eval_calln.
    pose proof (c_dict_agrees l IH Wl Ws st h) as A.
    assert (EQ : match eval_named l h with (Vals vs, h') => call_named_sem E f (dict_of l vs) h' | (Fails o, h') => (o, h') end =
      bind match eval_named l h with (Vals vs, h') => (Val (VDict (dict_of l vs)), h') | (Fails o, h') => (o, h') end
       (fun v h => match v with VDict vs => call_named_sem E f vs h | _ => (Exn XType, h) end)).
    { pose proof (named_agrees l IH Wl st h) as A'. destruct (eval_named l h) as [[vs|[w|x|]] h1]; try reflexivity. contradiction. }
    rewrite EQ. apply (agrees_bind (c_dict l) [VName f; VName ".function"] _ [] st h _ A).
    intros v h' Hv. pose proof (named_agrees l IH Wl st h) as A'.
    destruct (eval_named l h) as [[vs|[w|x|]] h1]; try discriminate; [|contradiction].
    injection Hv as <- <-. apply agrees_push; [exact Wf|]. apply function_named_agrees.
  - cbn [wf] in W. specialize (IHa W st h). cbn [compile eval].
    destruct (un_name op) as [n|] eqn:Eu.
    + apply (agrees_bind (compile a) [VName n] _ [] st h _ IHa). intros v h' _. apply un_agrees. exact Eu.
    + destruct op; try discriminate. rewrite app_nil_r.
      replace (bind (eval E a h) (fun v h0 => (un_sem UPlus v, h0))) with (eval E a h); [exact IHa|].
      destruct (eval E a h) as [[v|x|] h1]; reflexivity.
  - cbn [wf] in W. destruct W as [Wa Wb]. cbn [compile eval].
    apply (agrees_bind (compile a) (compile b ++ [VName (bin_name op)]) _ [] st h _ (IHa Wa st h)). intros v h' _.
    apply (agrees_bind (compile b) [VName (bin_name op)] _ [v] st h' _ (IHb Wb (v :: st) h')). intros w h'' _.
    apply bin_agrees.
  - cbn [wf] in W. destruct W as [Wa Wb]. cbn [compile eval].
    apply (agrees_bind (compile a) [VArr (compile b); VName ".and"] _ [] st h _ (IHa Wa st h)). intros v h' _.
    apply push_any; [reflexivity|].
    pose proof (logical_agrees ".and" true (compile b) v _ st h' eq_refl (IHb Wb st h')) as L.
    destruct v as [f|[|]|s|k|  |l|d|k|k]; exact L.
  - cbn [wf] in W. destruct W as [Wa Wb]. cbn [compile eval].
    apply (agrees_bind (compile a) [VArr (compile b); VName ".or"] _ [] st h _ (IHa Wa st h)). intros v h' _.
    apply push_any; [reflexivity|].
    pose proof (logical_agrees ".or" false (compile b) v _ st h' eq_refl (IHb Wb st h')) as L.
    destruct v as [f|[|]|s|k|  |l|d|k|k]; exact L.
  - cbn [wf] in W. destruct W as (Wc & Wa & Wb). cbn [compile eval].
    apply (agrees_bind (compile c) [VArr (compile a); VArr (compile b); VName ".ifelse"] _ [] st h _ (IHc Wc st h)).
    intros v h' _. apply push_any; [reflexivity|]. apply push_any; [reflexivity|].
    apply ifelse_agrees; [exact (IHa Wa st h')|exact (IHb Wb st h')].
  - cbn [wf] in W. destruct W as [Wa Wi]. cbn [compile eval].
    apply (agrees_bind (compile a) (compile i ++ [VName ".index"]) _ [] st h _ (IHa Wa st h)). intros v h' _.
    apply (agrees_bind (compile i) [VName ".index"] _ [v] st h' _ (IHi Wi (v :: st) h')). intros w h'' _.
    apply index_agrees.
  - cbn [wf] in W. destruct W as [Wa Wn]. cbn [compile eval].
    apply (agrees_bind (compile a) [VName n; VName ".index"] _ [] st h _ (IHa Wa st h)). intros v h' _.
    apply agrees_push; [exact Wn|]. apply index_agrees.
Qed.
End Proofs.
