(** Generated zuids: how long they stay distinct. *)
From Verif Require Import Prelude Bits Zuid_Model Zuid_Spec.
Local Open Scope N_scope.
Ltac Zify.zify_post_hook ::= idtac.

Lemma ones32 : 0xFFFFFFFF = N.ones 32. Proof. reflexivity. Qed.

(** The fields of a version 1 identifier in arithmetic form. *)
Lemma v1_fields cs ts nd : format_uuid_v1 cs ts nd =
  Uuid (ts mod 2 ^ 32) (ts / 2 ^ 32 mod 2 ^ 16) (4096 + ts / 2 ^ 48 mod 2 ^ 12)
       (128 + cs / 2 ^ 8 mod 2 ^ 6 :: cs mod 2 ^ 8 :: firstn 6 nd).
Proof.
  unfold format_uuid_v1.
  change 0xFFFFFFFF with (N.ones 32). change 0xFFFF with (N.ones 16). change 0x0FFF with (N.ones 12).
  change 0xFF with (N.ones 8). rewrite !N.land_ones, !N.shiftr_div_pow2.
  assert (E : N.land cs 0x3F00 / 2 ^ 8 = cs / 2 ^ 8 mod 2 ^ 6).
  { rewrite <- !N.shiftr_div_pow2, <- N.land_ones. apply N.bits_inj. intros n.
    rewrite N.land_spec, !N.shiftr_spec', N.land_spec. f_equal.
    change 0x3F00 with (N.shiftl (N.ones 6) 8). rewrite N.shiftl_spec_high' by lia. f_equal. lia. }
  rewrite E. rewrite N.lor_comm, lor_shiftl by (apply N.mod_lt; discriminate).
  rewrite (N.lor_comm _ 128). change 128 with (N.shiftl 2 6) at 1.
  rewrite lor_shiftl by (apply N.mod_lt; discriminate). reflexivity.
Qed.

Lemma digits3 x : x < 2 ^ 60 -> x = x mod 2 ^ 32 + 2 ^ 32 * (x / 2 ^ 32 mod 2 ^ 16) + 2 ^ 48 * (x / 2 ^ 48 mod 2 ^ 12).
Proof.
  intros H. rewrite (N.mod_small (x / 2 ^ 48)) by (apply N.div_lt_upper_bound; [discriminate|exact H]).
  replace (x / 2 ^ 48) with (x / 2 ^ 32 / 2 ^ 16) by (rewrite N.div_div by discriminate; reflexivity).
  pose proof (N.div_mod x (2 ^ 32) ltac:(discriminate)). pose proof (N.div_mod (x / 2 ^ 32) (2 ^ 16) ltac:(discriminate)).
  change (2 ^ 48) with (2 ^ 32 * 2 ^ 16).
  revert H0 H1. generalize (x mod 2 ^ 32) (x / 2 ^ 32 mod 2 ^ 16) (x / 2 ^ 32 / 2 ^ 16) (x / 2 ^ 32). intros a b c d E1 E2.
  rewrite E1, E2. lia.
Qed.

Lemma v1_inj cs ts nd cs' ts' nd' : ts < 2 ^ 60 -> ts' < 2 ^ 60 ->
  format_uuid_v1 cs ts nd = format_uuid_v1 cs' ts' nd' ->
  ts = ts' /\ cs mod 2 ^ 14 = cs' mod 2 ^ 14 /\ firstn 6 nd = firstn 6 nd'.
Proof.
  intros H H' E. rewrite !v1_fields in E.
  assert (E1 := f_equal d1 E). assert (E2 := f_equal d2 E). assert (E3 := f_equal d3 E).
  assert (E4 := f_equal (fun u => nth 0 (d4 u) 0) E). assert (E5 := f_equal (fun u => nth 1 (d4 u) 0) E).
  assert (E6 := f_equal (fun u => tl (tl (d4 u))) E).
  cbn [d1 d2 d3 d4 nth tl] in *. clear E. split; [|split; [|exact E6]].
  - rewrite (digits3 ts H), (digits3 ts' H'), E1, E2.
    assert (ts / 2 ^ 48 mod 2 ^ 12 = ts' / 2 ^ 48 mod 2 ^ 12) as -> by lia. reflexivity.
  - change (2 ^ 14) with (2 ^ 8 * 2 ^ 6).
    rewrite !N.mod_mul_r by discriminate. rewrite E5. assert (cs / 2 ^ 8 mod 2 ^ 6 = cs' / 2 ^ 8 mod 2 ^ 6) as -> by lia.
    reflexivity.
Qed.

(* ---- the clock ---------------------------------------------------------------------------- *)
Definition clock_ok (w : world) : Prop := now w < 2 ^ 60 - 2 ^ 16.

Lemma small_sum T k : T < 2 ^ 60 - 2 ^ 16 -> k < 2 ^ 16 -> (T + k) mod 2 ^ 64 = T + k /\ T + k < 2 ^ 60.
Proof. intros H1 H2. change (2 ^ 60) with 1152921504606846976 in *. change (2 ^ 16) with 65536 in *.
  split; [apply N.mod_small; change (2 ^ 64) with 18446744073709551616|]; lia. Qed.

(** One reading of the clock: either time moves on, or the tick count has wrapped. *)
Lemma get_current_time_step T k nw : T < 2 ^ 60 - 2 ^ 16 -> k < 2 ^ 16 -> nw < 2 ^ 60 - 2 ^ 16 ->
  exists T' k', get_current_time (Statics true T k) nw = (T' + k', Statics true T' k') /\
    T' < 2 ^ 60 - 2 ^ 16 /\ k' < 2 ^ 16 /\
    ((T <= T' /\ T + k < T' + k' /\ k' <= k + 1) \/ (T' = T /\ k = 65535 /\ k' = 0)).
Proof.
  intros HT Hk Hn. unfold get_current_time. cbn [inited time_last this_tick].
  destruct (small_sum T k HT Hk) as [S1 S2].
  destruct (N.ltb_spec k UUIDS_PER_TICK) as [L|L]; cbn [time_last this_tick].
  - unfold UUIDS_PER_TICK in L. exists T, (k + 1). change (2 ^ 16) with 65536 in *.
    destruct (small_sum T (k + 1) HT) as [S3 _]; [change (2 ^ 16) with 65536; lia|]. rewrite S3.
    split; [reflexivity|]. lia.
  - rewrite S1. destruct (N.ltb_spec (T + k) nw) as [M|M]; cbn [time_last this_tick].
    + exists nw, 0. destruct (small_sum nw 0 Hn) as [S3 _]; [reflexivity|]. rewrite S3.
      split; [reflexivity|]. split; [exact Hn|]. split; [reflexivity|]. left. lia.
    + destruct (N.eq_dec k 65535) as [->|Nk].
      * exists T, 0. change ((65535 + 1) mod 2 ^ 16) with 0. destruct (small_sum T 0 HT) as [S3 _]; [reflexivity|]. rewrite S3.
        split; [reflexivity|]. split; [exact HT|]. split; [reflexivity|]. right. auto.
      * assert (K : k + 1 < 2 ^ 16) by (change (2 ^ 16) with 65536 in *; lia).
        rewrite (N.mod_small (k + 1)) by exact K.
        exists T, (k + 1). destruct (small_sum T (k + 1) HT K) as [S3 _]. rewrite S3.
        split; [reflexivity|]. split; [exact HT|]. split; [exact K|]. left. lia.
Qed.

(* ---- one thread ---------------------------------------------------------------------------- *)
Definition inv (g : statics) (l : local) (T k cs : N) (nd : list N) : Prop :=
  g = Statics true T k /\ T < 2 ^ 60 - 2 ^ 16 /\ k < 2 ^ 16 /\ cs < 2 ^ 16 /\
  l = Local (Some nd) (Some (cs, T + k, nd)).

Lemma node_eqb_refl n : node_eqb n n = true.
Proof. unfold node_eqb. destruct (list_eq_dec N.eq_dec n n); auto. Qed.

Lemma create_step g l T k cs nd w : inv g l T k cs nd -> clock_ok w ->
  exists T' k' cs' d g' l', uuid_create g l w = (format_uuid_v1 cs' (T' + k') nd, g', l') /\ inv g' l' T' k' cs' nd /\
    T <= T' /\ cs' = (cs + d) mod 2 ^ 16 /\ 65536 * d + k' <= k + 1 /\ (d = 0 -> T + k < T' + k').
Proof.
  intros (-> & HT & Hk & Hc & ->) Hw. unfold uuid_create.
  destruct (get_current_time_step T k (now w) HT Hk Hw) as (T' & k' & -> & HT' & Hk' & HS).
  cbn [get_node my_node saved]. rewrite node_eqb_refl. cbn [negb].
  destruct HS as [(A & B & C)|(-> & -> & ->)].
  - replace (T' + k' <? T + k) with false by lia.
    exists T', k', cs, 0, (Statics true T' k'), (Local (Some nd) (Some (cs, T' + k', nd))).
    split; [reflexivity|]. split; [split; auto|]. rewrite N.add_0_r, N.mod_small by exact Hc.
    split; [exact A|]. split; [reflexivity|]. split; [lia|]. auto.
  - replace (T + 0 <? T + 65535) with true by lia.
    exists T, 0, ((cs + 1) mod 2 ^ 16), 1, (Statics true T 0), (Local (Some nd) (Some ((cs + 1) mod 2 ^ 16, T + 0, nd))).
    split; [reflexivity|]. split; [split; auto; split; [auto|]; split; [reflexivity|]; split; [apply N.mod_lt; discriminate|reflexivity]|].
    split; [lia|]. split; [reflexivity|]. split; [lia|]. discriminate.
Qed.

Lemma generate_cons g ls t w rest u g' l' : uuid_create g (ls t) w = (u, g', l') ->
  generate g ls ((t, w) :: rest) = u :: generate g' (fun t' => if Nat.eqb t' t then l' else ls t') rest.
Proof. intros E. cbn [generate]. now rewrite E. Qed.

Definition one_thread (t : nat) (calls : list (nat * world)) : Prop :=
  Forall (fun c => fst c = t /\ clock_ok (snd c)) calls.

Lemma run_thread t calls : forall g ls T k cs nd n u, one_thread t calls -> inv g (ls t) T k cs nd ->
  nth_error (generate g ls calls) n = Some u ->
  exists T' k' cs' d g' ls', u = format_uuid_v1 cs' (T' + k') nd /\ inv g' (ls' t) T' k' cs' nd /\
    skipn (S n) (generate g ls calls) = generate g' ls' (skipn (S n) calls) /\
    T <= T' /\ cs' = (cs + d) mod 2 ^ 16 /\ 65536 * d + k' <= k + N.of_nat (S n) /\ (d = 0 -> T + k < T' + k').
Proof.
  induction calls as [|[t' w] calls IH]; intros g ls T k cs nd n u HO HI HN.
  { destruct n; discriminate. }
  apply Forall_cons_iff in HO as [[Ht Hw] HO']. cbn [fst snd] in Ht, Hw. subst t'.
  destruct (create_step _ _ _ _ _ _ w HI Hw) as (T1 & k1 & cs1 & dd & g1 & l1 & E1 & I1 & A1 & A2 & A3 & A4).
  rewrite (generate_cons _ _ _ _ calls _ _ _ E1) in *. set (ls1 := fun t' => if Nat.eqb t' t then l1 else ls t') in *.
  assert (I1' : inv g1 (ls1 t) T1 k1 cs1 nd) by (unfold ls1; now rewrite Nat.eqb_refl).
  destruct n as [|n].
  - cbn [nth_error] in HN. injection HN as <-.
    exists T1, k1, cs1, dd, g1, ls1. split; [reflexivity|]. split; [exact I1'|]. split; [reflexivity|].
    split; [exact A1|]. split; [exact A2|]. split; [lia|]. exact A4.
  - cbn [nth_error] in HN. destruct (IH _ _ _ _ _ _ _ _ HO' I1' HN) as (T2 & k2 & cs2 & d2' & g2 & ls2 & B1 & B2 & B3 & B4 & B5 & B6 & B7).
    exists T2, k2, cs2, (dd + d2'), g2, ls2. split; [exact B1|]. split; [exact B2|]. split; [exact B3|].
    split; [lia|]. split.
    { rewrite B5, A2, N.add_mod_idemp_l by discriminate. f_equal. lia. }
    split; [lia|]. intros Z. assert (Z1 : dd = 0) by lia. assert (Z2 : d2' = 0) by lia.
    specialize (A4 Z1). specialize (B7 Z2). lia.
Qed.

Lemma start_thread (t : nat) w (ls : nat -> local) : clock_ok w -> ls t = fresh ->
  exists cs g' l', uuid_create program_start (ls t) w = (format_uuid_v1 cs (now w + 1) (random_node w), g', l') /\
    inv g' l' (now w) 1 cs (random_node w).
Proof.
  intros Hw ->. unfold uuid_create, get_current_time, program_start. cbn [inited time_last this_tick].
  change (0 <? UUIDS_PER_TICK) with true. cbv iota. cbn [time_last this_tick]. change (0 + 1) with 1.
  destruct (small_sum (now w) 1 Hw) as [S1 _]; [reflexivity|]. rewrite S1.
  cbn [get_node my_node saved fresh].
  eexists _, _, _. split; [reflexivity|]. split; [reflexivity|]. split; [exact Hw|]. split; [reflexivity|].
  split; [apply N.mod_lt; discriminate|]. reflexivity.
Qed.

(** The pair (i, j) of one thread's zuids. *)
Lemma one_thread_distinct t calls i j u v : one_thread t calls -> (i < j)%nat ->
  N.of_nat j < N.of_nat i + (2 ^ 30 - 2 ^ 16) ->
  nth_error (zuids calls) i = Some u -> nth_error (zuids calls) j = Some v -> u <> v.
Proof.
  intros HO Hij Hd Hi Hj.
  (* the state just after the i-th call *)
  assert (HST : exists T k cs nd g ls, u = format_uuid_v1 cs (T + k) nd /\ inv g (ls t) T k cs nd /\
     skipn (S i) (zuids calls) = generate g ls (skipn (S i) calls)).
  { unfold zuids in *. destruct calls as [|[t0 w] calls]; [destruct i; discriminate|].
    apply Forall_cons_iff in HO as [[Ht Hw] HO']. cbn [fst snd] in Ht, Hw. subst t0.
    destruct (start_thread t w (fun _ => fresh) Hw eq_refl) as (cs & g1 & l1 & E1 & I1).
    rewrite (generate_cons _ _ _ _ calls _ _ _ E1) in *.
    set (ls1 := fun t' => if Nat.eqb t' t then l1 else fresh) in *.
    assert (I1' : inv g1 (ls1 t) (now w) 1 cs (random_node w)) by (unfold ls1; now rewrite Nat.eqb_refl).
    destruct i as [|i].
    - cbn [nth_error] in Hi. injection Hi as <-. exists (now w), 1, cs, (random_node w), g1, ls1.
      split; [reflexivity|]. split; [exact I1'|]. reflexivity.
    - cbn [nth_error] in Hi. destruct (run_thread _ _ _ _ _ _ _ _ _ _ HO' I1' Hi) as (T2 & k2 & cs2 & d2' & g2 & ls2 & B1 & B2 & B3 & _).
      exists T2, k2, cs2, (random_node w), g2, ls2. auto. }
  destruct HST as (T & k & cs & nd & g & ls & -> & HI & HS).
  assert (Hj' : nth_error (generate g ls (skipn (S i) calls)) (j - S i) = Some v).
  { rewrite <- HS. rewrite <- Hj. rewrite <- (firstn_skipn (S i) (zuids calls)) at 2.
    assert (L : (i < length (zuids calls))%nat) by (apply nth_error_Some; congruence).
    rewrite nth_error_app2 by (rewrite firstn_length; lia). f_equal. rewrite firstn_length. lia. }
  assert (HO' : one_thread t (skipn (S i) calls)).
  { unfold one_thread in *. rewrite <- (firstn_skipn (S i) calls) in HO. apply Forall_app in HO as [_ HO]. exact HO. }
  destruct (run_thread _ _ _ _ _ _ _ _ _ _ HO' HI Hj') as (T' & k' & cs' & d & g' & ls' & -> & HI' & _ & B4 & B5 & B6 & B7).
  destruct HI as (_ & HT & Hk & Hc & _), HI' as (_ & HT' & Hk' & Hc' & _).
  intros E. apply v1_inj in E as (Ets & Ecs & _); [| apply (small_sum _ _ HT Hk)|apply (small_sum _ _ HT' Hk')].
  destruct (N.eq_dec d 0) as [->|Nd]; [specialize (B7 eq_refl); lia|].
  (* the clock sequences agree modulo 2^14 although d wraps happened *)
  assert (D : 16384 <= d).
  { rewrite B5 in Ecs. change (2 ^ 16) with (2 ^ 14 * 4) in Ecs. rewrite N.mod_mul_r in Ecs by discriminate.
    rewrite (N.mul_comm (2 ^ 14)), N.mod_add, N.mod_mod in Ecs by discriminate. change (2 ^ 14) with 16384 in Ecs.
    pose proof (N.div_mod cs 16384 ltac:(discriminate)). pose proof (N.div_mod (cs + d) 16384 ltac:(discriminate)).
    rewrite <- Ecs in H0. destruct (N.lt_ge_cases d 16384); [|assumption].
    assert ((cs + d) / 16384 = cs / 16384) by nia. lia. }
  change (2 ^ 30) with 1073741824 in Hd. change (2 ^ 16) with 65536 in *.
  replace (N.of_nat (S (j - S i))) with (N.of_nat j - N.of_nat i) in B6 by lia. lia.
Qed.

(* ---- several threads --------------------------------------------------------------------- *)
Definition clocks_ok (calls : list (nat * world)) : Prop := Forall (fun c => clock_ok (snd c)) calls.

Lemma create_any g l w ts g' : get_current_time g (now w) = (ts, g') ->
  exists cs nd l', uuid_create g l w = (format_uuid_v1 cs ts nd, g', l').
Proof. intros E. unfold uuid_create. rewrite E. destruct (get_node l w) as [nd l1]. eauto. Qed.

Lemma run_any calls : forall ls T k, clocks_ok calls -> T < 2 ^ 60 - 2 ^ 16 -> k + N.of_nat (length calls) < 2 ^ 16 ->
  NoDup (generate (Statics true T k) ls calls) /\
  Forall (fun u => exists cs ts nd, u = format_uuid_v1 cs ts nd /\ T + k < ts /\ ts < 2 ^ 60) (generate (Statics true T k) ls calls).
Proof.
  induction calls as [|[t w] calls IH]; intros ls T k HO HT Hk; [split; constructor|].
  apply Forall_cons_iff in HO as [Hw HO]. cbn [snd length] in *.
  assert (Hk' : k < 2 ^ 16) by lia.
  destruct (get_current_time_step T k (now w) HT Hk' Hw) as (T1 & k1 & E & HT1 & Hk1 & HS).
  destruct HS as [(A & B & C)|(_ & -> & _)]; [|change (2 ^ 16) with 65536 in Hk; lia].
  destruct (create_any (Statics true T k) (ls t) w _ _ E) as (cs & nd & l1 & E1).
  rewrite (generate_cons _ _ _ _ calls _ _ _ E1).
  destruct (small_sum T1 k1 HT1 Hk1) as [_ S].
  destruct (IH (fun t' => if Nat.eqb t' t then l1 else ls t') T1 k1 HO HT1) as [I1 I2].
  { lia. }
  split.
  - constructor; [|exact I1]. intros Hin. rewrite Forall_forall in I2.
    destruct (I2 _ Hin) as (cs' & ts' & nd' & Eq & L1 & L2). apply v1_inj in Eq as [Eq _]; auto. lia.
  - constructor; [exists cs, (T1 + k1), nd; auto|].
    eapply Forall_impl; [|exact I2]. cbn beta. intros u (cs' & ts' & nd' & Eq & L1 & L2). exists cs', ts', nd'. split; [exact Eq|]. lia.
Qed.

Lemma few_distinct calls : clocks_ok calls -> N.of_nat (length calls) < 2 ^ 16 -> NoDup (zuids calls).
Proof.
  intros HO HL. unfold zuids. destruct calls as [|[t w] calls]; [constructor|].
  apply Forall_cons_iff in HO as [Hw HO]. cbn [snd length] in *.
  assert (E : get_current_time program_start (now w) = (now w + 1, Statics true (now w) 1)).
  { unfold get_current_time, program_start. cbn [inited time_last this_tick].
    change (0 <? UUIDS_PER_TICK) with true. cbv iota. cbn [time_last this_tick]. change (0 + 1) with 1.
    destruct (small_sum (now w) 1 Hw) as [S1 _]; [reflexivity|]. now rewrite S1. }
  destruct (create_any _ fresh w _ _ E) as (cs & nd & l1 & E1).
  rewrite (generate_cons _ (fun _ => fresh) _ _ calls _ _ _ E1).
  destruct (run_any calls (fun t' => if Nat.eqb t' t then l1 else fresh) (now w) 1 HO Hw) as [I1 I2]; [lia|].
  constructor; [|exact I1]. intros Hin. rewrite Forall_forall in I2.
  destruct (I2 _ Hin) as (cs' & ts' & nd' & Eq & L1 & L2).
  apply v1_inj in Eq as [Eq _]; auto; [lia|]. apply (small_sum _ 1 Hw). reflexivity.
Qed.

(** Threads with different node addresses. *)
Lemma nodes_run all calls : forall g ls n u t w, incl calls all ->
  (forall t nd, my_node (ls t) = Some nd -> exists w', In (t, w') all /\ nd = random_node w') ->
  nth_error calls n = Some (t, w) -> nth_error (generate g ls calls) n = Some u ->
  exists cs ts w', In (t, w') all /\ u = format_uuid_v1 cs ts (random_node w').
Proof.
  induction calls as [|[t0 w0] calls IH]; intros g ls n u t w HI HN Hc Hu; [destruct n; discriminate|].
  assert (G : exists cs ts nd g1 l1 w', uuid_create g (ls t0) w0 = (format_uuid_v1 cs ts nd, g1, l1) /\
     my_node l1 = Some nd /\ In (t0, w') all /\ nd = random_node w').
  { unfold uuid_create. destruct (get_current_time g (now w0)) as [ts g1].
    unfold get_node. destruct (my_node (ls t0)) as [nd|] eqn:E.
    - destruct (HN _ _ E) as (w' & W1 & W2). cbn [my_node]. do 6 eexists. split; [reflexivity|]. split; [exact E|]. split; [exact W1|exact W2].
    - cbn [my_node]. do 6 eexists. split; [reflexivity|]. split; [reflexivity|]. split; [|reflexivity].
      apply HI. left. reflexivity. }
  destruct G as (cs & ts & nd & g1 & l1 & w' & E1 & M1 & W1 & W2).
  rewrite (generate_cons _ _ _ _ calls _ _ _ E1) in Hu.
  destruct n as [|n].
  - cbn [nth_error] in *. injection Hc as -> ->. injection Hu as <-. subst nd. eauto.
  - cbn [nth_error] in *. eapply IH; [| |exact Hc|exact Hu].
    + intros x Hx. apply HI. now right.
    + intros t1 nd1 H1. cbn beta in H1. destruct (Nat.eqb_spec t1 t0) as [->|]; [|eauto].
      rewrite M1 in H1. injection H1 as <-. eauto.
Qed.

Lemma v1_node cs ts nd cs' ts' nd' : format_uuid_v1 cs ts nd = format_uuid_v1 cs' ts' nd' -> firstn 6 nd = firstn 6 nd'.
Proof. intros E. exact (f_equal (fun u => tl (tl (d4 u))) E). Qed.

(** A clock that does not move. *)
Lemma stalled_step g l T k cs nd w : inv g l T k cs nd -> now w <= T ->
  exists g' l', uuid_create g l w = (format_uuid_v1 ((cs + (k + 1) / 65536) mod 65536) (T + (k + 1) mod 65536) nd, g', l') /\
    inv g' l' T ((k + 1) mod 65536) ((cs + (k + 1) / 65536) mod 65536) nd.
Proof.
  intros (-> & HT & Hk & Hc & ->) Hw. unfold uuid_create, get_current_time. cbn [inited time_last this_tick].
  change (2 ^ 16) with 65536 in Hk, Hc.
  destruct (small_sum T k HT Hk) as [S1 S2]. rewrite S1. replace (T + k <? now w) with false by lia.
  assert (K : (k + 1) mod 65536 < 65536) by (apply N.mod_lt; discriminate).
  destruct (small_sum T ((k + 1) mod 65536) HT K) as [S3 S4].
  assert (C : (cs + (k + 1) / 65536) mod 65536 < 65536) by (apply N.mod_lt; discriminate).
  assert (G : (if k <? UUIDS_PER_TICK then Statics true T (k + 1) else Statics true T ((k + 1) mod 2 ^ 16))
     = Statics true T ((k + 1) mod 65536)).
  { unfold UUIDS_PER_TICK. destruct (N.ltb_spec k 10); [|reflexivity]. rewrite N.mod_small by lia. reflexivity. }
  rewrite G. cbn [time_last this_tick get_node my_node saved]. rewrite node_eqb_refl. cbn [negb]. rewrite S3.
  destruct (N.eq_dec k 65535) as [->|Nk].
  - change ((65535 + 1) mod 65536) with 0 in *. change ((65535 + 1) / 65536) with 1 in *.
    replace (T + 0 <? T + 65535) with true by lia. change (2 ^ 16) with 65536.
    eexists _, _. split; [reflexivity|]. split; [reflexivity|]. split; [exact HT|]. split; [exact K|]. split; [exact C|reflexivity].
  - assert (k + 1 < 65536) by lia. rewrite (N.mod_small (k + 1)), (N.div_small (k + 1)), N.add_0_r, (N.mod_small cs) in * by assumption.
    replace (T + (k + 1) <? T + k) with false by lia.
    eexists _, _. split; [reflexivity|]. split; [reflexivity|]. split; [exact HT|]. split; [exact K|]. split; [exact C|reflexivity].
Qed.

Lemma wrap_add cs k n : ((cs + (k + 1) / 65536) mod 65536 + ((k + 1) mod 65536 + n) / 65536) mod 65536
  = (cs + (k + (1 + n)) / 65536) mod 65536 /\ ((k + 1) mod 65536 + n) mod 65536 = (k + (1 + n)) mod 65536.
Proof.
  replace (k + (1 + n)) with (k + 1 + n) by lia. generalize (k + 1). intros a. split.
  - rewrite N.add_mod_idemp_l by discriminate. f_equal.
    rewrite (N.div_mod a 65536) at 3 by discriminate.
    replace (65536 * (a / 65536) + a mod 65536 + n) with (a mod 65536 + n + a / 65536 * 65536) by lia.
    rewrite N.div_add by discriminate. lia.
  - rewrite N.add_mod_idemp_l by discriminate. reflexivity.
Qed.

Lemma stalled_run w m : forall g ls T k cs nd n, inv g (ls 0%nat) T k cs nd -> now w <= T -> (n < m)%nat ->
  nth_error (generate g ls (repeat (0%nat, w) m)) n
  = Some (format_uuid_v1 ((cs + (k + N.of_nat (S n)) / 65536) mod 65536) (T + (k + N.of_nat (S n)) mod 65536) nd).
Proof.
  induction m as [|m IH]; intros g ls T k cs nd n HI Hw Hn; [lia|].
  destruct (stalled_step _ _ _ _ _ _ w HI Hw) as (g1 & l1 & E1 & I1).
  cbn [repeat]. rewrite (generate_cons _ _ _ _ (repeat (0%nat, w) m) _ _ _ E1).
  destruct n as [|n].
  - cbn [nth_error]. reflexivity.
  - cbn [nth_error]. erewrite IH; [|cbn beta; rewrite Nat.eqb_refl; exact I1|exact Hw|lia].
    destruct (wrap_add cs k (N.of_nat (S n))) as [W1 W2]. rewrite W1, W2.
    replace (N.of_nat (S (S n))) with (1 + N.of_nat (S n)) by lia. reflexivity.
Qed.

Lemma stalled_repeats w : clock_ok w -> forall n : nat,
  let calls := repeat (0%nat, w) (n + N.to_nat (2 ^ 30) + 2) in
  nth_error (zuids calls) (S n + N.to_nat (2 ^ 30)) = nth_error (zuids calls) (S n)
  /\ nth_error (zuids calls) (S n) <> None.
Proof.
  intros Hw n calls. assert (E : calls = (0%nat, w) :: repeat (0%nat, w) (n + N.to_nat (2 ^ 30) + 1)).
  { unfold calls. replace (n + N.to_nat (2 ^ 30) + 2)%nat with (S (n + N.to_nat (2 ^ 30) + 1)) by lia. reflexivity. }
  rewrite E. clear calls E.
  destruct (start_thread 0%nat w (fun _ => fresh) Hw eq_refl) as (cs & g1 & l1 & E1 & I1).
  unfold zuids. rewrite (generate_cons _ (fun _ => fresh) _ _ _ _ _ _ E1).
  cbn [Nat.add nth_error].
  assert (HP : (0 < N.to_nat (2 ^ 30))%nat) by (change (2 ^ 30) with 1073741824; lia).
  erewrite !stalled_run; [|cbn beta; rewrite Nat.eqb_refl; exact I1|lia|lia|cbn beta; rewrite Nat.eqb_refl; exact I1|lia|lia].
  split; [|discriminate]. f_equal.
  replace (N.of_nat (S (n + N.to_nat (2 ^ 30)))) with (N.of_nat (S n) + 2 ^ 30) by lia.
  set (a := 1 + N.of_nat (S n)). replace (1 + (N.of_nat (S n) + 2 ^ 30)) with (a + 16384 * 65536) by (subst a; change (2 ^ 30) with 1073741824; lia).
  rewrite N.div_add, N.mod_add by discriminate.
  rewrite !v1_fields. f_equal.
  (* the clock sequence has advanced by 2^14: the same fourteen bits *)
  set (b := cs + a / 65536). replace (cs + (a / 65536 + 16384)) with (b + 16384) by (subst b; lia).
  assert (M14 : forall x, (x mod 65536) / 2 ^ 8 mod 2 ^ 6 = x / 2 ^ 8 mod 2 ^ 6 /\ (x mod 65536) mod 2 ^ 8 = x mod 2 ^ 8).
  { intros x. change 65536 with (2 ^ 16). rewrite <- !N.shiftr_div_pow2, <- !N.land_ones. split; apply N.bits_inj; intros q.
    - rewrite !N.land_spec, !N.shiftr_spec', N.land_spec. destruct (N.lt_ge_cases q 6) as [L|L].
      + rewrite (N.ones_spec_low 6), (N.ones_spec_low 16) by lia. now rewrite andb_true_r.
      + rewrite (N.ones_spec_high 6) by lia. now rewrite !andb_false_r.
    - rewrite !N.land_spec. destruct (N.lt_ge_cases q 8) as [L|L].
      + rewrite (N.ones_spec_low 8), (N.ones_spec_low 16) by lia. now rewrite andb_true_r.
      + rewrite (N.ones_spec_high 8) by lia. now rewrite !andb_false_r. }
  destruct (M14 b) as [-> ->]. destruct (M14 (b + 16384)) as [-> ->].
  change 16384 with (64 * 2 ^ 8). rewrite N.div_add, N.mod_add by discriminate.
  change (2 ^ 6) with 64. replace (b / 2 ^ 8 + 64) with (b / 2 ^ 8 + 1 * 64) by lia. rewrite N.mod_add by discriminate. reflexivity.
Qed.
