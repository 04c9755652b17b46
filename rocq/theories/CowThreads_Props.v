(** C46: copies of one copy_on_write value used by different threads. *)
From Verif Require Import Prelude CopyOnWrite_Model CopyOnWrite_Proofs CowThreads_Model CowThreads_Spec CowThreads_Proofs.
Ltac Zify.zify_post_hook ::= idtac.

Section Props.
Context {T : Type}.
Variable dflt : T.
Variable eqb : T -> T -> bool.
Hypothesis eqb_refl : forall v, eqb v v = true.

(** The threads [ts] start with handles on the values [vs] in any sharing
    pattern; run alone on plain values thread i would read [totals i]. *)
Definition legal (vs : list T) ts totals : Prop :=
  (forall hs p, In (hs, p) ts -> handles_exist vs hs) /\
  length totals = length ts /\
  (forall i hs p total, nth_error ts i = Some (hs, p) -> nth_error totals i = Some total ->
     alone dflt eqb p (initial_values vs hs) = Some total).

(** Under every schedule: no undefined behaviour (no use after free, no double
    free), no data race on a value, and what every thread has read so far is what
    it would have read alone: other threads' writes are never visible. *)
Theorem C46_threads_are_isolated : forall vs ts totals sched,
  legal vs ts totals ->
  exists w, wrun dflt eqb sched (init vs ts) = Some w /\
    ~ race w /\
    forall i t total, nth_error (threads w) i = Some t -> nth_error totals i = Some total ->
      exists rest, total = outs t ++ rest /\ (prog t = [] -> todo t = [] -> rest = []).
Proof using eqb_refl.
  intros vs ts totals sched (HE & L & A).
  pose proof (winv_init dflt eqb eqb_refl vs ts totals HE L A) as W0.
  destruct (wrun_ok dflt eqb eqb_refl totals sched _ W0) as (w & R & W).
  exists w. split; auto. split. { eapply winv_no_race; eauto. }
  intros i t total Et Etot. destruct W as (_ & _ & _ & TI).
  destruct (TI i t total Et Etot) as (_ & _ & _ & rest & Al & Tt).
  exists rest. split; auto. intros P Q. rewrite P, Q in Al. cbn in Al. congruence.
Qed.

(** Wait-freedom: thread i is done, with exactly its own results, as soon as it
    has been scheduled five times per operation, whatever the others do. *)
Theorem C46_threads_are_wait_free : forall vs ts totals sched i hs p total,
  legal vs ts totals ->
  nth_error ts i = Some (hs, p) -> nth_error totals i = Some total ->
  5 * length p <= count_occ Nat.eq_dec sched i ->
  exists w t, wrun dflt eqb sched (init vs ts) = Some w /\
    nth_error (threads w) i = Some t /\ prog t = [] /\ todo t = [] /\ outs t = total.
Proof using eqb_refl.
  intros vs ts totals sched i hs p total Lg Ei Etot C.
  destruct (C46_threads_are_isolated vs ts totals sched Lg) as (w & R & _ & O).
  destruct (wrun_finishes dflt eqb eqb_refl i sched (init vs ts) w (Th hs p [] []) R) as (t & Et & Q & P).
  - unfold init. cbn [threads]. now rewrite nth_error_map, Ei.
  - unfold tsize. cbn [prog todo]. change (sumf msize []) with 0. lia.
  - exists w, t. repeat (split; auto). destruct (O i t total Et Etot) as (rest & E & Z).
    rewrite (Z P Q), app_nil_r in E. auto.
Qed.

(** When all threads are done no object is leaked: every object that no handle
    refers to (and that is not the default instance) has been freed, and every
    live object's count is the number of handles on it. *)
Theorem C46_nothing_leaks : forall vs ts totals sched w,
  legal vs ts totals ->
  wrun dflt eqb sched (init vs ts) = Some w ->
  (forall t, In t (threads w) -> prog t = [] /\ todo t = []) ->
  forall a, a < length (wheap w) ->
    let owners := length (filter (fun x => match x with Some b => b =? a | None => false end)
                                 (concat (map tslots (threads w)))) +
                  (match wdefault w with Some b => if b =? a then 1 else 0 | None => 0 end) in
    if owners =? 0 then nth_error (wheap w) a = Some Freed
    else exists v, nth_error (wheap w) a = Some (Live owners v).
Proof using eqb_refl.
  intros vs ts totals sched w (HE & L & A) R Fin a La.
  pose proof (winv_init dflt eqb eqb_refl vs ts totals HE L A) as W0.
  destruct (wrun_ok dflt eqb eqb_refl totals sched _ W0) as (w' & R' & W).
  assert (w' = w) by congruence. subst w'. destruct W as (I & _ & _ & _).
  cbv zeta. rewrite count_sumf.
  assert (E : sumf (fun x : option nat => hd x a) (concat (map tslots (threads w))) +
              (match wdefault w with Some b => if b =? a then 1 else 0 | None => 0 end) = wrefs w a).
  { unfold wrefs. f_equal. revert Fin. clear. generalize (threads w) as l.
    induction l as [|t l IH]; intros Fin; auto. cbn [map concat]. rewrite sumf_app, sumf_cons, IH.
    - destruct (Fin t (or_introl eq_refl)) as [_ Q]. unfold trefs at 2. rewrite Q. change (qrefs [] a) with 0. now rewrite Nat.add_0_r.
    - intros t' It. apply Fin. now right. }
  assert (F0 : wfrees w a = 0).
  { unfold wfrees. revert Fin. clear. generalize (threads w) as l.
    induction l as [|t l IH]; intros Fin; auto. rewrite sumf_cons, IH.
    - destruct (Fin t (or_introl eq_refl)) as [_ Q]. unfold tfrees. rewrite Q. reflexivity.
    - intros t' It. apply Fin. now right. }
  unfold handle in *. rewrite E. specialize (I a). rewrite F0 in I. apply nth_error_Some in La.
  destruct (nth_error (wheap w) a) as [[c v|]|]; try congruence.
  - destruct I as [-> I]. destruct (Nat.eqb_spec (wrefs w a) 0); [discriminate|eauto].
  - destruct I as [-> _]. reflexivity.
Qed.

End Props.

(** Two threads start with handles on the same value 7; one increments its copy
    and reads it, the other reads, sets and drops; both use the default object. *)
Definition demo_threads : list (list (option nat) * list (top (T := nat))) :=
  [([Some 0; None], [TWrite 0 S; TRead 0; TDefault 1; TWrite 1 S; TRead 1; TDrop 0; TDrop 1]);
   ([Some 0; Some 0], [TRead 0; TSet 0 3; TRead 1; TEq 0 1; TMove 1 0; TDefault 0; TRead 0; TDrop 1])].
Definition demo_totals : list (list (tout (T := nat))) :=
  [[TVal 8; TVal 1]; [TVal 7; TVal 7; TBool false; TVal 0]].

Example demo_threads_legal : legal 0 Nat.eqb [7] demo_threads demo_totals.
Proof.
  split; [|split; [reflexivity|]].
  - intros hs p Hin k Hk. cbn in Hin.
    destruct Hin as [Hin|[Hin|[]]]; injection Hin as <- <-; cbn in Hk;
      repeat (destruct Hk as [Hk|Hk]; [try discriminate; injection Hk as <-; cbn; auto|]); destruct Hk.
  - intros [|[|i]] hs p total H1 H2; cbn in H1, H2; try (destruct i; discriminate);
      injection H1 as <- <-; injection H2 as <-; reflexivity.
Qed.

(** The interesting interleaving happens: thread 0 sees count 3 and copies while
    thread 1 is in the middle of replacing its handle. *)
Example demo_interleaving :
  exists w, wrun 0 Nat.eqb [0; 1; 1; 0; 1; 0; 0; 0; 1] (init [7] demo_threads) = Some w /\
    length (wheap w) = 3 /\ nth_error (wheap w) 0 = Some (Live 1 7).
Proof. eexists. split; [vm_compute; reflexivity|]. split; reflexivity. Qed.

Print Assumptions C46_threads_are_isolated.
Print Assumptions C46_threads_are_wait_free.
Print Assumptions C46_nothing_leaks.
