(** C123: a sheet's update() always comes to an end, and nothing undefined happens on the way *)
From Coq Require Import String ZArith.
From Verif Require Import Prelude Vm_Value Adam_Model Adam_Spec Adam_Flow Adam_Build Adam_Frame Adam_Flow3 AdamFlow_Props Adam_Example AdamTotal_Spec Adam_Total.
From Coq Require Import List Lia.
Import ListNotations.
Local Open Scope nat_scope.
Ltac Zify.zify_post_hook ::= idtac.

(** Whatever was done to the sheet before, including updates that threw: update() returns or throws. *)
Theorem C123_update_is_defined b Sh s D l : reachable b Sh s -> rel_terms_ok Sh -> terms_supply Sh -> sched_ok D ->
  exists r, update Sh D l s = Some r /\ r <> RUB.
Proof.
  intros R RT ST HD. pose proof (reachable_wf b Sh s R) as W.
  pose proof (update_total Sh D l s true W (wf_relations Sh W RT) HD (fun _ => ST) (fine_weaken _ _ _ (reachable_fine b Sh s R RT ST))) as Q.
  destruct (update Sh D l s) as [[ns s'|x s'|]|]; [| |discriminate|contradiction]; eexists; (split; [reflexivity|discriminate]).
Qed.
(** Every other call on such a sheet is defined as well. *)
Theorem C123_calls_are_defined b Sh s : reachable b Sh s ->
  (forall o, build o Sh s <> BUB) /\ (forall n v, set_cell Sh n v s <> RUB) /\ (forall D, reinitialize Sh D s <> RUB).
Proof.
  intros R. split; [|split].
  - intros o E. pose proof (build_over o Sh s) as Q. rewrite E in Q. exact Q.
  - intros n v. unfold set_cell. destruct (lookup n (input_index Sh)); discriminate.
  - intros D E. pose proof (reinit_kept Sh (reachable_wf b Sh s R) (sd_iter D (map snd (output_index Sh))) s) as Q. unfold reinitialize in E. rewrite E in Q. exact Q.
Qed.
(** inspect() too, also after an update() that threw *)
Theorem C123_inspect_is_defined b Sh s e : reachable b Sh s -> rel_terms_ok Sh -> terms_supply Sh -> calc_expr Sh e s <> RUB.
Proof.
  intros R RT ST E. pose proof (calc_expr_defined Sh true (reachable_wf b Sh s R) e s (reachable_fine b Sh s R RT ST)) as Q.
  rewrite E in Q. discriminate.
Qed.
(** A sheet whose terms name one cell each needs no care. *)
Corollary C123_single_terms_are_defined b Sh s D l : reachable b Sh s -> rel_terms_ok Sh -> single_terms Sh -> sched_ok D ->
  exists r, update Sh D l s = Some r /\ r <> RUB.
Proof.
  intros R RT ST HD. apply (C123_update_is_defined b); auto. intros x t Hx Ht. left. destruct (ST x t Hx Ht) as (n & ->). reflexivity.
Qed.
(** The condition on the arrays is needed: one term names two cells and its expression yields one value. *)
Definition short : list build_op :=
  [ OInterface "a" true (Some (Ret (num 1))) None; OInterface "b" true (Some (Ret (num 2))) None;
    OInterface "c" true (Some (Ret (num 3))) None;
    ORelation None [ (["a"; "b"], Look "c" (fun v => Ret (VArr [v]))); (["c"], var "a") ] ]%string.
Definition enough : list build_op :=
  [ OInterface "a" true (Some (Ret (num 1))) None; OInterface "b" true (Some (Ret (num 2))) None;
    OInterface "c" true (Some (Ret (num 3))) None;
    ORelation None [ (["a"; "b"], Look "c" (fun v => Ret (VArr [v; v]))); (["c"], var "a") ] ]%string.
Lemma three_ok e : relation_terms_ok [ (["a"; "b"], e); (["c"], var "a") ]%string.
Proof.
  split; [cbn; lia|]. split; [intros t [<-|[<-|[]]]; discriminate|].
  cbn. repeat (constructor; [cbn; intuition discriminate|]). constructor.
Qed.
Theorem C123_too_few_values : exists Sh s, reachable true Sh s /\ rel_terms_ok Sh /\ sched_ok D0 /\
  update Sh D0 nolisten s = Some RUB.
Proof.
  exists (sheet_of short), (start_of short). split; [apply built_reachable|]. split.
  { assert (E : map r_terms (rels (sheet_of short)) = [ [ (["a"; "b"], Look "c" (fun v => Ret (VArr [v]))); (["c"], var "a") ] ]%string) by reflexivity.
    intros x Hx. apply (in_map r_terms) in Hx. rewrite E in Hx. destruct Hx as [<-|[]]. apply three_ok. }
  split; [apply D0_ok|]. vm_compute. reflexivity.
Qed.
(** with a value for each, the same sheet updates *)
Example C123_meets : exists ns s', reachable true (sheet_of enough) (start_of enough) /\ rel_terms_ok (sheet_of enough) /\
  terms_supply (sheet_of enough) /\ update (sheet_of enough) D0 nolisten (start_of enough) = Some (ROk ns s') /\ d_state s' 1 = num 3 /\ d_state s' 3 = num 3.
Proof.
  assert (E : map r_terms (rels (sheet_of enough)) = [ [ (["a"; "b"], Look "c" (fun v => Ret (VArr [v; v]))); (["c"], var "a") ] ]%string) by reflexivity.
  eexists _, (after (update (sheet_of enough) D0 nolisten (start_of enough))). split; [apply built_reachable|]. split.
  { intros x Hx. apply (in_map r_terms) in Hx. rewrite E in Hx. destruct Hx as [<-|[]]. apply three_ok. }
  split.
  { intros x t Hx Ht. apply (in_map r_terms) in Hx. rewrite E in Hx. destruct Hx as [Hx|[]]. rewrite <- Hx in Ht.
    destruct Ht as [<-|[<-|[]]]; [right; cbn; intros _; lia|left; reflexivity]. }
  split; [vm_compute; reflexivity|]. split; vm_compute; reflexivity.
Qed.
