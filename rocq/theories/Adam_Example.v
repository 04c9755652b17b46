(** Concrete sheets for the examples, and a schedule that is admissible. *)
From Coq Require Import String Permutation Sorted.
From Verif Require Import Prelude Vm_Value Adam_Model Adam_Spec.
From Coq Require Import List.
Import ListNotations.
Local Open Scope nat_scope.
Local Open Scope string_scope.
Ltac Zify.zify_post_hook ::= idtac.

Fixpoint ins (le : nat -> nat -> bool) (x : nat) (l : list nat) : list nat :=
  match l with [] => [x] | y :: l' => if le x y then x :: l else y :: ins le x l' end.
Definition isort (le : nat -> nat -> bool) (l : list nat) : list nat := fold_right (ins le) [] l.
Definition D0 : sched := {| sd_iter := fun l => l;
  sd_flow := fun p l => isort (fun a b => (p b <=? p a)%Z) l;
  sd_touch := fun p l => isort (fun a b => (p a <=? p b)%Z) l |}.
(** the same, iterating a hash index the other way round *)
Definition D1 : sched := {| sd_iter := fun l => rev l; sd_flow := sd_flow D0; sd_touch := sd_touch D0 |}.
Lemma ins_perm le x l : Permutation (ins le x l) (x :: l).
Proof.
  induction l as [|y l IH]; cbn [ins]; [constructor; constructor|]. destruct (le x y); [reflexivity|].
  rewrite IH. apply perm_swap.
Qed.
Lemma isort_perm le l : Permutation (isort le l) l.
Proof. induction l as [|x l IH]; cbn [isort fold_right]; [constructor|]. fold (isort le l). rewrite ins_perm. now constructor. Qed.
Lemma ins_sorted le (R : nat -> nat -> Prop) x l : (forall a b, le a b = true -> R a b) -> (forall a b, le a b = false -> R b a) ->
  (forall a b c, R a b -> R b c -> R a c) -> StronglySorted R l -> StronglySorted R (ins le x l).
Proof.
  intros H1 H2 H3. induction 1 as [|y l S IH F]; cbn [ins]; [repeat constructor|].
  destruct (le x y) eqn:E.
  - constructor; [now constructor|]. constructor; [auto|]. rewrite Forall_forall in *. intros z Hz. apply (H3 x y z); auto.
  - constructor; [exact IH|]. rewrite Forall_forall in *. intros z Hz. apply (Permutation_in _ (ins_perm le x l)) in Hz as [<-|Hz]; auto.
Qed.
Lemma isort_sorted le (R : nat -> nat -> Prop) l : (forall a b, le a b = true -> R a b) -> (forall a b, le a b = false -> R b a) ->
  (forall a b c, R a b -> R b c -> R a c) -> StronglySorted R (isort le l).
Proof. intros H1 H2 H3. induction l as [|x l IH]; cbn [isort fold_right]; [constructor|]. now apply ins_sorted. Qed.
Lemma D0_ok : sched_ok D0.
Proof.
  split; [intros l; apply Permutation_refl|]. split; intros p l; (split; [apply isort_perm|]); apply isort_sorted; intros; cbv beta in *; lia.
Qed.
Lemma D1_ok : sched_ok D1.
Proof. split; [intros l; apply Permutation_sym, Permutation_rev|]. apply (proj2 D0_ok). Qed.

(** a sheet built by a list of successful calls *)
Fixpoint build_all (l : list build_op) (Sh : sheet) (s : dyn) : option (sheet * dyn) :=
  match l with
  | [] => Some (Sh, s)
  | o :: l' => match build o Sh s with BOk Sh' s' => build_all l' Sh' s' | _ => None end
  end.
Lemma build_all_reachable : forall l b Sh s Sh' s', reachable b Sh s -> build_all l Sh s = Some (Sh', s') -> reachable b Sh' s'.
Proof.
  induction l as [|o l IH]; intros b Sh s Sh' s' R; cbn [build_all]; [now intros [= <- <-]|].
  destruct (build o Sh s) as [S1 s1| |] eqn:E; try discriminate. apply IH. eapply R_build; eauto.
Qed.
Definition built (l : list build_op) : sheet * dyn :=
  match build_all l empty_sheet initial with Some p => p | None => (empty_sheet, initial) end.
Lemma built_reachable l : reachable true (fst (built l)) (snd (built l)).
Proof.
  unfold built. destruct (build_all l empty_sheet initial) as [[Sh s]|] eqn:E; [|constructor].
  eapply build_all_reachable; [constructor|exact E].
Qed.
Definition sheet_of l := fst (built l).
Definition start_of l := snd (built l).
Definition var (n : name) : expr := Look n Ret.
Definition two (f : value -> value -> value) (n m : name) : expr := Look n (fun v => Look m (fun w => Ret (f v w))).
Definition num (z : N) : value := VSize z.
Definition plus (v w : value) : value := match v, w with VSize a, VSize b => VSize (a + b) | _, _ => VEmpty end.
Definition minus (v w : value) : value := match v, w with VSize a, VSize b => VSize (a - b) | _, _ => VEmpty end.
Definition after {A} (r : option (res A)) : dyn := match r with Some (ROk _ s) => s | Some (RThrow _ s) => s | _ => initial end.
Definition nolisten : nat -> bool := fun _ => false.

(** width, left and right of a box: width = right - left *)
Definition box : list build_op :=
  [ OInterface "left" true (Some (Ret (num 10))) None; OInterface "right" true (Some (Ret (num 30))) None;
    OInterface "width" true (Some (Ret (num 5))) None;
    ORelation None [ (["left"], two minus "right" "width"); (["right"], two plus "left" "width");
                     (["width"], two minus "right" "left") ];
    OOutput "result" (two plus "left" "width") ].
(** a sheet in which a term names two cells, and the second is derived from the first's relation *)
Definition loop : list build_op :=
  [ OInterface "c" true (Some (Ret (num 3))) None; OInterface "b" true (Some (Ret (num 2))) None;
    OInterface "a" true (Some (Ret (num 1))) None;
    ORelation None [ (["a"; "b"], Look "c" (fun v => Ret (VArr [v; v]))); (["c"], two plus "a" "b") ];
    ORelation None [ (["b"], var "c"); (["c"], var "b") ] ].
