(** How a client is to be shown the views of a layout *)
From Coq Require Import String.
From Verif Require Import Prelude Vm_Value Decl_Model Decl_Spec Adam_Model LayLoad_Model.
From Coq Require Import List.
Import ListNotations.
Local Open Scope nat_scope.

Section Showing.
(** what a view's parameters come to *)
Variable value_of_arguments : list value -> option (list (string * value)).
(** each view before those in it, and they in order; [k] is how many were shown before *)
Inductive shows : option nat -> nat -> view -> list vcall -> Prop :=
| shows_view parent k p class args b d vs m cs :
    value_of_arguments args = Some m -> shows_all (Some k) (k + 1) vs cs ->
    shows parent k (View p class args b d vs) (VCall parent class m :: cs)
with shows_all : option nat -> nat -> list view -> list vcall -> Prop :=
| shows_none parent k : shows_all parent k [] []
| shows_more parent k v vs c cs : shows parent k v c -> shows_all parent (k + length c) vs cs -> shows_all parent k (v :: vs) (c ++ cs).
(** the client takes each of them *)
Definition taken_all (accepts : list vcall -> vcall -> bool) (cs : list vcall) : Prop :=
  forall before c after, cs = before ++ c :: after -> accepts before c = true.
End Showing.
