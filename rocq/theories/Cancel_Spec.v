(** What the cancellation library promises, said of the sequence of its operations' effects. *)
From Verif Require Import Prelude Cancel_Model.
From Coq Require Import List Arith Lia Permutation Bool.
Import ListNotations.

Definition runs (l : list event) : list cb := flat_map (fun e => match e with ERun c _ => [c] | _ => [] end) l.
Definition registered (l : list event) : list cb := flat_map (fun e => match e with ERegister c _ => [c] | _ => [] end) l.
Definition deregistered (l : list event) : list cb := flat_map (fun e => match e with EDeregister c => [c] | _ => [] end) l.
(** the intended reading: which callbacks are registered, and which are to be called.  Deregistering takes out the callback
    whose registration is named, cancelling makes all registered ones due, and after that a callback is due when registered. *)
Record view := mk_view { v_canceled : bool; v_live : list cb; v_owed : list cb }.
Definition v_step (v : view) (e : event) : view :=
  match e with
  | ERegister c _ => if v_canceled v then mk_view true (v_live v) (v_owed v ++ [c]) else mk_view false (c :: v_live v) (v_owed v)
  | EDeregister c => mk_view (v_canceled v) (remove Nat.eq_dec c (v_live v)) (v_owed v)
  | ECancel => if v_canceled v then v else mk_view true [] (v_owed v ++ v_live v)
  | _ => v
  end.
Definition view_of (l : list event) : view := fold_left v_step l (mk_view false [] []).
Definition owed (l : list event) : list cb := v_owed (view_of l).
Definition live (l : list event) : list cb := v_live (view_of l).
(** no registration is deregistered twice, and those deregistered were made when no callback was registered *)
Definition deregistered_alone (l : list event) : Prop :=
  NoDup (deregistered l) /\
  forall c, In c (deregistered l) -> exists l1 tok l2, l = l1 ++ ERegister c tok :: l2 /\ live l1 = [].
(** no callback threw *)
Definition nothing_thrown (l : list event) : Prop := forall c, ~ In (ERun c true) l.
Definition idle (s : st) : Prop := forall s', ~ step Own s s'.
Inductive running : nat -> st -> st -> Prop :=
| run_none s : running 0 s s
| run_own k s s1 s2 : running k s s1 -> step Own s1 s2 -> running (S k) s s2.
