(** Model of /repo/source/eve_evaluate.cpp:129-212: the calls that the Eve parser makes (Decl_Model) are bound to a sheet (Adam_Model)
    and to a client's function that makes views.  What the code of an expression means for the sheet, and what the virtual machine
    makes of the code of a view's parameters (its variables may be those of the sheet), are parameters; callbacks that have side
    effects on the sheet are not modelled. *)
From Coq Require Import String.
From Verif Require Import Prelude Vm_Value Decl_Model Adam_Model Load_Model.
From Coq Require Import List.
Import ListNotations.
Local Open Scope nat_scope.

(** a call of the client's function: which of its results the parent is, the view's class, its parameters *)
Record vcall := VCall { v_parent : option nat; v_class : string; v_arguments : list (string * value) }.
Section Laying.
Variable meaning : list value -> expr.
(** 129-138 evaluate_named_arguments: nothing when the machine throws or does not find a dictionary *)
Variable arguments : sheet -> dyn -> list value -> option (list (string * value)).
(** the client's function, which may throw: the calls so far, and this one *)
Variable accepts : list vcall -> vcall -> bool.
(** what update() depends on, see Adam_Model *)
Variable D : sched.
Variable listening : nat -> bool.

Inductive laid := Laid (Sh : sheet) (s : dyn) (vs : list vcall) | Failed (Sh : sheet) (s : dyn) (vs : list vcall) | Broken.
Definition in_sheet (vs : list vcall) (r : bres) : laid := match r with BOk Sh s => Laid Sh s vs | BThrow _ Sh s => Failed Sh s vs | BUB => Broken end.
(** 142-155 add_cell (other types are asserted away: nothing happens), 161-185 add_relation, 195-212 bind_layout *)
Definition act (e : event) (Sh : sheet) (s : dyn) (vs : list vcall) : laid :=
  match e with
  | AddCell constant_c n p code _ _ => in_sheet vs (add_constant n (meaning code) Sh s)
  | AddCell logic_c n p code _ _ => in_sheet vs (add_logic n (meaning code) Sh s)
  | AddInterface n l ip init ep e _ _ => in_sheet vs (add_interface n l (optional meaning init) (optional meaning e) Sh s)
  | AddRelation p cond rs _ _ =>
    match rs with
    | [] => Broken
    | _ => in_sheet vs (add_relation (optional meaning cond) (map (fun r => (r_names r, meaning (r_code r))) rs) Sh s)
    end
  | FinalizeSheet =>
    match update Sh D listening s with
    | Some (ROk _ s') => Laid Sh s' vs
    | Some (RThrow _ s') => Failed Sh s' vs
    | _ => Broken
    end
  | AddView parent p class args _ _ =>
    match arguments Sh s args with
    | Some d => if accepts vs (VCall parent class d) then Laid Sh s (vs ++ [VCall parent class d]) else Failed Sh s vs
    | None => Failed Sh s vs
    end
  | _ => Laid Sh s vs
  end.
Fixpoint lay (evs : list event) (Sh : sheet) (s : dyn) (vs : list vcall) : laid :=
  match evs with
  | [] => Laid Sh s vs
  | e :: evs' => match act e Sh s vs with Laid Sh' s' vs' => lay evs' Sh' s' vs' | r => r end
  end.
(** adobe::parse with the suite, on a new sheet *)
Inductive layout_outcome := Layout (r : laid) | Layout_error (r : laid) | Layout_fuel.
Definition lay_text (ts : list Expr_Model.token) : layout_outcome :=
  match eve_parse ts with
  | Ok evs _ _ => Layout (lay evs empty_sheet initial [])
  | Err evs => Layout_error (lay evs empty_sheet initial [])
  | Fuel => Layout_fuel
  end.
End Laying.
