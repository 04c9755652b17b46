(** Model of /repo/source/adam_evaluate.cpp: the calls that the Adam parser makes (Decl_Model) are bound to a sheet (Adam_Model).
    What the code of an expression means is a parameter: sheets evaluate it with the virtual machine (see Vm_Model); an empty array
    stands for no expression. *)
From Coq Require Import String.
From Verif Require Import Prelude Vm_Value Decl_Model Adam_Model.
From Coq Require Import List.
Import ListNotations.
Local Open Scope nat_scope.

Section Load.
Variable meaning : list value -> expr.
(** 98-111: whether the suite is bound to an external model as well; when not, add_external_proc_m is an empty std::function *)
Variable bound : bool.
Definition optional (code : list value) : option expr := match code with [] => None | _ => Some (meaning code) end.

(** the sheet, and the cells that the external model was given; the sheet as it is when a call throws *)
Inductive loaded := Loaded (Sh : sheet) (s : dyn) (xs : list name) | Thrown (x : exn) (Sh : sheet) (s : dyn) (xs : list name) | Crash.
Definition on_sheet (xs : list name) (r : bres) : loaded :=
  match r with BOk Sh s => Loaded Sh s xs | BThrow x Sh s => Thrown x Sh s xs | BUB => Crash end.
(** 24-51 add_cell, 55-79 add_relation ([&relations[0]] of an empty vector is undefined), 85-98 and 102-109 bind_to_sheet *)
Definition handle (e : event) (Sh : sheet) (s : dyn) (xs : list name) : loaded :=
  match e with
  | AddCell input_c n p code _ _ => on_sheet xs (add_input n (optional code) Sh s)
  | AddCell output_c n p code _ _ => on_sheet xs (add_output n (meaning code) Sh s)
  | AddCell constant_c n p code _ _ => on_sheet xs (add_constant n (meaning code) Sh s)
  | AddCell logic_c n p code _ _ => on_sheet xs (add_logic n (meaning code) Sh s)
  | AddCell invariant_c n p code _ _ => on_sheet xs (add_invariant n (meaning code) Sh s)
  | AddInterface n l ip init ep e _ _ => on_sheet xs (add_interface n l (optional init) (optional e) Sh s)
  | AddRelation p cond rs _ _ =>
    match rs with
    | [] => Crash
    | _ => on_sheet xs (add_relation (optional cond) (map (fun r => (r_names r, meaning (r_code r))) rs) Sh s)
    end
  | AddExternal n p _ _ => if bound then Loaded Sh s (xs ++ [n]) else Thrown XCast Sh s xs
  | _ => Loaded Sh s xs
  end.
(** a call that throws ends the parsing *)
Fixpoint load (evs : list event) (Sh : sheet) (s : dyn) (xs : list name) : loaded :=
  match evs with
  | [] => Loaded Sh s xs
  | e :: evs' => match handle e Sh s xs with Loaded Sh' s' xs' => load evs' Sh' s' xs' | r => r end
  end.
(** adobe::parse with the suite, on a new sheet: the calls made before an error of the parser are made on the sheet *)
Inductive outcome := Sheet (r : loaded) | Syntax_error (r : loaded) | No_fuel.
Definition load_text (ts : list Expr_Model.token) : outcome :=
  match adam_parse ts with
  | Ok evs _ _ => Sheet (load evs empty_sheet initial [])
  | Err evs => Syntax_error (load evs empty_sheet initial [])
  | Fuel => No_fuel
  end.
End Load.
