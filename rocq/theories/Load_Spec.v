(** What loading a sheet's text is to do: the declarations are read from top to bottom. *)
From Coq Require Import String.
From Verif Require Import Prelude Vm_Value Decl_Model Adam_Model Adam_Spec.
From Coq Require Import List.
Import ListNotations.
Local Open Scope nat_scope.

Section Reading.
Variable meaning : list value -> expr.
Variable bound : bool.
(** what has been declared: all the names; those of interface cells; those whose values initializers may use; how many cells *)
Record scope := Scope { sc_names : list name; sc_interfaces : list name; sc_values : list (name * value); sc_cells : nat }.
Definition nothing : scope := Scope [] [] [] 0.
Fixpoint value_of (l : list (name * value)) (n : name) : option value :=
  match l with [] => None | (m, v) :: l' => if string_dec m n then Some v else value_of l' n end.
(** an expression of declared values *)
Definition computes (vs : list (name * value)) (code : list value) (v : value) : Prop := run (value_of vs) (meaning code) = Some v.
(** an initializer: none is the empty value *)
Definition starts (vs : list (name * value)) (code : list value) (v : value) : Prop := (code = [] /\ v = VEmpty) \/ (code <> [] /\ computes vs code v).

(** The initializer of an interface cell may use the cell's own name, which is empty then *)
Inductive reads : scope -> event -> scope -> Prop :=
| reads_input sc n p code b d v : starts (sc_values sc) code v -> sc_cells sc < 1024 -> ~ In n (sc_names sc) ->
    reads sc (AddCell input_c n p code b d) (Scope (n :: sc_names sc) (sc_interfaces sc) ((n, v) :: sc_values sc) (sc_cells sc + 1))
| reads_constant sc n p code b d v : computes (sc_values sc) code v -> ~ In n (sc_names sc) ->
    reads sc (AddCell constant_c n p code b d) (Scope (n :: sc_names sc) (sc_interfaces sc) ((n, v) :: sc_values sc) (sc_cells sc + 1))
| reads_other sc t n p code b d : t = output_c \/ t = logic_c \/ t = invariant_c -> ~ In n (sc_names sc) ->
    reads sc (AddCell t n p code b d) (Scope (n :: sc_names sc) (sc_interfaces sc) (sc_values sc) (sc_cells sc + 1))
| reads_interface sc n l ip init ep e b d v : starts ((n, VEmpty) :: sc_values sc) init v -> sc_cells sc < 1024 -> ~ In n (sc_names sc) ->
    reads sc (AddInterface n l ip init ep e b d) (Scope (n :: sc_names sc) (n :: sc_interfaces sc) ((n, v) :: sc_values sc) (sc_cells sc + 2))
| reads_relation sc p cond rs b d : rs <> [] -> (forall r n, In r rs -> In n (r_names r) -> In n (sc_interfaces sc)) ->
    reads sc (AddRelation p cond rs b d) sc
| reads_external sc n p b d : bound = true -> reads sc (AddExternal n p b d) sc.
Inductive reading : scope -> list event -> scope -> Prop :=
| reading_none sc : reading sc [] sc
| reading_more sc e sc1 evs sc2 : reads sc e sc1 -> reading sc1 evs sc2 -> reading sc (e :: evs) sc2.

(** *** what the sheet consists of: the kind of each cell, its name, what it is computed from, and whether it is linked *)
Definition computed (n : name) (code : list value) : calculator := match code with [] => CGet n | _ => CExpr (meaning code) end.
Definition started (code : list value) : calculator := match code with [] => CNone | _ => CExpr (meaning code) end.
Definition declared (e : event) : list (specifier * name * calculator * bool) :=
  match e with
  | AddCell input_c n _ _ _ _ => [(SInput, n, CNone, false)]
  | AddCell output_c n _ code _ _ => [(SOutput, n, CExpr (meaning code), false)]
  | AddCell constant_c n _ _ _ _ => [(SConst, n, CNone, false)]
  | AddCell logic_c n _ code _ _ => [(SLogic, n, CExpr (meaning code), false)]
  | AddCell invariant_c n _ code _ _ => [(SInvariant, n, CExpr (meaning code), false)]
  | AddInterface n l _ init _ e _ _ => [(SIfIn, n, started init, l); (SIfOut, n, computed n e, false)]
  | _ => []
  end.
Definition related (e : event) : list (option expr * list (list name * expr)) :=
  match e with
  | AddRelation _ cond rs _ _ => [(match cond with [] => None | _ => Some (meaning cond) end, map (fun r => (r_names r, meaning (r_code r))) rs)]
  | _ => []
  end.
Definition external (e : event) : list name := match e with AddExternal n _ _ _ => [n] | _ => [] end.
(** the name that a declaration introduces *)
Definition names_declared (e : event) : list name := match e with AddCell _ n _ _ _ _ => [n] | AddInterface n _ _ _ _ _ _ _ => [n] | _ => [] end.
Definition parts (k : cell) := (c_spec k, c_name k, c_calc k, c_linked k).
(** the declared value [v] of [n] is in the sheet *)
Definition holds (S : sheet) (s : dyn) (n : name) (v : value) : Prop :=
  exists c k, nth_error (cells S) c = Some k /\ c_name k = n /\ (c_spec k = SInput \/ c_spec k = SIfIn \/ c_spec k = SConst) /\ d_state s c = v.
End Reading.
