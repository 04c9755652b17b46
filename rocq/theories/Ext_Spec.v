(** What C115 says: what a call on an external model does, from the calls before it (the newest first). *)
From Coq Require Import Ascii Arith.
From Verif Require Import Ext_Model.
From Coq Require Import List.
Import ListNotations.
Local Open Scope nat_scope.

Definition same_text (x y : text) : bool := if list_eq_dec Ascii.ascii_dec x y then true else false.
(** names are zero terminated *)
Definition proper (t : text) : Prop := ~ In "000"%char t.
Section Spec.
Variable value : Type.
Definition name_of (o : call value) : option text :=
  match o with
  | AddCell n | Count n | Monitor n _ | Set_ n _ | ModelMonitor n _ | ModelSet n _ => Some n
  | Disconnect _ => None
  end.
Definition proper_call (o : call value) : Prop := match name_of o with Some n => proper n | None => True end.
(** the cell was added *)
Definition has (h : list (call value)) (n : text) : bool :=
  existsb (fun o => match o with AddCell m => same_text m n | _ => false end) h.
(** how many monitors were connected: the number of the next connection *)
Fixpoint connected (h : list (call value)) : nat :=
  match h with
  | [] => 0
  | Monitor n _ :: h' => (if has h' n then 1 else 0) + connected h'
  | _ :: h' => connected h'
  end.
(** the monitors of a cell that are still connected, in the order of connection *)
Fixpoint live (h : list (call value)) (n : text) : list (nat * nat) :=
  match h with
  | [] => []
  | Monitor m f :: h' => live h' n ++ (if (same_text m n && has h' n)%bool then [(connected h', f)] else [])
  | Disconnect c :: h' => filter (fun s => negb (fst s =? c)) (live h' n)
  | _ :: h' => live h' n
  end.
(** the function that was last given to model_monitor for the cell *)
Fixpoint hook (h : list (call value)) (n : text) : option nat :=
  match h with
  | [] => None
  | ModelMonitor m f :: h' => if (same_text m n && has h' n)%bool then f else hook h' n
  | _ :: h' => hook h' n
  end.
Definition expected (h : list (call value)) (o : call value) : outcome value :=
  match o with
  | AddCell _ | Disconnect _ => Done
  | Count n => Counted (if has h n then 1 else 0)
  | Monitor n _ => if has h n then Connected (connected h) else No_cell
  | Set_ n v => if has h n then match hook h n with Some f => Called [(f, v)] | None => Bad_call end else No_cell
  | ModelMonitor n _ => if has h n then Done else No_cell
  | ModelSet n v => if has h n then Called (map (fun s => (snd s, v)) (live h n)) else No_cell
  end.
End Spec.
Arguments has {value}. Arguments connected {value}. Arguments live {value}. Arguments hook {value}. Arguments expected {value}. Arguments proper_call {value}. Arguments name_of {value}.
