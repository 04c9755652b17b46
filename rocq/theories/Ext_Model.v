(** Model of external_model_t: /repo/source/external_model.cpp:27-83, /repo/adobe/external_model.hpp:33-67.
    A monitor is a function object, here a number that names it; that it is called with a value is an event.
    Monitors do not themselves call the model.  boost::signals2::signal calls its slots in the order in which they
    were connected, and connection::disconnect removes one (the library is not modelled further).
    std::map is modelled by an association list searched with the comparison it is given, str_less_t
    (adobe/string.hpp:54-62): two keys are the same when neither is less. *)
From Coq Require Import String Ascii ZArith.
From Verif Require Import Prelude.
From Coq Require Import List.
Import ListNotations.
Local Open Scope nat_scope.
Notation text := (list ascii).

(** char is signed *)
Definition char_value (c : ascii) : Z := let n := Z.of_N (N_of_ascii c) in if (n <? 128)%Z then n else (n - 256)%Z.
(** str_less_t on zero terminated strings; [] is the terminator *)
Fixpoint str_less (x y : text) : bool :=
  match x, y with
  | [], [] => false
  | [], d :: _ => (0 <? char_value d)%Z
  | c :: _, [] => (char_value c <? 0)%Z
  | c :: x', d :: y' => if Ascii.eqb c d then str_less x' y' else (char_value c <? char_value d)%Z
  end.

Section External.
Variable value : Type.

(** cell_t: the slots of monitor_m with their connections, and model_monitor_m (None: empty) *)
Record cell := mk_cell { slots : list (nat * nat); model_monitor_m : option nat }.
(** index_m (positions in cell_set_m), cell_set_m, and how many connections were made *)
Record model := mk_model { index_m : list (text * nat); cell_set_m : list cell; made : nat }.
Definition empty_model : model := mk_model [] [] 0.

Definition same_key (x y : text) : bool := (negb (str_less x y) && negb (str_less y x))%bool.
Definition find_cell (name : text) (m : model) : option nat :=
  match find (fun kv => same_key (fst kv) name) (index_m m) with Some (_, i) => Some i | None => None end.

Inductive outcome :=
| Done                                   (* returned, called nobody *)
| Connected (c : nat)                    (* returned the connection *)
| Called (l : list (nat * value))        (* returned after calling these *)
| Counted (n : nat)
| No_cell                                (* std::logic_error: cell does not exist *)
| Bad_call                               (* std::bad_function_call *)
| Wild.                                  (* a pointer to no cell: does not happen *)
Inductive call :=
| AddCell (name : text) | Count (name : text)
| Monitor (name : text) (f : nat) | Disconnect (c : nat)
| Set_ (name : text) (v : value)
| ModelMonitor (name : text) (f : option nat) | ModelSet (name : text) (v : value).

(** external_model.cpp:74-83, then the use of the cell *)
Definition with_cell (name : text) (m : model) (k : nat -> cell -> model * outcome) : model * outcome :=
  match find_cell name m with
  | None => (m, No_cell)
  | Some i => match nth_error (cell_set_m m) i with Some c => k i c | None => (m, Wild) end
  end.
Definition put_cell (i : nat) (c : cell) (m : model) : model := mk_model (index_m m) (upd (cell_set_m m) i c) (made m).
Definition step (m : model) (o : call) : model * outcome :=
  match o with
  | AddCell name =>          (* 27-30: the cell is pushed even when insert finds the name there *)
    (mk_model (if find_cell name m then index_m m else index_m m ++ [(name, length (cell_set_m m))])
              (cell_set_m m ++ [mk_cell [] None]) (made m), Done)
  | Count name => (m, Counted (if find_cell name m then 1 else 0))
  | Monitor name f =>        (* 38-41 *)
    with_cell name m (fun i c =>
      (let m := put_cell i (mk_cell (slots c ++ [(made m, f)]) (model_monitor_m c)) m in
       mk_model (index_m m) (cell_set_m m) (S (made m)), Connected (made m)))
  | Disconnect k =>          (* connection::disconnect *)
    (mk_model (index_m m) (map (fun c => mk_cell (filter (fun s => negb (fst s =? k)) (slots c)) (model_monitor_m c)) (cell_set_m m)) (made m), Done)
  | Set_ name v =>           (* 45-48 *)
    with_cell name m (fun _ c => (m, match model_monitor_m c with Some f => Called [(f, v)] | None => Bad_call end))
  | ModelMonitor name f =>   (* 52-55 *)
    with_cell name m (fun i c => (put_cell i (mk_cell (slots c) f) m, Done))
  | ModelSet name v =>       (* 59-62 *)
    with_cell name m (fun _ c => (m, Called (map (fun s => (snd s, v)) (slots c))))
  end.
Fixpoint run (m : model) (h : list call) : model :=
  match h with [] => m | o :: h' => run (fst (step m o)) h' end.
End External.
Arguments Done {value}. Arguments Connected {value}. Arguments Called {value}. Arguments Counted {value}. Arguments No_cell {value}. Arguments Bad_call {value}. Arguments Wild {value}.
Arguments AddCell {value}. Arguments Count {value}. Arguments Monitor {value}. Arguments Disconnect {value}. Arguments Set_ {value}. Arguments ModelMonitor {value}. Arguments ModelSet {value}.
Arguments step {value}. Arguments run {value}. Arguments with_cell {value}.
