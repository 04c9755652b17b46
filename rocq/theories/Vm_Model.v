(** Model of adobe::virtual_machine_t — /repo/source/virtual_machine.cpp (line numbers below refer
    to it) and the checked cast of /repo/adobe/virtual_machine.hpp:40-60.
    The value stack is a list whose head is the top.  The callbacks a client installs are functions
    of the history of callback invocations so far and of their arguments, and may throw; every
    invocation is recorded in the history, so the model covers stateful callbacks and shows which
    callbacks ran (re-entrant use of the same machine by a callback is not modelled).
    [RUB] is undefined behaviour: reading below the bottom of the stack, a double that does not fit
    the integer type it is cast to, % by zero, a shift by 32 or more.
    A throw leaves the machine with the stack it has at that point.  When dictionary_operator throws
    half way (a key that is not a name) the moved-from values on the stack are shown as they were.
    [size64] says whether std::size_t has 8 bytes. *)
From Coq Require Import String Ascii ZArith Floats.SpecFloat.
From Verif Require Import Prelude Vm_Value Entity_Model.
Local Open Scope Z_scope.

Inductive exn :=
| XType                 (* the checked cast, or bad_cast *)
| XNoOperator           (* static_table lookup failure: std::logic_error *)
| XNoVariableLookup     (* 684 *)
| XNoFunction           (* 246-249 *)
| XKey                  (* get_value: std::out_of_range *)
| XIndex                (* 653 *)
| XParameter            (* "...: parameter error" *)
| XRange                (* std::range_error from entity_unescape *)
| XUser (n : nat).      (* thrown by a callback *)

Inductive event :=
| EvVariable (n : string)
| EvArrayFn (n : string) (args : list value)
| EvDictFn (n : string) (args : list (string * value))
| EvNamedIndex (v : value) (n : string)
| EvNumericIndex (v : value) (n : N)
| EvOverride (op : string) (a b : value).

Definition callback := (list event -> exn + value)%type.   (* given the history *)

(** 339-348: the callbacks of a machine *)
Record env := {
  e_variable : option (string -> callback);
  e_array_fn : option (string -> list value -> callback);
  e_dict_fn : option (string -> list (string * value) -> callback);
  e_named_index : option (value -> string -> callback);
  e_numeric_index : option (value -> N -> callback);
  e_override : string -> option (value -> value -> callback);
  e_localize : string -> string;          (* adobe::localization_invoke, or the identity *)
  e_other_type : value -> string;         (* type_info::name() *)
  e_code_index : list entry;              (* the sorted entity tables, see Entity_Model *)
  e_name_index : list entry;
  e_size64 : bool
}.

Record state := mk_state { stack : list value; history : list event }.
Inductive res := ROk (s : state) | RThrow (x : exn) (s : state) | RUB | RFuel.

Definition push (v : value) (s : state) : state := mk_state (v :: stack s) (history s).
Definition with_stack (l : list value) (s : state) : state := mk_state l (history s).
Definition record (e : event) (s : state) : state := mk_state (stack s) (history s ++ [e]).

Section Machine.
Variable E : env.

(** bytes of a string *)
Definition bytes_of := bs.
Definition string_of (l : list N) : string :=
  fold_right (fun c s => String (ascii_of_N c) s) EmptyString l.

(** *** built-in functions *)
(** 192-197 adobe::min_element with less<double> on cast<double>: std::min_element keeps the first
    smallest; no comparison is made for one element *)
Fixpoint min_from (best : value) (l : list value) : exn + value :=
  match l with
  | [] => inr best
  | v :: l' => match v, best with
               | VNum a, VNum b => min_from (if SFltb a b then v else best) l'
               | _, _ => inl XType
               end
  end.
(** 205-210 std::max_element keeps the first largest *)
Fixpoint max_from (best : value) (l : list value) : exn + value :=
  match l with
  | [] => inr best
  | v :: l' => match v, best with
               | VNum a, VNum b => max_from (if SFltb b a then v else best) l'
               | _, _ => inl XType
               end
  end.
(** 144-222, table 430-437: None = not in the table *)
Definition array_function (n : string) (args : list value) : option (exn + value) :=
  if String.eqb n "typeof" then Some
    match args with [] => inl XParameter | v :: _ => inr (VName (type_name (e_other_type E) v)) end
  else if String.eqb n "min" then Some
    match args with [] => inl XParameter | v :: l => min_from v l end
  else if String.eqb n "max" then Some
    match args with [] => inl XParameter | v :: l => max_from v l end
  else if String.eqb n "round" then Some
    match args with
    | [] => inl XParameter
    | VNum f :: _ => inr (VNum (f_round f))
    | _ => inl XType
    end
  else if String.eqb n "localize" then Some
    match args with
    | [VStr s] => inr (VStr (e_localize E s))
    | [_] => inl XType
    | _ => inl XParameter
    end
  else if String.eqb n "xml_escape" then Some
    match args with
    | [VStr s] => inr (VStr (string_of (entity_escape (e_code_index E) (bytes_of s))))
    | _ => inl XParameter
    end
  else if String.eqb n "xml_unescape" then Some
    match args with
    | [VStr s] => match entity_unescape (e_name_index E) (bytes_of s) with
                  | Unescaped r => inr (VStr (string_of r))
                  | _ => inl XRange
                  end
    | _ => inl XParameter
    end
  else None.
(** dictionary.hpp:33-40 get_value(dict, key, double&): unchanged unless present with the type *)
Definition get_number (d : list (string * value)) (k : string) (dflt : spec_float) : spec_float :=
  match dfind k d with Some (VNum f) => f | _ => dflt end.
(** 230-241, table 440-441 *)
Definition dictionary_function (n : string) (d : list (string * value)) : option (exn + value) :=
  if String.eqb n "scale" then
    Some (inr (VNum (f_add (f_mul (get_number d "m" (f_of_Z 1)) (get_number d "x" (f_of_Z 0)))
                           (get_number d "b" (f_of_Z 0)))))
  else None.

(** *** operators *)
(** 553-567 binary_operator<Op, double>: operand1.assign(op(cast(operand1), cast(operand2))) *)
Definition binary_double (op : spec_float -> spec_float -> value) (s : state) : res :=
  match stack s with
  | VNum b :: VNum a :: l => ROk (with_stack (op a b :: l) s)
  | _ :: _ :: _ => RThrow XType s
  | _ => RUB
  end.
(** 553-567 with Op = std::modulus<int> *)
Definition binary_modulus (s : state) : res :=
  match stack s with
  | VNum b :: VNum a :: l =>
    match f_to_i32 a, f_to_i32 b with
    | Some x, Some y =>
      if (y =? 0) || ((x =? - 2 ^ 31) && (y =? -1)) then RUB
      else ROk (with_stack (VNum (f_of_Z (Z.rem x y)) :: l) s)
    | _, _ => RUB
    end
  | _ :: _ :: _ => RThrow XType s
  | _ => RUB
  end.
(** 553-567 with any_regular_t operands *)
Definition binary_any (op : value -> value -> value) (s : state) : res :=
  match stack s with
  | b :: a :: l => ROk (with_stack (op a b :: l) s)
  | _ => RUB
  end.
(** 594-604 *)
Definition unary_not (s : state) : res :=
  match stack s with
  | VBool b :: l => ROk (with_stack (VBool (negb b) :: l) s)
  | _ :: _ => RThrow XType s
  | [] => RUB
  end.
Definition unary_negate (s : state) : res :=
  match stack s with
  | VNum f :: l => ROk (with_stack (VNum (SFopp f) :: l) s)
  | _ :: _ => RThrow XType s
  | [] => RUB
  end.
(** 326-337 pop_as<uint32_t> *)
Definition pop_u32 (s : state) (k : Z -> state -> res) : res :=
  match stack s with
  | VNum f :: l => match f_to_u32 f with Some z => k z (with_stack l s) | None => RUB end
  | _ :: _ => RThrow XType s
  | [] => RUB
  end.
Definition pop_array (s : state) (k : list value -> state -> res) : res :=
  match stack s with
  | VArr a :: l => k a (with_stack l s)
  | _ :: _ => RThrow XType s
  | [] => RUB
  end.
Definition pop_bool (s : state) (k : bool -> state -> res) : res :=
  match stack s with
  | VBool b :: l => k b (with_stack l s)
  | _ :: _ => RThrow XType s
  | [] => RUB
  end.
(** 724-729; 267-305: None = undefined shift *)
Definition bitwise_binary (op : Z -> Z -> option Z) (s : state) : res :=
  pop_u32 s (fun y s => pop_u32 s (fun x s =>
    match op x y with Some z => ROk (push (VNum (f_of_Z z)) s) | None => RUB end)).
Definition shift_right (x y : Z) : option Z := if y <? 32 then Some (Z.shiftr x y) else None.
Definition shift_left (x y : Z) : option Z :=
  if y <? 32 then Some (Z.shiftl x y mod 2 ^ 32) else None.
(** 733-736, 303-305 *)
Definition bitwise_negate (s : state) : res :=
  pop_u32 s (fun x s => ROk (push (VNum (f_of_Z (2 ^ 32 - 1 - x))) s)).

(** the result of a callback or function replaces the [n] top values *)
Definition replace_top (n : nat) (r : exn + value) (s : state) : res :=
  match r with
  | inl x => RThrow x s
  | inr v => ROk (with_stack (v :: skipn n (stack s)) s)
  end.
(** call a client callback: it sees the history and is recorded *)
Definition call (c : callback) (e : event) (s : state) (k : exn + value -> state -> res) : res :=
  k (c (history s)) (record e s).

(** cast<size_t>: conversion.hpp:21-24 promotes only arithmetic types of 2 to 4 bytes *)
Inductive size_cast := SzOk (n : N) | SzThrow | SzUB.
Definition cast_size (v : value) : size_cast :=
  if e_size64 E then match v with VSize n => SzOk n | _ => SzThrow end
  else match v with
       | VNum f => match f_to_u32 f with Some z => SzOk (Z.to_N z) | None => SzUB end
       | _ => SzThrow
       end.
(** 629-663 *)
Definition index_operator (s : state) : res :=
  match stack s with
  | VName n :: o :: _ =>
    match e_named_index E with
    | Some f => call (f o n) (EvNamedIndex o n) s (replace_top 2)
    | None => match o with
              | VDict d => match dfind n d with
                           | Some v => replace_top 2 (inr v) s
                           | None => RThrow XKey s
                           end
              | _ => RThrow XType s
              end
    end
  | i :: o :: _ =>
    match cast_size i with
    | SzUB => RUB
    | SzThrow => RThrow XType s
    | SzOk n =>
      match e_numeric_index E with
      | Some f => call (f o n) (EvNumericIndex o n) s (replace_top 2)
      | None => match o with
                | VArr l => match nth_error l (N.to_nat n) with
                            | Some v => replace_top 2 (inr v) s
                            | None => RThrow XIndex s
                            end
                | _ => RThrow XType s
                end
      end
    end
  | _ => RUB
  end.
(** 678-687 *)
Definition variable_operator (s : state) : res :=
  match stack s with
  | VName n :: l =>
    let s := with_stack l s in
    match e_variable E with
    | None => RThrow XNoVariableLookup s
    | Some f => call (f n) (EvVariable n) s (replace_top 0)
    end
  | _ :: _ => RThrow XType s
  | [] => RUB
  end.
(** 691-700: value_stack_m.end() - count below the bottom is undefined *)
Definition array_operator (s : state) : res :=
  pop_u32 s (fun count s =>
    let n := Z.to_nat count in
    if (List.length (stack s) <? n)%nat then RUB
    else ROk (with_stack (VArr (rev (firstn n (stack s))) :: skipn n (stack s)) s)).
(** 709-716: the pairs, from the deepest *)
Fixpoint build_dictionary (l : list value) (d : list (string * value)) : option (exn + list (string * value)) :=
  match l with
  | [] => Some (inr d)
  | VName k :: v :: l' => build_dictionary l' (dinsert k v d)
  | VName _ :: [] => None
  | _ :: _ => Some (inl XType)
  end.
(** 704-720: count * 2 is computed in std::uint32_t *)
Definition dictionary_operator (s : state) : res :=
  pop_u32 s (fun count s =>
    let n := Z.to_nat ((count * 2) mod 2 ^ 32) in
    if (List.length (stack s) <? n)%nat then RUB
    else match build_dictionary (rev (firstn n (stack s))) [] with
         | None => RUB
         | Some (inl x) => RThrow x s
         | Some (inr d) => ROk (with_stack (VDict d :: skipn n (stack s)) s)
         end).
(** 743-777 *)
Definition function_operator (s : state) : res :=
  match stack s with
  | VName n :: l =>
    let s := with_stack l s in
    match l with
    | [] => RUB
    | VArr args :: _ =>
      match array_function n args with
      | Some r => replace_top 1 r s
      | None => match e_array_fn E with
                | Some f => call (f n args) (EvArrayFn n args) s (replace_top 1)
                | None => RThrow XNoFunction s
                end
      end
    | VDict args :: _ =>
      match dictionary_function n args with
      | Some r => replace_top 1 r s
      | None => match e_dict_fn E with
                | Some f => call (f n args) (EvDictFn n args) s (replace_top 1)
                | None => RThrow XNoFunction s
                end
      end
    | _ :: _ => RThrow XType s
    end
  | _ :: _ => RThrow XType s
  | [] => RUB
  end.

Section Recursive.
Variable evaluate : list value -> state -> res.   (* the recursive call of evaluate *)

(** 608-617 *)
Definition logical_operator (do_and : bool) (s : state) : res :=
  pop_array s (fun operand_exp s =>
    match stack s with
    | VBool operand1 :: l =>
      if Bool.eqb operand1 do_and then
        match evaluate operand_exp (with_stack l s) with
        | ROk s' => match stack s' with
                    | VBool _ :: _ => ROk s'
                    | _ :: _ => RThrow XType s'
                    | [] => RUB
                    end
        | r => r
        end
      else ROk s
    | _ :: _ => RThrow XType s
    | [] => RUB
    end).
(** 667-674 *)
Definition ifelse_operator (s : state) : res :=
  pop_array s (fun else_exp s => pop_array s (fun then_exp s => pop_bool s (fun predicate s =>
    evaluate (if predicate then then_exp else else_exp) s))).

Definition num_op (f : spec_float -> spec_float -> spec_float) : state -> res :=
  binary_double (fun a b => VNum (f a b)).
Definition cmp_op (f : spec_float -> spec_float -> bool) : state -> res :=
  binary_double (fun a b => VBool (f a b)).

(** 412-428 the operator table, and find_operator 539-543 *)
Definition find_operator (op : string) : option (state -> res) :=
  if String.eqb op ".not" then Some unary_not
  else if String.eqb op ".unary_negate" then Some unary_negate
  else if String.eqb op ".add" then Some (num_op f_add)
  else if String.eqb op ".subtract" then Some (num_op f_sub)
  else if String.eqb op ".multiply" then Some (num_op f_mul)
  else if String.eqb op ".modulus" then Some binary_modulus
  else if String.eqb op ".divide" then Some (num_op f_div)
  else if String.eqb op ".less" then Some (cmp_op SFltb)
  else if String.eqb op ".greater" then Some (cmp_op (fun a b => SFltb b a))
  else if String.eqb op ".less_equal" then Some (cmp_op SFleb)
  else if String.eqb op ".greater_equal" then Some (cmp_op (fun a b => SFleb b a))
  else if String.eqb op ".equal" then Some (binary_any (fun a b => VBool (veqb a b)))
  else if String.eqb op ".not_equal" then Some (binary_any (fun a b => VBool (negb (veqb a b))))
  else if String.eqb op ".ifelse" then Some ifelse_operator
  else if String.eqb op ".index" then Some index_operator
  else if String.eqb op ".function" then Some function_operator
  else if String.eqb op ".array" then Some array_operator
  else if String.eqb op ".dictionary" then Some dictionary_operator
  else if String.eqb op ".variable" then Some variable_operator
  else if String.eqb op ".and" then Some (logical_operator true)
  else if String.eqb op ".or" then Some (logical_operator false)
  else if String.eqb op ".bitwise_and" then Some (bitwise_binary (fun x y => Some (Z.land x y)))
  else if String.eqb op ".bitwise_xor" then Some (bitwise_binary (fun x y => Some (Z.lxor x y)))
  else if String.eqb op ".bitwise_or" then Some (bitwise_binary (fun x y => Some (Z.lor x y)))
  else if String.eqb op ".bitwise_rshift" then Some (bitwise_binary shift_right)
  else if String.eqb op ".bitwise_lshift" then Some (bitwise_binary shift_left)
  else if String.eqb op ".bitwise_negate" then Some bitwise_negate
  else None.

(** 513: a name whose first character is a dot *)
Definition is_operator (e : value) : option string :=
  match e with
  | VName (String c n as op) => if Ascii.eqb c "." then Some (String c n) else None
  | _ => None
  end.
(** 571-590 operator_override, 508-521 the body of the loop *)
Definition step (e : value) (s : state) : res :=
  match is_operator e with
  | None => ROk (push e s)
  | Some op =>
    match e_override E op with
    | Some f =>
      match stack s with
      | b :: a :: _ => call (f a b) (EvOverride op a b) s (replace_top 2)
      | _ => RUB
      end
    | None =>
      match find_operator op with
      | Some f => f s
      | None => RThrow XNoOperator s
      end
    end
  end.
End Recursive.

(** 508-521 evaluate, with fuel for the recursion through .and, .or and .ifelse *)
Fixpoint evaluate (fuel : nat) (expression : list value) (s : state) : res :=
  match fuel with
  | O => RFuel
  | S fuel =>
    match expression with
    | [] => ROk s
    | e :: rest => match step (evaluate fuel) e s with
                   | ROk s' => evaluate fuel rest s'
                   | r => r
                   end
    end
  end.
End Machine.
