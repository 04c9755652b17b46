(** Specification of the expression language: abstract syntax, meaning, and the array an expression
    is compiled to (documented in /repo/adobe/implementation/expression_parser.hpp and
    /repo/source/expression_parser.cpp; this file does not use the machine's [evaluate], [step]
    or operators). *)
From Coq Require Import String Ascii ZArith Floats.SpecFloat.
From Verif Require Import Prelude Vm_Value Vm_Model.
Local Open Scope Z_scope.

(** *** Abstract syntax *)
Inductive unop := UNot | UNegate | UPlus | UComplement.
Inductive binop :=
| BAdd | BSub | BMul | BDiv | BMod | BLess | BGreater | BLessEq | BGreaterEq | BEq | BNotEq
| BBitAnd | BBitXor | BBitOr | BShiftL | BShiftR.

Inductive expr :=
| ELit (v : value)                             (* number, boolean, string, @name, empty *)
| EArray (items : list expr)                   (* [a, b, ...] *)
| EDict (items : list (string * expr))         (* {k: a, ...} *)
| EVar (n : string)
| ECall (f : string) (args : list expr)                   (* f(a, b, ...) *)
| ECallNamed (f : string) (args : list (string * expr))   (* f(k: a, ...) *)
| EUn (op : unop) (e : expr)
| EBin (op : binop) (a b : expr)
| EAnd (a b : expr)
| EOr (a b : expr)
| ECond (c a b : expr)                         (* c ? a : b *)
| EIndex (a i : expr)                          (* a[i] *)
| EDot (a : expr) (n : string).                (* a.n *)

(** *** Meaning of the operators *)
Inductive outcome := Val (v : value) | Exn (x : exn) | Undef.

Definition un_sem (op : unop) (v : value) : outcome :=
  match op, v with
  | UPlus, _ => Val v
  | UNot, VBool b => Val (VBool (negb b))
  | UNegate, VNum f => Val (VNum (SFopp f))
  | UComplement, VNum f =>
      match f_to_u32 f with
      | Some x => Val (VNum (f_of_Z (Z.lnot x mod 2 ^ 32)))
      | None => Undef
      end
  | _, _ => Exn XType
  end.

(** numbers *)
Definition arith (f : spec_float -> spec_float -> spec_float) (a b : value) : outcome :=
  match a, b with VNum x, VNum y => Val (VNum (f x y)) | _, _ => Exn XType end.
Definition compare (f : spec_float -> spec_float -> bool) (a b : value) : outcome :=
  match a, b with VNum x, VNum y => Val (VBool (f x y)) | _, _ => Exn XType end.
(** C++ int % int: the sign of the dividend; undefined for a zero divisor, for INT_MIN % -1 and when
    an operand is not an int *)
Definition modulus (a b : value) : outcome :=
  match a, b with
  | VNum x, VNum y =>
    match f_trunc x, f_trunc y with
    | Some i, Some j =>
      if negb ((- 2 ^ 31 <=? i) && (i <? 2 ^ 31) && (- 2 ^ 31 <=? j) && (j <? 2 ^ 31)) then Undef
      else if (j =? 0) || ((i =? - 2 ^ 31) && (j =? -1)) then Undef
      else Val (VNum (f_of_Z (Z.sgn i * (Z.abs i mod Z.abs j))))
    | _, _ => Undef
    end
  | _, _ => Exn XType
  end.
(** 32-bit unsigned operations; the right operand is converted first *)
Definition bits (f : Z -> Z -> option Z) (a b : value) : outcome :=
  match b with
  | VNum y =>
    match f_to_u32 y with
    | None => Undef
    | Some j =>
      match a with
      | VNum x =>
        match f_to_u32 x with
        | None => Undef
        | Some i => match f i j with Some z => Val (VNum (f_of_Z z)) | None => Undef end
        end
      | _ => Exn XType
      end
    end
  | _ => Exn XType
  end.
Definition bin_sem (op : binop) (a b : value) : outcome :=
  match op with
  | BAdd => arith f_add a b
  | BSub => arith f_sub a b
  | BMul => arith f_mul a b
  | BDiv => arith f_div a b
  | BMod => modulus a b
  | BLess => compare SFltb a b
  | BGreater => compare (fun x y => SFltb y x) a b
  | BLessEq => compare SFleb a b
  | BGreaterEq => compare (fun x y => SFleb y x) a b
  | BEq => Val (VBool (veqb a b))
  | BNotEq => Val (VBool (negb (veqb a b)))
  | BBitAnd => bits (fun i j => Some (Z.land i j)) a b
  | BBitXor => bits (fun i j => Some (Z.lxor i j)) a b
  | BBitOr => bits (fun i j => Some (Z.lor i j)) a b
  | BShiftL => bits (fun i j => if j <? 32 then Some ((i * 2 ^ j) mod 2 ^ 32) else None) a b
  | BShiftR => bits (fun i j => if j <? 32 then Some (i / 2 ^ j) else None) a b
  end.

(** names of the operators, /repo/adobe/implementation/token.hpp:27-57 *)
Definition bin_name (op : binop) : string :=
  match op with
  | BAdd => ".add" | BSub => ".subtract" | BMul => ".multiply" | BDiv => ".divide"
  | BMod => ".modulus" | BLess => ".less" | BGreater => ".greater" | BLessEq => ".less_equal"
  | BGreaterEq => ".greater_equal" | BEq => ".equal" | BNotEq => ".not_equal"
  | BBitAnd => ".bitwise_and" | BBitXor => ".bitwise_xor" | BBitOr => ".bitwise_or"
  | BShiftL => ".bitwise_lshift" | BShiftR => ".bitwise_rshift"
  end.
Definition un_name (op : unop) : option string :=
  match op with
  | UNot => Some ".not" | UNegate => Some ".unary_negate" | UPlus => None
  | UComplement => Some ".bitwise_negate"
  end%string.

(** *** Evaluation: operands from left to right; callbacks see and extend the history *)
Definition result := (outcome * list event)%type.
Definition bind (m : result) (k : value -> list event -> result) : result :=
  match m with (Val v, h) => k v h | r => r end.
Definition invoke (c : callback) (e : event) (h : list event) : result :=
  (match c h with inr v => Val v | inl x => Exn x end, h ++ [e]).
Definition pure (r : exn + value) (h : list event) : result :=
  (match r with inr v => Val v | inl x => Exn x end, h).

(** a list of results in order, or the first failure *)
Inductive outcomes := Vals (l : list value) | Fails (o : outcome).

Section Meaning.
Variable E : env.

(** The number of the element a value selects.  Where std::size_t has 4 bytes this is the number
    rounded towards zero (undefined if it does not fit).  Where it has 8 bytes no number converts to
    it: the code's conversion covers the arithmetic types of 2 to 4 bytes (C55 is about this). *)
Inductive selector := Element (n : N) | NoElement | UndefElement.
Definition element (i : value) : selector :=
  match i with
  | VSize n => if e_size64 E then Element n else NoElement
  | VNum f =>
    if e_size64 E then NoElement
    else match f_trunc f with
         | Some z => if (0 <=? z) && (z <? 2 ^ 32) then Element (Z.to_N z) else UndefElement
         | None => UndefElement
         end
  | _ => NoElement
  end.
(** a[i] for a number or name i *)
Definition index_sem (a i : value) (h : list event) : result :=
  match i with
  | VName n =>
    match e_named_index E with
    | Some f => invoke (f a n) (EvNamedIndex a n) h
    | None => (match a with
               | VDict d => match dfind n d with Some v => Val v | None => Exn XKey end
               | _ => Exn XType
               end, h)
    end
  | _ =>
    match element i with
    | UndefElement => (Undef, h)
    | NoElement => (Exn XType, h)
    | Element n =>
      match e_numeric_index E with
      | Some f => invoke (f a n) (EvNumericIndex a n) h
      | None => (match a with
                 | VArr l => match nth_error l (N.to_nat n) with Some v => Val v | None => Exn XIndex end
                 | _ => Exn XType
                 end, h)
      end
    end
  end.
Definition call_sem (f : string) (args : list value) (h : list event) : result :=
  match array_function E f args with
  | Some r => pure r h
  | None => match e_array_fn E with
            | Some g => invoke (g f args) (EvArrayFn f args) h
            | None => (Exn XNoFunction, h)
            end
  end.
Definition call_named_sem (f : string) (args : list (string * value)) (h : list event) : result :=
  match dictionary_function f args with
  | Some r => pure r h
  | None => match e_dict_fn E with
            | Some g => invoke (g f args) (EvDictFn f args) h
            | None => (Exn XNoFunction, h)
            end
  end.

Fixpoint eval (e : expr) (h : list event) : result :=
  let eval_list := fix go (l : list expr) (h : list event) : outcomes * list event :=
    match l with
    | [] => (Vals [], h)
    | x :: l' => match eval x h with
                 | (Val v, h') => match go l' h' with
                                  | (Vals vs, h'') => (Vals (v :: vs), h'')
                                  | r => r
                                  end
                 | (o, h') => (Fails o, h')
                 end
    end in
  let eval_named := fix go (l : list (string * expr)) (h : list event) : outcomes * list event :=
    match l with
    | [] => (Vals [], h)
    | (_, x) :: l' => match eval x h with
                      | (Val v, h') => match go l' h' with
                                       | (Vals vs, h'') => (Vals (v :: vs), h'')
                                       | r => r
                                       end
                      | (o, h') => (Fails o, h')
                      end
    end in
  (* the dictionary of the pairs: a later pair replaces an earlier one with the same key *)
  let dict := fun (keys : list (string * expr)) (vs : list value) =>
    fold_left (fun d kv => dinsert (fst kv) (snd kv) d) (combine (map fst keys) vs) [] in
  match e with
  | ELit v => (Val v, h)
  | EVar n => match e_variable E with
              | Some f => invoke (f n) (EvVariable n) h
              | None => (Exn XNoVariableLookup, h)
              end
  | EArray l => match eval_list l h with
                | (Vals vs, h') => (Val (VArr vs), h')
                | (Fails o, h') => (o, h')
                end
  | EDict l => match eval_named l h with
               | (Vals vs, h') => (Val (VDict (dict l vs)), h')
               | (Fails o, h') => (o, h')
               end
  | ECall f l => match eval_list l h with
                 | (Vals vs, h') => call_sem f vs h'
                 | (Fails o, h') => (o, h')
                 end
  | ECallNamed f l => match eval_named l h with
                      | (Vals vs, h') => call_named_sem f (dict l vs) h'
                      | (Fails o, h') => (o, h')
                      end
  | EUn op a => bind (eval a h) (fun v h => (un_sem op v, h))
  | EBin op a b =>
    bind (eval a h) (fun v h => bind (eval b h) (fun w h =>
      match e_override E (bin_name op) with
      | Some f => invoke (f v w) (EvOverride (bin_name op) v w) h
      | None => (bin_sem op v w, h)
      end))
  | EAnd a b =>
    bind (eval a h) (fun v h =>
      match v with
      | VBool true => bind (eval b h) (fun w h => match w with VBool _ => (Val w, h) | _ => (Exn XType, h) end)
      | VBool false => (Val (VBool false), h)
      | _ => (Exn XType, h)
      end)
  | EOr a b =>
    bind (eval a h) (fun v h =>
      match v with
      | VBool false => bind (eval b h) (fun w h => match w with VBool _ => (Val w, h) | _ => (Exn XType, h) end)
      | VBool true => (Val (VBool true), h)
      | _ => (Exn XType, h)
      end)
  | ECond c a b =>
    bind (eval c h) (fun v h =>
      match v with
      | VBool true => eval a h
      | VBool false => eval b h
      | _ => (Exn XType, h)
      end)
  | EIndex a i => bind (eval a h) (fun v h => bind (eval i h) (fun w h => index_sem v w h))
  | EDot a n => bind (eval a h) (fun v h => index_sem v (VName n) h)
  end.
End Meaning.

(** *** The array an expression compiles to: operands, then the operator's name; the operands that
    may not be evaluated are nested arrays *)
Fixpoint compile (e : expr) : list value :=
  let items := fix go (l : list expr) : list value :=
    match l with [] => [] | x :: l' => compile x ++ go l' end in
  let named := fix go (l : list (string * expr)) : list value :=
    match l with [] => [] | (k, x) :: l' => VName k :: compile x ++ go l' end in
  let count := fun n : nat => VNum (f_of_Z (Z.of_nat n)) in
  let array := fun l : list expr =>
    match l with [] => [VArr []] | _ => items l ++ [count (List.length l); VName ".array"] end in
  let dict := fun l : list (string * expr) =>
    match l with [] => [VDict []] | _ => named l ++ [count (List.length l); VName ".dictionary"] end in
  match e with
  | ELit v => [v]
  | EVar n => [VName n; VName ".variable"]
  | EArray l => array l
  | EDict l => dict l
  | ECall f l => array l ++ [VName f; VName ".function"]
  | ECallNamed f l => dict l ++ [VName f; VName ".function"]
  | EUn op a => compile a ++ match un_name op with Some n => [VName n] | None => [] end
  | EBin op a b => compile a ++ compile b ++ [VName (bin_name op)]
  | EAnd a b => compile a ++ [VArr (compile b); VName ".and"]
  | EOr a b => compile a ++ [VArr (compile b); VName ".or"]
  | ECond c a b => compile c ++ [VArr (compile a); VArr (compile b); VName ".ifelse"]
  | EIndex a i => compile a ++ compile i ++ [VName ".index"]
  | EDot a n => compile a ++ [VName n; VName ".index"]
  end.

(** *** Well-formed expressions: what the grammar can produce.  No literal name, variable, function,
    key or field begins with a dot, and no argument list has 2^31 or more items. *)
Definition plain_name (n : string) : Prop :=
  match n with String c _ => c <> "."%char | EmptyString => True end.
Definition plain_value (v : value) : Prop := match v with VName n => plain_name n | _ => True end.
Definition short {A} (l : list A) : Prop := Z.of_nat (List.length l) < 2 ^ 31.

Fixpoint wf (e : expr) : Prop :=
  let all := fix go (l : list expr) : Prop := match l with [] => True | x :: l' => wf x /\ go l' end in
  let named := fix go (l : list (string * expr)) : Prop :=
    match l with [] => True | (k, x) :: l' => plain_name k /\ wf x /\ go l' end in
  match e with
  | ELit v => plain_value v
  | EVar n => plain_name n
  | EArray l => all l /\ short l
  | EDict l => named l /\ short l
  | ECall f l => plain_name f /\ all l /\ short l
  | ECallNamed f l => plain_name f /\ named l /\ short l
  | EUn _ a => wf a
  | EBin _ a b | EAnd a b | EOr a b => wf a /\ wf b
  | ECond c a b => wf c /\ wf a /\ wf b
  | EIndex a i => wf a /\ wf i
  | EDot a n => wf a /\ plain_name n
  end.

(** overrides are installed for binary operators only *)
Definition overrides_binary (E : env) : Prop :=
  forall n, e_override E n <> None -> exists op, n = bin_name op.

(** What the machine does with the whole array [p] from the state [s], whatever the fuel (if enough) *)
Definition runs (E : env) (p : list value) (s : state) (r : res) : Prop :=
  r <> RFuel /\ exists n, forall fuel, (n <= fuel)%nat -> evaluate E fuel p s = r.
