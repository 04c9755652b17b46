(** Values of the expression language: what an adobe::any_regular_t holds when the virtual machine
    runs (/repo/adobe/any_regular.hpp:420-740, /repo/adobe/conversion.hpp:20-32).
    Numbers are IEEE-754 binary64 values, modelled by the standard library's executable
    specification Coq.Floats.SpecFloat (no axioms).  Names and strings are byte strings.  A dictionary
    (adobe::closed_hash_map) is an association list with distinct keys; its iteration order is not
    observable here.  A value of any other C++ type is [VOther k].  [VSize n] is a std::size_t, which
    conversion.hpp:21-24 does not promote to double when it has 8 bytes. *)
From Coq Require Import String ZArith Floats.SpecFloat.
From Verif Require Import Prelude.
Local Open Scope Z_scope.

Inductive value :=
| VNum (f : spec_float)
| VBool (b : bool)
| VStr (s : string)
| VName (n : string)
| VEmpty
| VArr (l : list value)
| VDict (d : list (string * value))
| VSize (n : N)
| VOther (k : nat).

(** *** binary64 *)
Definition prec64 : Z := 53.
Definition emax64 : Z := 1024.
Definition f_add := SFadd prec64 emax64.
Definition f_sub := SFsub prec64 emax64.
Definition f_mul := SFmul prec64 emax64.
Definition f_div := SFdiv prec64 emax64.
(** the double nearest to an integer (static_cast from an integer type) *)
Definition f_of_Z (z : Z) : spec_float := binary_normalize prec64 emax64 z 0 false.
(** the value rounded towards zero; None for infinities and NaN *)
Definition f_trunc (f : spec_float) : option Z :=
  match f with
  | S754_zero _ => Some 0
  | S754_finite s m e =>
    let q := if 0 <=? e then Zpos m * 2 ^ e else Zpos m / 2 ^ (- e) in
    Some (if s then - q else q)
  | _ => None
  end.
(** static_cast<std::uint32_t>(double), static_cast<int>(double): undefined (None) when the
    truncated value does not fit *)
Definition f_to_u32 (f : spec_float) : option Z :=
  match f_trunc f with Some z => if (0 <=? z) && (z <? 2 ^ 32) then Some z else None | None => None end.
Definition f_to_i32 (f : spec_float) : option Z :=
  match f_trunc f with
  | Some z => if (- 2 ^ 31 <=? z) && (z <? 2 ^ 31) then Some z else None
  | None => None
  end.
(** std::round: to the nearest integer, halves away from zero, keeping the sign of zero *)
Definition f_round (f : spec_float) : spec_float :=
  match f with
  | S754_finite s m e =>
    if 0 <=? e then f else
    let d := 2 ^ (- e) in
    let q := Zpos m / d + (if d <=? 2 * (Zpos m mod d) then 1 else 0) in
    binary_normalize prec64 emax64 (if s then - q else q) 0 s
  | _ => f
  end.

(** *** dictionaries: closed_hash_map find and insert (insert replaces the value of a key that is
    present: adobe/closed_hash.hpp insert, proved as C12) *)
Fixpoint dfind (k : string) (d : list (string * value)) : option value :=
  match d with
  | [] => None
  | (k', v) :: d' => if String.eqb k' k then Some v else dfind k d'
  end.
Fixpoint dinsert (k : string) (v : value) (d : list (string * value)) : list (string * value) :=
  match d with
  | [] => [(k, v)]
  | (k', v') :: d' => if String.eqb k' k then (k, v) :: d' else (k', v') :: dinsert k v d'
  end.

(** *** operator== : any_regular.hpp:640-642 (same type and equal objects); for arrays
    std::vector ==, for dictionaries closed_hash.hpp:513-522 *)
Fixpoint veqb (x y : value) {struct x} : bool :=
  match x, y with
  | VNum a, VNum b => SFeqb a b
  | VBool a, VBool b => Bool.eqb a b
  | VStr a, VStr b => String.eqb a b
  | VName a, VName b => String.eqb a b
  | VEmpty, VEmpty => true
  | VArr a, VArr b =>
    (fix go (a b : list value) : bool :=
       match a, b with
       | [], [] => true
       | v :: a', w :: b' => veqb v w && go a' b'
       | _, _ => false
       end) a b
  | VDict a, VDict b =>
    Nat.eqb (List.length a) (List.length b) &&
    (fix go (a : list (string * value)) : bool :=
       match a with
       | [] => true
       | (k, v) :: a' => match dfind k b with Some w => veqb v w && go a' | None => false end
       end) a
  | VSize a, VSize b => N.eqb a b
  | VOther a, VOther b => Nat.eqb a b
  | _, _ => false
  end.

(** virtual_machine.cpp:108-133 known_type_name / type_name; for other types type_info::name() is
    implementation defined *)
Definition type_name (other : value -> string) (v : value) : string :=
  match v with
  | VNum _ => "number" | VBool _ => "boolean" | VEmpty => "empty" | VStr _ => "string"
  | VArr _ => "array" | VDict _ => "dictionary" | VName _ => "name"
  | VSize _ | VOther _ => other v
  end.

(** *** induction over nested values *)
Section value_ind'.
Variable P : value -> Prop.
Hypothesis Hnum : forall f, P (VNum f).
Hypothesis Hbool : forall b, P (VBool b).
Hypothesis Hstr : forall s, P (VStr s).
Hypothesis Hname : forall s, P (VName s).
Hypothesis Hempty : P VEmpty.
Hypothesis Harr : forall l, Forall P l -> P (VArr l).
Hypothesis Hdict : forall d, Forall (fun e => P (snd e)) d -> P (VDict d).
Hypothesis Hsize : forall n, P (VSize n).
Hypothesis Hother : forall k, P (VOther k).
Fixpoint value_ind' (v : value) : P v :=
  match v with
  | VNum f => Hnum f | VBool b => Hbool b | VStr s => Hstr s | VName s => Hname s
  | VEmpty => Hempty
  | VArr l => Harr l ((fix go l : Forall P l :=
      match l with [] => Forall_nil _ | v :: l' => Forall_cons _ (value_ind' v) (go l') end) l)
  | VDict d => Hdict d ((fix go d : Forall (fun e => P (snd e)) d :=
      match d with [] => Forall_nil _ | e :: d' => Forall_cons e (value_ind' (snd e)) (go d') end) d)
  | VSize n => Hsize n | VOther k => Hother k
  end.
End value_ind'.
