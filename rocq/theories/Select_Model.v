(** Model of /repo/adobe/algorithm/select.hpp:45-137, minmax.hpp:66-149, median.hpp:38-70,
    clamp.hpp:40-121, pin.hpp. The functions return references, so [T] should be read as "objects":
    what is returned is one of the arguments itself, and [r] compares the values of two objects. The
    const and non-const overloads have the same bodies; the overloads without [r] pass less(). The
    asserts on the argument order are preconditions, not modelled. *)
From Verif Require Import Prelude.

Section Select.
Context {T : Type} (r : T -> T -> bool).
(** select.hpp:50-52, 59-61 *)
Definition select_0_2 (a b : T) : T := if r b a then b else a.
(** select.hpp:68-70, 77-79 *)
Definition select_1_2 (a b : T) : T := if r b a then a else b.
(** select.hpp:86-89, 96-99 *)
Definition select_1_3_ac (a b c : T) : T := if r b a then a else select_0_2 b c.
(** select.hpp:106-109, 116-119 *)
Definition select_1_3_ab (a b c : T) : T := if r c b then select_1_2 a c else b.
(** select.hpp:126-128, 135-137 *)
Definition select_1_3 (a b c : T) : T := if r b a then select_1_3_ab b a c else select_1_3_ab a b c.
(** minmax.hpp:69-104 and 113-149 *)
Definition min (a b : T) : T := select_0_2 a b.
Definition max (a b : T) : T := select_1_2 a b.
(** median.hpp:41-70 *)
Definition median (a b c : T) : T := select_1_3 a b c.
(** clamp.hpp:46-81 and 89-121; pin.hpp:48-95 only reorders the parameters *)
Definition clamp (x lo hi : T) : T := select_1_3_ac lo x hi.
Definition clamp_unordered (x lo hi : T) : T := select_1_3 lo x hi.
Definition pin (lo x hi : T) : T := clamp x lo hi.
Definition pin_safe (lo x hi : T) : T := clamp_unordered x lo hi.
End Select.
