(** Model of segmented_iterator<I> — /repo/adobe/iterator.hpp:126-206.
    The top sequence is a list of segments, bucket_m an index into it and current_m an index into the
    current segment; end_m is the end of the top sequence.  [None] is undefined behaviour
    (dereferencing or advancing an end iterator, decrementing a begin iterator).
    Not modelled: operator= and swap, which name a member that does not exist (curent_m, line 160) and
    so cannot be instantiated. *)
From Verif Require Import Prelude.

Section Model.
Context {A : Type}.
Variable top : list (list A).

Record iter := mk_iter { bucket : nat; current : nat }.

(** 137: while (bucket_m != end_m && empty( *bucket_m)) ++bucket_m *)
Fixpoint skip_empty (rest : list (list A)) (b : nat) : nat :=
  match rest with [] :: rest' => skip_empty rest' (S b) | _ => b end.
(** 136-142 segmented_iterator(first, last), first the b-th segment; [g] is whatever an iterator that was
    never set holds *)
Definition make (b g : nat) : iter :=
  let b' := skip_empty (skipn b top) b in
  if b' =? length top then mk_iter b' g else mk_iter b' 0.
(** the ends of make_segmented_range, 208-214 *)
Definition first (g : nat) : iter := make 0 g.
Definition last (g : nat) : iter := make (length top) g.

(** 172 dereference *)
Definition deref (it : iter) : option A :=
  match nth_error top (bucket it) with Some seg => nth_error seg (current it) | None => None end.
(** 174-182 equal *)
Definition equal (x y : iter) : bool :=
  (bucket x =? bucket y) && ((bucket x =? length top) || (current x =? current y)).

(** 187-192 the loop of increment, [rest] being the segments from bucket b *)
Fixpoint settle (rest : list (list A)) (b c : nat) : option iter :=
  match rest with
  | [] => None
  | seg :: rest' =>
    if c =? length seg then
      match rest' with
      | [] => Some (mk_iter (S b) c)
      | _ => settle rest' (S b) 0
      end
    else Some (mk_iter b c)
  end.
(** 184-193 increment *)
Definition increment (it : iter) : option iter :=
  match nth_error top (bucket it) with
  | None => None
  | Some seg => if current it <? length seg then settle (skipn (bucket it) top) (bucket it) (S (current it)) else None
  end.
(** 195-198 the loop of decrement: the segment to end in *)
Fixpoint unsettle (b c : nat) : option iter :=
  if (b =? length top) || (c =? 0) then
    match b with
    | O => None
    | S b' => match nth_error top b' with Some seg => unsettle b' (length seg) | None => None end
    end
  else Some (mk_iter b c).
(** 194-201 decrement *)
Definition decrement (it : iter) : option iter :=
  match unsettle (bucket it) (current it) with
  | Some it' => Some (mk_iter (bucket it') (current it' - 1))
  | None => None
  end.
End Model.
