(** Model of dancing_links_t: /repo/adobe/dancing_links.hpp and /repo/adobe/implementation/toroid.hpp (byte_toroid_t).
    Nodes are addresses and every link is an array cell: the model reads and writes the same links in the same order.
    Addresses: 0 is header_m, then the column headers, the row headers, then the nodes in the order in which they are made
    (the blocks of 512 nodes only keep addresses stable, and are not modelled; nor is covered_m, which is for printing).
    A loop that would not end, and a write past output_m, give None.  size_t is Z.  A char is Z (signed). *)
From Verif Require Import Prelude.
From Coq Require Import List Arith ZArith Lia Bool.
Import ListNotations.

Fixpoint set_nth {A} (n : nat) (x : A) (l : list A) : list A :=
  match l, n with [], _ => [] | _ :: l', O => x :: l' | y :: l', S n' => y :: set_nth n' x l' end.
Definition rd (l : list nat) (a : nat) : nat := nth a l 0.
Definition rdz (l : list Z) (a : nat) : Z := nth a l 0%Z.

(** toroid.hpp:31-47, 320-324: left_m, right_m, up_m, down_m, column_m, row_m, color_m, size_m of every node; the number of columns *)
Record mem := mk_mem { ML : list nat; MR : list nat; MU : list nat; MD : list nat; MC : list nat; MW : list nat; MK : list Z; MZ : list Z; ncols : nat }.
Definition left_of (m : mem) (a : nat) := rd (ML m) a.      (* 286-311 *)
Definition right_of (m : mem) (a : nat) := rd (MR m) a.
Definition up_of (m : mem) (a : nat) := rd (MU m) a.
Definition down_of (m : mem) (a : nat) := rd (MD m) a.
Definition column_of (m : mem) (a : nat) := rd (MC m) a.
Definition color (m : mem) (a : nat) : Z := rdz (MK m) a.
Definition size (m : mem) (a : nat) : Z := rdz (MZ m) a.
Definition set_left a v m := mk_mem (set_nth a v (ML m)) (MR m) (MU m) (MD m) (MC m) (MW m) (MK m) (MZ m) (ncols m).
Definition set_right a v m := mk_mem (ML m) (set_nth a v (MR m)) (MU m) (MD m) (MC m) (MW m) (MK m) (MZ m) (ncols m).
Definition set_up a v m := mk_mem (ML m) (MR m) (set_nth a v (MU m)) (MD m) (MC m) (MW m) (MK m) (MZ m) (ncols m).
Definition set_down a v m := mk_mem (ML m) (MR m) (MU m) (set_nth a v (MD m)) (MC m) (MW m) (MK m) (MZ m) (ncols m).
Definition set_color a v m := mk_mem (ML m) (MR m) (MU m) (MD m) (MC m) (MW m) (set_nth a v (MK m)) (MZ m) (ncols m).
Definition set_size a v m := mk_mem (ML m) (MR m) (MU m) (MD m) (MC m) (MW m) (MK m) (set_nth a v (MZ m)) (ncols m).

Definition col_addr (c : nat) : nat := S c.
Definition row_addr (cols r : nat) : nat := S (cols + r).

(** toroid.hpp:63-105 the constructor (both counts are at least 1) *)
Definition new_toroid (rows cols : nat) : mem :=
  mk_mem (cols :: map (fun c => c) (seq 0 cols) ++ map (row_addr cols) (seq 0 rows))                                      (* 72, 88, 96, 102 *)
         (1 :: map (fun c => if S c =? cols then 0 else S (S c)) (seq 0 cols) ++ map (row_addr cols) (seq 0 rows))        (* 73, 91, 97, 101 *)
         (cols + rows :: map col_addr (seq 0 cols) ++ map (fun _ => 0) (seq 0 rows))                                      (* 84, 100 *)
         (S cols :: map col_addr (seq 0 cols) ++ map (fun _ => 0) (seq 0 rows))                                           (* 85, 99 *)
         (repeat 0 (S (cols + rows))) (repeat 0 (S (cols + rows))) (repeat 0%Z (S (cols + rows))) (repeat 0%Z (S (cols + rows))) cols.
(** 107-147 *)
Definition set (row col : nat) (k : Z) (m : mem) : mem :=
  let rh := row_addr (ncols m) row in let ch := col_addr col in let x := length (MC m) in
  let m := mk_mem (ML m ++ [left_of m rh]) (MR m ++ [rh]) (MU m ++ [up_of m ch]) (MD m ++ [ch]) (MC m ++ [ch]) (MW m ++ [rh]) (MK m ++ [k]) (MZ m ++ [0%Z]) (ncols m) in
  let m := set_right (left_of m rh) x m in
  let m := set_left rh x m in
  let m := set_down (up_of m ch) x m in
  let m := set_up ch x m in
  set_size ch (size m ch + 1)%Z m.
(** 149-168 *)
Definition set_secondary_column (col : nat) (m : mem) : mem :=
  let c := col_addr col in
  let m := set_right (left_of m c) (right_of m c) m in
  let m := set_left (right_of m c) (left_of m c) m in
  let m := set_right c c m in
  set_left c c m.
(** 170-184 *)
Definition finalize_row (h : nat) (m : mem) : mem :=
  let m := set_right (left_of m h) (right_of m h) m in
  set_left (right_of m h) (left_of m h) m.
Definition finalize (rows : nat) (m : mem) : mem := fold_left (fun m r => finalize_row (row_addr (ncols m) r) m) (seq 0 rows) m.

(** for (i = first; i != stop; i = next(i)) body(i) *)
Fixpoint loop (fuel : nat) (next : mem -> nat -> nat) (stop : nat) (body : nat -> mem -> option mem) (i : nat) (m : mem) : option mem :=
  match fuel with
  | O => None
  | S f => if i =? stop then Some m else match body i m with Some m' => loop f next stop body (next m' i) m' | None => None end
  end.
Definition many (m : mem) : nat := S (length (MC m)).

(** 193-201: one node out of its column *)
Definition hide1 (j : nat) (m : mem) : mem :=
  let m := set_up (down_of m j) (up_of m j) m in
  let m := set_down (up_of m j) (down_of m j) m in
  set_size (column_of m j) (size m (column_of m j) - 1)%Z m.
(** 213-221 *)
Definition show1 (j : nat) (m : mem) : mem :=
  let m := set_size (column_of m j) (size m (column_of m j) + 1)%Z m in
  let m := set_up (down_of m j) j m in
  set_down (up_of m j) j m.
Definition hide_row (i : nat) (m : mem) : option mem := loop (many m) right_of i (fun j m => Some (hide1 j m)) (right_of m i) m.
Definition show_row (i : nat) (m : mem) : option mem := loop (many m) left_of i (fun j m => Some (show1 j m)) (left_of m i) m.
(** 186-205 *)
Definition cover_column (c : nat) (m : mem) : option mem :=
  let m := set_left (right_of m c) (left_of m c) m in
  let m := set_right (left_of m c) (right_of m c) m in
  loop (many m) down_of c hide_row (down_of m c) m.
(** 207-226 *)
Definition uncover_column (c : nat) (m : mem) : option mem :=
  match loop (many m) up_of c show_row (up_of m c) m with
  | Some m => let m := set_left (right_of m c) c m in Some (set_right (left_of m c) c m)
  | None => None
  end.
(** 228-247; hiding a row there writes the two links in the other order (237-239) *)
Definition hide1' (j : nat) (m : mem) : mem :=
  let m := set_down (up_of m j) (down_of m j) m in
  let m := set_up (down_of m j) (up_of m j) m in
  set_size (column_of m j) (size m (column_of m j) - 1)%Z m.
Definition hide_row' (i : nat) (m : mem) : option mem := loop (many m) right_of i (fun j m => Some (hide1' j m)) (right_of m i) m.
Definition purify_one (p : nat) (x : Z) (rr : nat) (m : mem) : option mem :=
  if negb (color m rr =? x)%Z then hide_row' rr m else if negb (rr =? p) then Some (set_color rr (-1)%Z m) else Some m.
Definition purify (p : nat) (m : mem) : option mem :=
  let c := column_of m p in let x := color m p in
  let m := set_color c x m in
  loop (many m) down_of c (purify_one p x) (down_of m c) m.
(** 249-268 *)
Definition show1' (j : nat) (m : mem) : mem :=
  let m := set_down (up_of m j) j m in
  let m := set_up (down_of m j) j m in
  set_size (column_of m j) (size m (column_of m j) + 1)%Z m.
Definition show_row' (i : nat) (m : mem) : option mem := loop (many m) left_of i (fun j m => Some (show1' j m)) (left_of m i) m.
Definition unpurify_one (p : nat) (x : Z) (rr : nat) (m : mem) : option mem :=
  if (color m rr <? 0)%Z then Some (set_color rr x m) else if negb (rr =? p) then show_row' rr m else Some m.
Definition unpurify (p : nat) (m : mem) : option mem :=
  let c := column_of m p in let x := color m p in
  match loop (many m) up_of c (unpurify_one p x) (up_of m c) m with Some m => Some (set_color c 0%Z m) | None => None end.
(** 277-279 *)
Definition row_index_of (m : mem) (a : nat) : nat := rd (MW m) a - row_addr (ncols m) 0.

(** ** dancing_links.hpp *)
(** 168-183, 198-213: cover or purify the other nodes of the row, and undo it *)
Definition do_one (j : nat) (m : mem) : option mem :=
  if (color m j =? 0)%Z then cover_column (column_of m j) m else if (0 <? color m j)%Z then purify j m else Some m.
Definition undo_one (j : nat) (m : mem) : option mem :=
  if (color m j =? 0)%Z then uncover_column (column_of m j) m else if (0 <? color m j)%Z then unpurify j m else Some m.
Definition do_row (r : nat) (m : mem) : option mem := loop (many m) right_of r do_one (right_of m r) m.
Definition undo_row (r : nat) (m : mem) : option mem := loop (many m) left_of r undo_one (left_of m r) m.

(** 51-55 *)
Definition select_right (m : mem) : nat := right_of m 0.
(** 59-77 *)
Fixpoint most_constrained (fuel : nat) (m : mem) (c : nat) (sz : Z) (p : nat) : nat :=
  match fuel with
  | O => c
  | S f => if p =? 0 then c
           else let '(c', sz') := if (size m p <? sz)%Z then (p, size m p) else (c, sz) in
                if (sz' =? 1)%Z then c' else most_constrained f m c' sz' (right_of m p)
  end.
Definition select_most_constrained (m : mem) : nat := let c := right_of m 0 in most_constrained (many m) m c (size m c) (right_of m c).

(** output_m, solutions_m, and the calls made of the callback *)
Record ss := mk_ss { mm : mem; out : list nat; found : nat; told : list (nat * bool) }.
Definition with_mem (m : mem) (s : ss) : ss := mk_ss m (out s) (found s) (told s).
(** 135-144 *)
Definition report (k : nat) (s : ss) : ss :=
  mk_ss (mm s) (out s) (S (found s)) (told s ++ map (fun i => (row_index_of (mm s) (nth i (out s) 0), S i =? k)) (seq 0 k)).
Section Search.
Context (heuristic : mem -> nat) (max_solutions : nat).
(** 132-228 *)
Fixpoint do_search (fuel : nat) (k : nat) (s : ss) : option ss :=
  match fuel with
  | O => None
  | S f =>
    if right_of (mm s) 0 =? 0 then Some (report k s)                                                       (* 134-145 *)
    else
      let c := heuristic (mm s) in                                                                        (* 149 *)
      match cover_column c (mm s) with
      | None => None
      | Some m1 =>
        (fix branch (g : nat) (c r : nat) (s : ss) {struct g} : option ss :=                               (* 160-219 *)
           match g with
           | O => None
           | S g' =>
             if r =? c then match uncover_column c (mm s) with Some m => Some (with_mem m s) | None => None end   (* 221 *)
             else if length (out s) <=? k then None
             else let s := mk_ss (mm s) (set_nth k r (out s)) (found s) (told s) in                       (* 166 *)
               match do_row r (mm s) with
               | None => None
               | Some m2 =>
                 match do_search f (S k) (with_mem m2 s) with                                             (* 189 *)
                 | None => None
                 | Some s2 =>
                   if max_solutions <=? found s2 then Some s2                                             (* 191 *)
                   else let r := nth k (out s2) 0 in let c := column_of (mm s2) r in                      (* 194-196 *)
                     match undo_row r (mm s2) with
                     | None => None
                     | Some m3 => branch g' c (down_of m3 r) (with_mem m3 s2)
                     end
                 end
               end
           end) (many m1) c (down_of m1 c) (with_mem m1 s)
      end
  end.
End Search.

(** the calls made before the search *)
Inductive op := OSet (row col : nat) (k : Z) | OSecondary (col : nat).
Definition apply (m : mem) (o : op) : mem := match o with OSet r c k => set r c k m | OSecondary c => set_secondary_column c m end.
Definition build (rows cols : nat) (ops : list op) : mem := fold_left apply ops (new_toroid rows cols).
(** 108-118 search(max, callback, heuristic) after the constructor (92-99) and [ops]: the number returned and the callback's calls *)
Definition search (rows cols : nat) (ops : list op) (max_solutions : nat) (heuristic : mem -> nat) : option (nat * list (nat * bool)) :=
  match do_search heuristic max_solutions (S cols) 0 (mk_ss (finalize rows (build rows cols ops)) (repeat 0 cols) 0 []) with
  | Some s => Some (found s, told s)
  | None => None
  end.
