(** Model of the positions, the exceptions and the messages of /repo/source/istream.cpp and /repo/adobe/istream.hpp.
    Characters are bytes; streampos and streamoff are 64 bit and do not overflow here (they are [Z]), except where
    they are converted to std::size_t and int.  What the getline procedure of a position returns is the field
    [p_snippet] (empty when there is none, istream.hpp:152-154).  The streams are fresh ostringstreams and stay good. *)
From Coq Require Import String Ascii ZArith.
From Verif Require Import Prelude Cel_Model XmlOut_Model.
From Coq Require Import List.
Import ListNotations.
Local Open Scope nat_scope.

Definition SP : ascii := " "%char.
Definition TAB : ascii := "009"%char.
Definition NUL : ascii := "000"%char.
Definition CR : ascii := "013"%char.

(** line_position_t: istream.hpp:137-169; [p_name] is what stream_name() points to *)
Record place := mk_place { p_name : list ascii; p_line : Z; p_line_start : Z; p_position : Z; p_snippet : list ascii }.

(** operator<<(ostream, line_position_t): istream.cpp:70-81 *)
Definition show_place (p : place) : list ascii :=
  (match p_name p with [] => cs "<unknown>" | _ => p_name p end) ++ cs ":" ++ dec (p_line p) ++ cs ":" ++
  dec (p_position p - p_line_start p + 1)%Z.

(** std::string::find_first_not_of(c), find_last_not_of(c): [None] is npos *)
Fixpoint first_not_of (c : ascii) (t : list ascii) : option nat :=
  match t with
  | [] => None
  | d :: t' => if Ascii.eqb d c then match first_not_of c t' with Some n => Some (S n) | None => None end else Some 0
  end.
Definition last_not_of (c : ascii) (t : list ascii) : option nat :=
  match first_not_of c (rev t) with Some n => Some (length t - 1 - n) | None => None end.
(** the conversion of a std::size_t (here: of a streamoff converted to one) to int by std::setw *)
Definition to_size (z : Z) : Z := (z mod 2 ^ 64)%Z.
Definition to_int (z : Z) : Z := let r := (z mod 2 ^ 32)%Z in if (r <? 2 ^ 31)%Z then r else (r - 2 ^ 32)%Z.
(** os << std::setw(w) << c, right adjusted *)
Definition padded (w : Z) (c : ascii) : list ascii := repeat SP (Z.to_nat (w - 1)) ++ [c].

(** istream.cpp:28-62 *)
Definition format_snippet (p : place) : list ascii :=
  match p_snippet p with
  | [] => []
  | _ =>
    let line := map (fun c => if Ascii.eqb c TAB then SP else c) (p_snippet p) in
    let leading := first_not_of SP line in
    let line := match leading with Some n => skipn n line | None => line end in
    let line := match last_not_of NUL line with Some n => firstn (n + 1) line | None => line end in
    let width := if (p_position p =? -1)%Z then Z.of_nat (length line) else (p_position p - p_line_start p)%Z in
    let width := (width - match leading with Some n => Z.of_nat n | None => -1 end)%Z in
    line ++ [LF] ++ padded (to_int (to_size width)) "^" ++ [LF]
  end.

(** stream_error_t: the text and the positions; istream.hpp:176-215.  [base_positions] are those of the exception it
    is made from when that is a stream_error_t; [copied] and [stored] say whether the copy of the positions and
    push_back got their memory: whatever is thrown there is swallowed. *)
Record error := mk_error { e_what : list ascii; e_places : list place }.
Definition error_of (what : list ascii) (base_positions : option (list place)) (copied stored : bool) (p : place) : error :=
  match base_positions with
  | Some l => if copied then mk_error what (if stored then l ++ [p] else l) else mk_error what []
  | None => mk_error what (if stored then [p] else [])
  end.
(** stream_error_t(const char*, position), (const std::string&, position): istream.hpp:193-197 *)
Definition error_at (what : list ascii) (p : place) : error := mk_error what [p].

(** format_stream_error: istream.cpp:101-119; [None] is front() and begin() + 1 of an empty vector *)
Definition format_stream_error (e : error) : option (list ascii) :=
  match e_places e with
  | [] => None
  | p :: l =>
    Some (show_place p ++ cs ": " ++ cs "error: " ++ e_what e ++ [LF] ++ format_snippet p ++
          flat_map (fun q => show_place q ++ [LF] ++ format_snippet q) l)
  end.

(** is_line_end(first, last): istream.hpp:226-240; what is left, and the answer *)
Definition is_line_end (t : list ascii) : option (bool * list ascii) :=
  match t with
  | [] => None
  | c :: t' =>
    if negb (Ascii.eqb c LF) && negb (Ascii.eqb c CR) then Some (false, t)
    else if Ascii.eqb c CR
         then match t' with d :: t'' => if Ascii.eqb d LF then Some (true, t'') else Some (true, t') | [] => Some (true, t') end
         else Some (true, t')
  end.
(** get_line: istream.hpp:267-277 *)
Fixpoint get_line_loop (n : nat) (t result : list ascii) : option (list ascii * list ascii) :=
  match n with
  | 0 => None
  | S n' =>
    match t with
    | [] => Some (t, result)
    | _ =>
      match is_line_end t with
      | None => None
      | Some (true, t') => Some (t', result)
      | Some (false, t') => match t' with c :: t'' => get_line_loop n' t'' (result ++ [c]) | [] => None end
      end
    end
  end.
Definition get_line (t : list ascii) : option (list ascii * list ascii) := get_line_loop (S (length t)) t [].
(** A caller's loop over a whole text: while (first != last) get_line(first, last) *)
Fixpoint lines_loop (n : nat) (t : list ascii) : option (list (list ascii)) :=
  match n, t with
  | _, [] => Some []
  | 0, _ => None
  | S n', _ => match get_line t with
               | Some (t', l) => match lines_loop n' t' with Some ls => Some (l :: ls) | None => None end
               | None => None
               end
  end.
Definition lines (t : list ascii) : option (list (list ascii)) := lines_loop (length t) t.
