(** What C116 and C117 say: messages of exceptions, and lines of text. *)
From Coq Require Import String Ascii ZArith DecimalString.
From Verif Require Import Diag_Model.
From Coq Require Import List.
Import ListNotations.
Local Open Scope nat_scope.
Notation chars := list_ascii_of_string (only parsing).
Definition newline : list ascii := ["010"%char].
Definition decimal (z : Z) : list ascii := chars (NilZero.string_of_int (Z.to_int z)).

(** [name:line:column], columns counted from one *)
Definition place_text (p : place) : list ascii :=
  match p_name p with [] => chars "<unknown>" | n => n end ++ chars ":" ++ decimal (p_line p) ++ chars ":" ++
  decimal (p_position p - p_line_start p + 1).
Definition blank (c : ascii) : Prop := c = " "%char \/ c = "009"%char.
Definition untab (c : ascii) : ascii := if Ascii.eqb c "009" then " "%char else c.
(** The line is [indent] blanks, then the text that is shown, then NULs *)
Definition trimmed (line shown : list ascii) (indent : nat) : Prop := exists pre mid post,
  line = pre ++ mid ++ post /\ Forall blank pre /\ length pre = indent /\ shown = map untab mid /\
  Forall (fun c => c = "000"%char) post /\
  (match mid with c :: _ => ~ blank c | [] => False end) /\ (last mid "000"%char <> "000"%char \/ Forall (fun c => c = "000"%char) mid /\ post = []).
(** a line of text, the caret below it under its [k]th character *)
Definition marked (shown : list ascii) (k : nat) : list ascii :=
  shown ++ newline ++ repeat " "%char k ++ chars "^" ++ newline.
(** the column of a position, from zero; the positions and lines that are considered *)
Definition column (p : place) : Z := (p_position p - p_line_start p)%Z.
Definition modest (p : place) : Prop := (- 2 ^ 30 <= column p < 2 ^ 30 /\ Z.of_nat (length (p_snippet p)) < 2 ^ 30)%Z.
(** What is written about the line of a position: nothing without its text; the line, with a caret. *)
Inductive line_text (p : place) : list ascii -> Prop :=
| lt_none : p_snippet p = [] -> line_text p []
| lt_blank k : p_snippet p <> [] -> Forall blank (p_snippet p) -> line_text p (marked (map untab (p_snippet p)) k)
| lt_line shown indent k : trimmed (p_snippet p) shown indent -> line_text p (marked shown k).

(** Line ends: LF, CR LF, or CR not followed by LF.  [line_of t l rest]: the text begins with the line [l], which
    ends with a line end or with the text; [rest] follows. *)
Definition in_line (c : ascii) : Prop := c <> "010"%char /\ c <> "013"%char.
Inductive line_of : list ascii -> list ascii -> list ascii -> Prop :=
| lo_end l : Forall in_line l -> line_of l l []
| lo_lf l rest : Forall in_line l -> line_of (l ++ "010"%char :: rest) l rest
| lo_crlf l rest : Forall in_line l -> line_of (l ++ "013"%char :: "010"%char :: rest) l rest
| lo_cr l rest : Forall in_line l -> (forall r, rest <> "010"%char :: r) -> line_of (l ++ "013"%char :: rest) l rest.
(** all the lines of a text; a line end at the very end starts no further line *)
Inductive lines_of : list ascii -> list (list ascii) -> Prop :=
| ls_nil : lines_of [] []
| ls_cons t l rest ls : t <> [] -> line_of t l rest -> lines_of rest ls -> lines_of t (l :: ls).
