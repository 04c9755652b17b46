(** Specification of the lexer of the expression language, independent of the lexer's code: what the
    lexemes are, as a datatype; how each is written; which token it stands for; and where it ends
    (the longest-lexeme rule).  A text is white space and lexemes. *)
From Coq Require Import String Ascii ZArith List Bool Floats.SpecFloat.
From Verif Require Import Prelude Vm_Value Expr_Model Token_Props.
Import ListNotations.
Local Open Scope Z_scope.

(** *** characters, by their codes in ASCII *)
Definition code (c : ascii) : Z := Z.of_N (N_of_ascii c).
Definition in_range (a b : Z) (c : ascii) : bool := ((a <=? code c) && (code c <=? b))%Z.
Definition LF : ascii := "010".
Definition CR : ascii := "013".
Definition digit (c : ascii) : bool := in_range 48 57 c.                     (* 0-9 *)
Definition letter (c : ascii) : bool := in_range 65 90 c || in_range 97 122 c. (* A-Z a-z *)
Definition hexit (c : ascii) : bool := digit c || in_range 65 70 c || in_range 97 102 c.
Definition word_start (c : ascii) : bool := letter c || Ascii.eqb c "_".
Definition word_char (c : ascii) : bool := letter c || digit c || Ascii.eqb c "_".
Definition dec_char (c : ascii) : bool := digit c || Ascii.eqb c ".".
Definition space (c : ascii) : bool := Ascii.eqb c " " || in_range 9 13 c.
Definition line_end (c : ascii) : bool := Ascii.eqb c LF || Ascii.eqb c CR.
Definition quote (c : ascii) : bool := Ascii.eqb c "'" || Ascii.eqb c """".
Definition all (f : ascii -> bool) (l : list ascii) : Prop := Forall (fun c => f c = true) l.
(** the text does not begin with such a character *)
Definition not_first (f : ascii -> bool) (r : list ascii) : Prop :=
  match r with [] => True | c :: _ => f c = false end.
(** bytes that are not ASCII (byte 255 excepted) *)
Definition high (c : ascii) : bool := in_range 128 254 c.

(** *** values *)
Definition hexit_value (c : ascii) : Z :=
  if digit c then code c - 48 else if in_range 65 70 c then code c - 65 + 10 else code c - 97 + 10.
Definition hex_value (ds : list ascii) : Z := fold_left (fun v d => v * 16 + hexit_value d) ds 0.
Fixpoint until_nul (l : list ascii) : list ascii :=
  match l with [] => [] | c :: l' => if Ascii.eqb c "000" then [] else c :: until_nul l' end.
(** CR LF, CR and LF all become LF *)
Fixpoint unify_line_ends (l : list ascii) : list ascii :=
  match l with
  | [] => []
  | c :: l' => if Ascii.eqb c CR
               then LF :: match l' with
                          | d :: l'' => if Ascii.eqb d LF then unify_line_ends l'' else unify_line_ends l'
                          | [] => []
                          end
               else c :: unify_line_ends l'
  end.

(** *** lexemes *)
(** a piece of a string: its quote, its body, the white space after it *)
Record piece := mk_piece { p_quote : ascii; p_body : list ascii; p_space : list ascii }.
Inductive lexeme :=
| Word (w : list ascii)
| Hex (x : ascii) (ds : list ascii)
| Dec (w : list ascii)
| Op (k : tk)
| Str (ps : list piece) (lone : list ascii)   (* lone: a last quote at the very end of the text, or nothing *)
| Trail (body le : list ascii)                (* le: the line end *)
| Lead (body : list ascii).

Definition comment (x : lexeme) : bool := match x with Trail _ _ | Lead _ => true | _ => false end.
(** the tokens written with signs *)
Definition operator (k : tk) : bool :=
  match k with
  | identifier_k | keyword_k | number_k | string_k | lead_comment_k | trail_comment_k | eof_k => false
  | _ => true
  end.
Definition written (k : tk) : list ascii :=
  match spelling k with Some s => list_ascii_of_string s | None => [] end.
Definition written_piece (p : piece) : list ascii := (p_quote p :: p_body p ++ [p_quote p]) ++ p_space p.
Definition spelled (x : lexeme) : list ascii :=
  match x with
  | Word w => w
  | Hex x ds => "0"%char :: x :: ds
  | Dec w => w
  | Op k => written k
  | Str ps lone => concat (map written_piece ps) ++ lone
  | Trail body le => "/"%char :: "/"%char :: body ++ le
  | Lead body => "/"%char :: "*"%char :: body ++ ["*"%char; "/"%char]
  end.

(** no occurrence of "*/" *)
Definition no_close (l : list ascii) : Prop := ~ exists a b, l = a ++ "*"%char :: "/"%char :: b.
Definition piece_ok (p : piece) : Prop :=
  quote (p_quote p) = true /\ all (fun c => negb (Ascii.eqb c (p_quote p))) (p_body p) /\ all space (p_space p).
Definition well_formed (x : lexeme) : Prop :=
  match x with
  | Word w => exists c w', w = c :: w' /\ word_start c = true /\ all word_char w'
  | Hex x ds => (x = "x"%char \/ x = "X"%char) /\ ds <> [] /\ all hexit ds
  | Dec w => exists c w', w = c :: w' /\ digit c = true /\ all dec_char w'
  | Op k => operator k = true
  | Str ps lone => Forall piece_ok ps /\ (lone = [] /\ ps <> [] \/ exists q, lone = [q] /\ quote q = true)
  | Trail body le => all (fun c => negb (line_end c)) body /\ (le = [] \/ le = [LF] \/ le = [CR] \/ le = [CR; LF])
  | Lead body => no_close body
  end.

(** the lexeme ends here: with the rest [r] after it no longer lexeme could be read *)
Definition ends_before (x : lexeme) (r : list ascii) : Prop :=
  match x with
  | Word _ => not_first word_char r
  | Hex _ _ => not_first hexit r
  | Dec w => not_first dec_char r /\
             ~ (w = ["0"%char] /\ exists x d r', r = x :: d :: r' /\ (x = "x"%char \/ x = "X"%char) /\ hexit d = true)
  | Op k => (forall k' u, operator k' = true -> written k' = written k ++ u -> u <> [] -> ~ exists r', r = u ++ r') /\
            ~ (k = divide_k /\ exists c r', r = c :: r' /\ (c = "/"%char \/ c = "*"%char))
  | Str _ lone => match lone with [] => not_first space r /\ not_first quote r | _ => r = [] end
  | Trail _ le => match le with
                  | [] => r = []
                  | _ => le = [CR] -> not_first (Ascii.eqb LF) r
                  end
  | Lead _ => True
  end.
(** lexemes whose end is found by looking at the character after them *)
Definition looks (x : lexeme) : bool :=
  match x with Word _ | Hex _ _ | Dec _ => true | Str _ [] => true | _ => false end.

(** the next byte is ASCII, and so is the one after it if the next is an x *)
Definition clear_ahead (r : list ascii) : Prop :=
  not_first high r /\ ~ exists x d r', r = x :: d :: r' /\ (x = "x"%char \/ x = "X"%char) /\ high d = true.

Section Meaning.
(** the extra keywords of the language being read, and the value of a text of digits and dots *)
Variable extra_keyword : string -> bool.
Variable read_double : list ascii -> spec_float.
Definition str (l : list ascii) : string := string_of_list_ascii l.
Definition keyword (s : string) : bool :=
  existsb (String.eqb s) ["true"; "false"; "empty"]%string || extra_keyword s.
Definition means (x : lexeme) : token :=
  match x with
  | Word w => mk_token (if keyword (str w) then keyword_k else identifier_k) (VName (str w))
  | Hex _ ds => mk_token number_k (VNum (f_of_Z (hex_value ds mod 2 ^ 64)))
  | Dec w => mk_token number_k (VNum (read_double w))
  | Op k => mk_token k VEmpty
  | Str ps _ => mk_token string_k (VStr (str (until_nul (concat (map p_body ps)))))
  | Trail body _ => mk_token trail_comment_k (VStr (str (until_nul body)))
  | Lead body => mk_token lead_comment_k (VStr (str (until_nul (unify_line_ends body))))
  end.

(** *** whole texts *)
(** what the text reads as: its lexemes in order, each the longest *)
Inductive reads_as : list ascii -> list lexeme -> Prop :=
| reads_end : forall ws, all space ws -> reads_as ws []
| reads_next : forall ws x r xs,
    all space ws -> well_formed x -> ends_before x r -> reads_as r xs ->
    reads_as (ws ++ spelled x ++ r) (x :: xs).
(** the tokens delivered: comments too, unless they are bypassed *)
Definition delivered (bypass : bool) (xs : list lexeme) : list token :=
  map means (if bypass then filter (fun x => negb (comment x)) xs else xs).
End Meaning.

(** *** places: how many characters are before it, the line number, where the line starts *)
Record place := mk_place { characters : Z; line_number : Z; line_begins : Z }.
Definition move (n : nat) (p : place) : place :=
  mk_place (characters p + Z.of_nat n) (line_number p) (line_begins p).
Definition new_line (p : place) : place := mk_place (characters p) (line_number p + 1) (characters p).
(** after reading [l], line ends counted *)
Fixpoint walk (l : list ascii) (p : place) : place :=
  match l with
  | [] => p
  | c :: l' =>
    if Ascii.eqb c LF then walk l' (new_line (move 1 p))
    else if Ascii.eqb c CR then
      match l' with
      | d :: l'' => if Ascii.eqb d LF then walk l'' (new_line (move 2 p)) else walk l' (new_line (move 1 p))
      | [] => new_line (move 1 p)
      end
    else walk l' (move 1 p)
  end.
(** after a lexeme: line ends are counted in comments and between the pieces of a string only *)
Definition after_piece (p : place) (x : piece) : place := walk (p_space x) (move (2 + List.length (p_body x)) p).
Definition after (x : lexeme) (p : place) : place :=
  match x with
  | Str ps lone => move (List.length lone) (fold_left after_piece ps p)
  | Trail body le => walk le (move (2 + List.length body) p)
  | Lead body => move 2 (walk body (move 2 p))
  | x => move (List.length (spelled x)) p
  end.

(** the reading of a text that begins at [p]: its lexemes, each with the place where it begins, and the
    place of the end *)
Inductive reads_from : place -> list ascii -> list (place * lexeme) -> place -> Prop :=
| from_end : forall p ws, all space ws -> reads_from p ws [] (walk ws p)
| from_next : forall p ws x r l e,
    all space ws -> well_formed x -> ends_before x r -> reads_from (after x (walk ws p)) r l e ->
    reads_from p (ws ++ spelled x ++ r) ((walk ws p, x) :: l) e.
(** the beginning of a text *)
Definition origin : place := mk_place 0 1 0.
