(** JSON texts and the values they denote, after RFC 7159 (sections 2-7), written independently of
    the parser.  Whitespace is attached as in the json.org grammar: it may surround every element.

    Three dialects of string escapes are distinguished:
    - [RFC]: a supplementary character is written as a surrogate pair [\uD8xx\uDCxx];
    - [Common]: no surrogate code units at all (what RFC and the library have in common);
    - [ASL]: what the library accepts. *)
From Verif Require Import Prelude Unicode_Spec Json_Model.
Local Open Scope N_scope.

Inductive dialect := RFC | Common | ASL.

Definition is_ws (c : N) : Prop := c = 0x20 \/ c = 0x09 \/ c = 0x0A \/ c = 0x0D.
Definition blank (w : list N) : Prop := Forall is_ws w.

Definition hex (c d : N) : Prop :=
  (d < 10 /\ c = 0x30 + d) \/ (10 <= d < 16 /\ c = 0x41 + (d - 10)) \/
  (10 <= d < 16 /\ c = 0x61 + (d - 10)).
(** the four characters [t] spell the code unit [u] *)
Definition hex4 (t : list N) (u : N) : Prop :=
  exists c1 c2 c3 c4 d1 d2 d3 d4, t = [c1; c2; c3; c4] /\
    hex c1 d1 /\ hex c2 d2 /\ hex c3 d3 /\ hex c4 d4 /\
    u = ((d1 * 16 + d2) * 16 + d3) * 16 + d4.

(** section 7: the two-character escapes *)
Definition simple_escape (e c : N) : Prop :=
  In (e, c) [(0x22, 0x22); (0x5C, 0x5C); (0x2F, 0x2F); (0x62, 0x08); (0x66, 0x0C);
             (0x6E, 0x0A); (0x72, 0x0D); (0x74, 0x09)].

Definition lead_surrogate (u : N) : Prop := 0xD800 <= u <= 0xDBFF.
Definition trail_surrogate (u : N) : Prop := 0xDC00 <= u <= 0xDFFF.

(** [chars D raw s]: the characters [raw] between the quotes denote the bytes [s] *)
Inductive chars (D : dialect) : list N -> list N -> Prop :=
| ch_nil : chars D [] []
| ch_plain c raw s : 0x20 <= c -> c <> 0x22 -> c <> 0x5C -> chars D raw s ->
    chars D (c :: raw) (c :: s)
| ch_simple e c raw s : simple_escape e c -> chars D raw s ->
    chars D (0x5C :: e :: raw) (c :: s)
| ch_unicode h u raw s : hex4 h u -> ~ lead_surrogate u -> ~ trail_surrogate u -> chars D raw s ->
    chars D (0x5C :: 0x75 :: h ++ raw) (utf8 u ++ s)
(* RFC 7159 section 7: a pair is two escapes, read as UTF-16 *)
| ch_pair h1 u1 h2 u2 raw s : D = RFC -> hex4 h1 u1 -> hex4 h2 u2 ->
    lead_surrogate u1 -> trail_surrogate u2 -> chars D raw s ->
    chars D (0x5C :: 0x75 :: h1 ++ 0x5C :: 0x75 :: h2 ++ raw)
      (utf8 (0x10000 + (u1 - 0xD800) * 0x400 + (u2 - 0xDC00)) ++ s)
(* the library: no backslash before the second unit, and 0x10000 is not added *)
| ch_asl_pair h1 u1 h2 u2 raw s : D = ASL -> hex4 h1 u1 -> hex4 h2 u2 ->
    lead_surrogate u1 -> trail_surrogate u2 -> chars D raw s ->
    chars D (0x5C :: 0x75 :: h1 ++ 0x75 :: h2 ++ raw)
      (utf8 ((u1 - 0xD800) * 0x400 + (u2 - 0xDC00)) ++ s)
(* the library: a lone trailing surrogate is encoded as if it were a character *)
| ch_asl_trail h u raw s : D = ASL -> hex4 h u -> trail_surrogate u -> chars D raw s ->
    chars D (0x5C :: 0x75 :: h ++ raw) (utf8 u ++ s).

Definition quoted (D : dialect) (t s : list N) : Prop :=
  exists raw, t = [0x22] ++ raw ++ [0x22] /\ chars D raw s.

(** section 6: numbers *)
Definition is_dig (c : N) : Prop := 0x30 <= c <= 0x39.
Definition digits1 (t : list N) : Prop := t <> [] /\ Forall is_dig t.
Definition int_part (t : list N) : Prop :=
  t = [0x30] \/ exists d ds, t = d :: ds /\ 0x31 <= d <= 0x39 /\ Forall is_dig ds.
Definition frac_part (t : list N) : Prop := t = [] \/ exists ds, t = 0x2E :: ds /\ digits1 ds.
Definition exp_part (t : list N) : Prop :=
  t = [] \/ exists e sg ds, t = e :: sg ++ ds /\ (e = 0x65 \/ e = 0x45) /\
    (sg = [] \/ sg = [0x2D] \/ sg = [0x2B]) /\ digits1 ds.
Definition json_number (t : list N) : Prop :=
  exists sg i f e, t = sg ++ i ++ f ++ e /\ (sg = [] \/ sg = [0x2D]) /\
    int_part i /\ frac_part f /\ exp_part e.

Section Text.
Context {num : Type} (strtod : list N -> option num) (D : dialect).

(** sections 2-5.  A repeated name keeps its place and gets the last value; names are cut at a NUL
    (both are what dictionary_t entries indexed by name_t do). *)
Inductive jvalue : list N -> value num -> Prop :=
| j_null : jvalue [0x6E; 0x75; 0x6C; 0x6C] VNull
| j_true : jvalue [0x74; 0x72; 0x75; 0x65] (VBool true)
| j_false : jvalue [0x66; 0x61; 0x6C; 0x73; 0x65] (VBool false)
| j_str t s : quoted D t s -> jvalue t (VStr s)
| j_num t x : json_number t -> strtod t = Some x -> jvalue t (VNum x)
| j_arr0 w : blank w -> jvalue ([0x5B] ++ w ++ [0x5D]) (VArr [])
| j_arr w t l : blank w -> jelements t l -> jvalue ([0x5B] ++ w ++ t ++ [0x5D]) (VArr l)
| j_obj0 w : blank w -> jvalue ([0x7B] ++ w ++ [0x7D]) (VObj [])
| j_obj w t l : blank w -> jmembers t l ->
    jvalue ([0x7B] ++ w ++ t ++ [0x7D])
      (VObj (fold_left (fun o kv => move_append_obj o (fst kv) (snd kv)) l []))
with jelements : list N -> list (value num) -> Prop :=
| je_one t v w : jvalue t v -> blank w -> jelements (t ++ w) [v]
| je_cons t v w1 w2 r l : jvalue t v -> blank w1 -> blank w2 -> jelements r l ->
    jelements (t ++ w1 ++ [0x2C] ++ w2 ++ r) (v :: l)
with jmembers : list N -> list (list N * value num) -> Prop :=
| jm_one k s w1 w2 t v w : quoted D k s -> blank w1 -> blank w2 -> jvalue t v -> blank w ->
    jmembers (k ++ w1 ++ [0x3A] ++ w2 ++ t ++ w) [(s, v)]
| jm_cons k s w1 w2 t v w3 w4 r l : quoted D k s -> blank w1 -> blank w2 -> jvalue t v ->
    blank w3 -> blank w4 -> jmembers r l ->
    jmembers (k ++ w1 ++ [0x3A] ++ w2 ++ t ++ w3 ++ [0x2C] ++ w4 ++ r) ((s, v) :: l).

Definition container (v : value num) : Prop :=
  match v with VArr _ | VObj _ => True | _ => False end.
(** a JSON text as the library understands it: an object or array, surrounded by whitespace *)
Definition jtext (t : list N) (v : value num) : Prop :=
  exists w1 u w2, t = w1 ++ u ++ w2 /\ blank w1 /\ blank w2 /\ jvalue u v /\ container v.
End Text.

(** ** values to be generated *)
Definition nul_free (s : list N) : Prop := Forall (fun c => c <> 0) s.
Section Values.
Context {num : Type}.
(** what a JSON value held by the library satisfies: the names of a dictionary_t are distinct and
    (being C strings) without NUL; [ok] is asked of its numbers *)
Fixpoint proper (ok : num -> Prop) (v : value num) : Prop :=
  match v with
  | VNum x => ok x
  | VArr l => fold_right and True (map (proper ok) l)
  | VObj l => NoDup (map fst l) /\ Forall (fun kv => nul_free (fst kv)) l /\
              fold_right and True (map (fun kv => proper ok (snd kv)) l)
  | _ => True
  end.
(** the value with every number [x] replaced by [rt x] *)
Fixpoint reread (rt : num -> num) (v : value num) : value num :=
  match v with
  | VNum x => VNum (rt x)
  | VArr l => VArr (map (reread rt) l)
  | VObj l => VObj (map (fun kv => (fst kv, reread rt (snd kv))) l)
  | v => v
  end.
End Values.

(** "%.15g" (C11 7.21.6.1) of the integers 0 <= x < 10^16, and "-" for the negative ones: up to 15
    digits are written as they are, sixteen-digit numbers as d.ddd...e+15 with 15 significant digits
    (rounded half to even) and no trailing zeros *)
Fixpoint dec_loop (fuel : nat) (x : N) (acc : list N) : list N :=
  match fuel with
  | O => acc
  | S fuel => if x <? 10 then (0x30 + x) :: acc else dec_loop fuel (x / 10) ((0x30 + x mod 10) :: acc)
  end.
Definition dec (x : N) : list N := dec_loop (S (N.to_nat (N.log2 x))) x [].
Definition round10 (x : N) : N :=
  let q := x / 10 in let r := x mod 10 in
  if r <? 5 then q else if 5 <? r then q + 1 else if N.even q then q else q + 1.
Fixpoint strip_zeros (rev_digits : list N) : list N :=
  match rev_digits with c :: r => if c =? 0x30 then strip_zeros r else rev_digits | [] => [] end.
Definition sci15 (x : N) : list N :=
  let m := round10 x in
  let e := if m <? 10 ^ 15 then [0x65; 0x2B; 0x31; 0x35] else [0x65; 0x2B; 0x31; 0x36] in
  match dec m with
  | d :: ds => d :: (match strip_zeros (rev ds) with [] => [] | z => 0x2E :: rev z end) ++ e
  | [] => []
  end.
Definition fmt15 (z : Z) : list N :=
  (if (z <? 0)%Z then [0x2D] else []) ++
  (let x := Z.to_N (Z.abs z) in if x <? 10 ^ 15 then dec x else sci15 x).
