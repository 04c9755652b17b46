(** Model of the XML/HTML entity functions behind xml_escape and xml_unescape —
    /repo/source/expression_filter.cpp:32-625 (entity_map_find, needs_entity_escape, entity_escape,
    needs_entity_unescape, entity_unescape).
    A std::string is the list of its bytes (N, 0..255).  The two table_index objects are sorted
    once with std::sort (lines 411-468); std::sort is only specified up to a permutation, so the
    model takes the two sorted indexes as parameters and the theorems hold for every permutation of
    the table that is sorted.  The character classes are those of the "C" locale.  A byte >= 128
    given to std::isxdigit or std::isdigit (undefined for a negative char) is taken not to be a digit. *)
From Verif Require Import Prelude Search_Model Unicode_Model.
From Coq Require Import String Ascii.
Local Open Scope N_scope.

(** the bytes of a C++ string literal *)
Fixpoint bs (s : string) : list N :=
  match s with EmptyString => [] | String c s' => N_of_ascii c :: bs s' end.

(** expression_filter.cpp:124-387 default_entry_set, in source order *)
Definition raw_table : list (string * N) := (
  [
    ("Aacute", 0xC1); ("aacute", 0xE1); ("Acirc", 0xC2); ("acirc", 0xE2); ("acute", 0xB4);
    ("AElig", 0xC6); ("aelig", 0xE6); ("Agrave", 0xC0); ("agrave", 0xE0); ("alefsym", 0x2135);
    ("Alpha", 0x391); ("alpha", 0x3B1); ("amp", 0x26); ("and", 0x2227); ("ang", 0x2220);
    ("Aring", 0xC5); ("aring", 0xE5); ("asymp", 0x2248); ("Atilde", 0xC3); ("atilde", 0xE3);
    ("Auml", 0xC4); ("auml", 0xE4); ("bdquo", 0x201E); ("Beta", 0x392); ("beta", 0x3B2);
    ("brvbar", 0xA6); ("bull", 0x2022); ("cap", 0x2229); ("Ccedil", 0xC7); ("ccedil", 0xE7);
    ("cedil", 0xB8); ("cent", 0xA2); ("Chi", 0x3A7); ("chi", 0x3C7); ("circ", 0x2C6);
    ("clubs", 0x2663); ("cong", 0x2245); ("copy", 0xA9); ("cr", 0xD); ("crarr", 0x21B5);
    ("cup", 0x222A); ("curren", 0xA4); ("dagger", 0x2020); ("Dagger", 0x2021); ("darr", 0x2193);
    ("dArr", 0x21D3); ("deg", 0xB0); ("Delta", 0x394); ("delta", 0x3B4); ("diams", 0x2666);
    ("divide", 0xF7); ("Eacute", 0xC9); ("eacute", 0xE9); ("Ecirc", 0xCA); ("ecirc", 0xEA);
    ("Egrave", 0xC8); ("egrave", 0xE8); ("empty", 0x2205); ("emsp", 0x2003); ("ensp", 0x2002);
    ("Epsilon", 0x395); ("epsilon", 0x3B5); ("equiv", 0x2261); ("Eta", 0x397); ("eta", 0x3B7);
    ("ETH", 0xD0); ("eth", 0xF0); ("Euml", 0xCB); ("euml", 0xEB); ("euro", 0x20AC);
    ("exist", 0x2203); ("fnof", 0x192); ("forall", 0x2200); ("frac12", 0xBD); ("frac14", 0xBC);
    ("frac34", 0xBE); ("frasl", 0x2044); ("Gamma", 0x393); ("gamma", 0x3B3); ("ge", 0x2265);
    ("gt", 0x3E); ("harr", 0x2194); ("hArr", 0x21D4); ("hearts", 0x2665); ("hellip", 0x2026);
    ("Iacute", 0xCD); ("iacute", 0xED); ("Icirc", 0xCE); ("icirc", 0xEE); ("iexcl", 0xA1);
    ("Igrave", 0xCC); ("igrave", 0xEC); ("image", 0x2111); ("infin", 0x221E); ("int", 0x222B);
    ("Iota", 0x399); ("iota", 0x3B9); ("iquest", 0xBF); ("isin", 0x2208); ("Iuml", 0xCF);
    ("iuml", 0xEF); ("Kappa", 0x39A); ("kappa", 0x3BA); ("Lambda", 0x39B); ("lambda", 0x3BB);
    ("lang", 0x2329); ("laquo", 0xAB); ("larr", 0x2190); ("lArr", 0x21D0); ("lceil", 0x2308);
    ("ldquo", 0x201C); ("le", 0x2264); ("lf", 0xA); ("lfloor", 0x230A); ("lowast", 0x2217);
    ("loz", 0x25CA); ("lrm", 0x200E); ("lsaquo", 0x2039); ("lsquo", 0x2018); ("lt", 0x3C);
    ("macr", 0xAF); ("mdash", 0x2014); ("micro", 0xB5); ("middot", 0xB7); ("minus", 0x2212);
    ("Mu", 0x39C); ("mu", 0x3BC); ("nabla", 0x2207); ("nbsp", 0xA0); ("ndash", 0x2013);
    ("ne", 0x2260); ("ni", 0x220B); ("not", 0xAC); ("notin", 0x2209); ("nsub", 0x2284);
    ("Ntilde", 0xD1); ("ntilde", 0xF1); ("Nu", 0x39D); ("nu", 0x3BD); ("Oacute", 0xD3);
    ("oacute", 0xF3); ("Ocirc", 0xD4); ("ocirc", 0xF4); ("OElig", 0x152); ("oelig", 0x153);
    ("Ograve", 0xD2); ("ograve", 0xF2); ("oline", 0x203E); ("Omega", 0x3A9); ("omega", 0x3C9);
    ("Omicron", 0x39F); ("omicron", 0x3BF); ("oplus", 0x2295); ("or", 0x2228); ("ordf", 0xAA);
    ("ordm", 0xBA); ("Oslash", 0xD8); ("oslash", 0xF8); ("Otilde", 0xD5); ("otilde", 0xF5);
    ("otimes", 0x2297); ("Ouml", 0xD6); ("ouml", 0xF6); ("para", 0xB6); ("part", 0x2202);
    ("permil", 0x2030); ("perp", 0x22A5); ("Phi", 0x3A6); ("phi", 0x3C6); ("Pi", 0x3A0);
    ("pi", 0x3C0); ("piv", 0x3D6); ("plusmn", 0xB1); ("pound", 0xA3); ("prime", 0x2032);
    ("Prime", 0x2033); ("prod", 0x220F); ("prop", 0x221D); ("Psi", 0x3A8); ("psi", 0x3C8);
    ("quot", 0x22); ("radic", 0x221A); ("rang", 0x232A); ("raquo", 0xBB); ("rarr", 0x2192);
    ("rArr", 0x21D2); ("rceil", 0x2309); ("rdquo", 0x201D); ("real", 0x211C); ("reg", 0xAE);
    ("rfloor", 0x230B); ("Rho", 0x3A1); ("rho", 0x3C1); ("rlm", 0x200F); ("rsaquo", 0x203A);
    ("rsquo", 0x2019); ("sbquo", 0x201A); ("Scaron", 0x160); ("scaron", 0x161);
    ("sdot", 0x22C5); ("sect", 0xA7); ("shy", 0xAD); ("Sigma", 0x3A3); ("sigma", 0x3C3);
    ("sigmaf", 0x3C2); ("sim", 0x223C); ("spades", 0x2660); ("sub", 0x2282); ("sube", 0x2286);
    ("sum", 0x2211); ("sup", 0x2283); ("sup1", 0xB9); ("sup2", 0xB2); ("sup3", 0xB3);
    ("supe", 0x2287); ("szlig", 0xDF); ("tab", 0x9); ("Tau", 0x3A4); ("tau", 0x3C4);
    ("there4", 0x2234); ("Theta", 0x398); ("theta", 0x3B8); ("thetasym", 0x3D1);
    ("thinsp", 0x2009); ("THORN", 0xDE); ("thorn", 0xFE); ("tilde", 0x2DC); ("times", 0xD7);
    ("trade", 0x2122); ("Uacute", 0xDA); ("uacute", 0xFA); ("uarr", 0x2191); ("uArr", 0x21D1);
    ("Ucirc", 0xDB); ("ucirc", 0xFB); ("Ugrave", 0xD9); ("ugrave", 0xF9); ("uml", 0xA8);
    ("upsih", 0x3D2); ("Upsilon", 0x3A5); ("upsilon", 0x3C5); ("Uuml", 0xDC); ("uuml", 0xFC);
    ("weierp", 0x2118); ("Xi", 0x39E); ("xi", 0x3BE); ("Yacute", 0xDD); ("yacute", 0xFD);
    ("yen", 0xA5); ("yuml", 0xFF); ("Yuml", 0x178); ("Zeta", 0x396); ("zeta", 0x3B6);
    ("zwj", 0x200D); ("zwnj", 0x200C); ("apos", 0x27)
  ])%string.
Definition entry := (list N * N)%type.
Definition table : list entry := Eval vm_compute in map (fun e => (bs (fst e), snd e)) raw_table.

(** std::string operator< : lexicographic over unsigned bytes *)
Fixpoint bytes_ltb (a b : list N) : bool :=
  match a, b with
  | _, [] => false
  | [], _ :: _ => true
  | x :: a', y :: b' => if x <? y then true else if y <? x then false else bytes_ltb a' b'
  end.
Fixpoint bytes_eqb (a b : list N) : bool :=
  match a, b with
  | [], [] => true
  | x :: a', y :: b' => (x =? y) && bytes_eqb a' b'
  | _, _ => false
  end.

Section Entities.
Variable code_index : list entry.      (* expression_filter.cpp:411-426, sorted by code point *)
Variable name_index : list entry.      (* expression_filter.cpp:444-459, sorted by name *)

(** expression_filter.cpp:430-437: lower_bound, then compare for equality *)
Definition code_point_index_find (c : N) : option entry :=
  match lower_bound N.ltb snd code_index c with
  | Some (i, _) => match nth_error code_index i with
                   | Some e => if snd e =? c then Some e else None
                   | None => None                                (* found == index.end() *)
                   end
  | None => None
  end.
(** expression_filter.cpp:463-469 *)
Definition entity_name_index_find (n : list N) : option entry :=
  match lower_bound bytes_ltb fst name_index n with
  | Some (i, _) => match nth_error name_index i with
                   | Some e => if bytes_eqb (fst e) n then Some e else None
                   | None => None
                   end
  | None => None
  end.

(** expression_filter.cpp:473; isprint in the "C" locale is 0x20..0x7E *)
Definition isprint (c : N) : bool := (0x20 <=? c) && (c <=? 0x7E).
Definition needs_escape (c : N) : bool := negb (isprint c) || negb (N.land c 0x80 =? 0).

Definition isdigit (c : N) : bool := (48 <=? c) && (c <=? 57).
Definition isxdigit (c : N) : bool :=
  isdigit c || ((65 <=? c) && (c <=? 70)) || ((97 <=? c) && (c <=? 102)).
Definition tolower (c : N) : N := if (65 <=? c) && (c <=? 90) then c + 32 else c.

(** expression_filter.cpp:43-66 xatoi into a std::uint32_t *)
Fixpoint xatoi (l : list N) (result : N) : N :=
  match l with
  | [] => result
  | c :: l' =>
    if isxdigit c then
      let r := (result * 16) mod 2 ^ 32 in
      xatoi l' ((r + (if isdigit c then c - 48 else tolower c - 97 + 10)) mod 2 ^ 32)
    else result
  end.
(** expression_filter.cpp:77-89 datoi into a std::uint32_t *)
Fixpoint datoi (l : list N) (result : N) : N :=
  match l with
  | [] => result
  | c :: l' =>
    if isdigit c then datoi l' ((((result * 10) mod 2 ^ 32) + (c - 48)) mod 2 ^ 32) else result
  end.

(** expression_filter.cpp:485-492 entity_map_find(code_point); None = std::range_error *)
Definition entity_map_find_code (c : N) : option (list N) :=
  match code_point_index_find c with Some e => Some (fst e) | None => None end.
(** expression_filter.cpp:496-519 entity_map_find(entity); None = std::range_error *)
Definition entity_map_find (entity : list N) : option N :=
  match entity with
  | 35 :: x :: l' => Some (if x =? 120 then xatoi l' 0 else datoi (x :: l') 0)
  | _ => match entity_name_index_find entity with Some e => Some (snd e) | None => None end
  end.

(** expression_filter.cpp:523-538 *)
Fixpoint needs_entity_escape (value : list N) : bool :=
  match value with
  | [] => false
  | c :: value' =>
    if needs_escape c then true
    else match code_point_index_find c with
         | Some _ => true
         | None => needs_entity_escape value'
         end
  end.

Definition hex_digit (n : N) : N := if 10 <=? n then 65 + (n - 10) else 48 + n.
(** expression_filter.cpp:549-570, the body of the loop *)
Definition escape_byte (c : N) : list N :=
  match code_point_index_find c with
  | Some e => 38 :: fst e ++ [59]
  | None =>
    if needs_escape c then
      [38; 35; 120] ++ [hex_digit (N.land (N.shiftr c 4) 15); hex_digit (N.land c 15)] ++ [59]
    else [c]
  end.
(** expression_filter.cpp:542-573 *)
Definition entity_escape (value : list N) : list N := flat_map escape_byte value.

(** copy_until (line 94-102) and std::find: the bytes before the first [ch], and the rest *)
Fixpoint break_at (ch : N) (l : list N) : list N * list N :=
  match l with
  | [] => ([], [])
  | c :: l' => if c =? ch then ([], l) else let (a, b) := break_at ch l' in (c :: a, b)
  end.

(** expression_filter.cpp:577-587 *)
Definition needs_entity_unescape (value : list N) : bool :=
  match snd (break_at 59 (snd (break_at 38 value))) with [] => false | _ :: _ => true end.

Inductive unescaped := Unescaped (result : list N) | RangeError | NoFuel.
(** expression_filter.cpp:591-622, the while loop; copy_utf<char> of the one code point is
    Unicode_Model.utf32_to_utf8 *)
Fixpoint unescape_loop (fuel : nat) (iter result : list N) : unescaped :=
  match fuel with
  | O => NoFuel
  | S fuel =>
    match iter with
    | [] => Unescaped result
    | _ :: _ =>
      let (pre, next) := break_at 38 iter in
      let result := result ++ pre in
      match next with
      | [] => Unescaped result
      | _ :: next =>
        let (entity, next_end) := break_at 59 next in
        match next_end with
        | [] => Unescaped result
        | _ :: iter' =>
          match entity_map_find entity with
          | None => RangeError
          | Some code_point =>
            unescape_loop fuel iter'
              (result ++ (if code_point =? 0 then [] else utf32_to_utf8 code_point))
          end
        end
      end
    end
  end.
Definition entity_unescape (value : list N) : unescaped :=
  unescape_loop (S (List.length value)) value [].
End Entities.
