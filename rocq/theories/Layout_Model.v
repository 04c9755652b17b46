(** * static_table and the parameters of a layout

    Models adobe/static_table.hpp:211-252 (static_table, its two look-ups and
    sort) and source/eve_evaluate.cpp:78-121, 218-372 (the tables of names,
    apply_layout_parameters and layout_variables) with
    adobe/dictionary.hpp:36-57 (get_value).

    Simplifications.  std::sort is any function that gives a sorted permutation
    (the theorems quantify over the result).  A parameter value is a number (a
    finite double, as a rational), a name, an array or something else.  Of
    layout_attributes_t the members extents_m and create_m are left out: the
    function does not touch them.  A dictionary is its look-up function.
    Names are strings, compared as by strcmp (name.hpp:257). *)
From Coq Require Import List ZArith QArith String Ascii Bool Lia.
From Verif Require Import Prelude Search_Model.
From Verif Require Eve_Model.
Import List ListNotations.
Local Open Scope nat_scope.
Ltac Zify.zify_post_hook ::= idtac.

Notation alignment := Eve_Model.alignment.
Notation align_forward := Eve_Model.align_forward.
Notation align_reverse := Eve_Model.align_reverse.
Notation align_center := Eve_Model.align_center.
Notation align_proportional := Eve_Model.align_proportional.
Notation align_forward_fill := Eve_Model.align_forward_fill.
Notation align_default := Eve_Model.align_default.
Notation placement := Eve_Model.placement.
Notation place_leaf := Eve_Model.place_leaf.
Notation place_column := Eve_Model.place_column.
Notation place_row := Eve_Model.place_row.
Notation place_overlay := Eve_Model.place_overlay.

(** ** static_table *)
Section Table.
Context {K V : Type} (lt : K -> K -> bool) (eqb : K -> K -> bool).

(** static_table.hpp:228-243, the part the two look-ups share: [None] is a read
    outside the table, [Some None] "not found". *)
Definition table_entry (t : list (K * V)) (key : K) : option (option V) :=
  match lower_bound lt fst t key with
  | None => None
  | Some (i, _) =>
    if i =? length t then Some None
    else match nth_error t i with
         | None => None
         | Some (k, v) => if eqb k key then Some (Some v) else Some None
         end
  end.

(** static_table.hpp:225-232: throws std::logic_error if the key is not there. *)
Inductive found := Found (v : V) | Logic_error | Outside.
Definition table_get (t : list (K * V)) (key : K) : found :=
  match table_entry t key with
  | None => Outside
  | Some None => Logic_error
  | Some (Some v) => Found v
  end.

(** static_table.hpp:234-243: the result and the new value of [result]. *)
Definition table_get_to (t : list (K * V)) (key : K) (result : V) : option (bool * V) :=
  match table_entry t key with
  | None => None
  | Some None => Some (false, result)
  | Some (Some v) => Some (true, v)
  end.
End Table.

(** strcmp(x, y) < 0: name.hpp:257-259. *)
Fixpoint name_lt (x y : string) : bool :=
  match x, y with
  | _, EmptyString => false
  | EmptyString, String _ _ => true
  | String a x, String b y =>
    if nat_of_ascii a <? nat_of_ascii b then true
    else if nat_of_ascii b <? nat_of_ascii a then false
    else name_lt x y
  end.

(** eve_evaluate.cpp:83-91 *)
Definition alignment_table : list (string * alignment) :=
  [("align_left", align_forward); ("align_right", align_reverse); ("align_top", align_forward);
   ("align_bottom", align_reverse); ("align_center", align_center);
   ("align_proportional", align_proportional); ("align_fill", align_forward_fill)]%string.

(** eve_evaluate.cpp:93-99 *)
Definition placement_table : list (string * placement) :=
  [("place_row", place_row); ("place_column", place_column); ("place_overlay", place_overlay)]%string.

(** eve_evaluate.cpp:107-110 *)
Definition reflected : list string :=
  ["align_left"; "align_right"; "align_top"; "align_bottom"; "align_center"; "align_proportional";
   "align_fill"; "place_row"; "place_column"; "place_overlay"]%string.

(** ** Parameters and attributes *)
Inductive lval := LNum (q : Q) | LName (s : string) | LArr (l : list lval) | LOther (n : nat).
Definition params := string -> option lval.

(** layout_attributes.hpp:73-85 *)
Record lslice := mk_lslice {
  l_alignment : alignment; l_suppress : bool; l_balance : bool; l_margin : Z * Z; l_child : alignment }.
(** layout_attributes.hpp:60-95 *)
Record attrs := mk_attrs {
  l_indent : Z; l_spacing : list Z; l_vert : lslice; l_horz : lslice; l_placement : placement }.

(** layout_attributes_t(): layout_attributes.hpp:67-69, 74-76 *)
Definition initial : attrs :=
  mk_attrs 0 [0; 10]%Z (mk_lslice align_default false false (0, 0)%Z align_forward)
    (mk_lslice align_default false false (0, 0)%Z align_forward) place_leaf.

Definition set_l_alignment (x : alignment) (s : lslice) := mk_lslice x (l_suppress s) (l_balance s) (l_margin s) (l_child s).
Definition set_suppress (x : bool) (s : lslice) := mk_lslice (l_alignment s) x (l_balance s) (l_margin s) (l_child s).
Definition set_balance (x : bool) (s : lslice) := mk_lslice (l_alignment s) (l_suppress s) x (l_margin s) (l_child s).
Definition set_margin (x : Z * Z) (s : lslice) := mk_lslice (l_alignment s) (l_suppress s) (l_balance s) x (l_child s).
Definition set_child (x : alignment) (s : lslice) := mk_lslice (l_alignment s) (l_suppress s) (l_balance s) (l_margin s) x.
Definition set_indent (x : Z) (a : attrs) := mk_attrs x (l_spacing a) (l_vert a) (l_horz a) (l_placement a).
Definition set_spacing (x : list Z) (a : attrs) := mk_attrs (l_indent a) x (l_vert a) (l_horz a) (l_placement a).
Definition set_vert (x : lslice) (a : attrs) := mk_attrs (l_indent a) (l_spacing a) x (l_horz a) (l_placement a).
Definition set_horz (x : lslice) (a : attrs) := mk_attrs (l_indent a) (l_spacing a) (l_vert a) x (l_placement a).
Definition set_placement (x : placement) (a : attrs) := mk_attrs (l_indent a) (l_spacing a) (l_vert a) (l_horz a) x.

(** What a statement leads to: the attributes afterwards, an exception with the
    attributes as they were left, undefined behaviour. *)
Inductive outcome := Done (a : attrs) | Thrown (a : attrs) | Undefined.
Definition andthen (x : outcome) (f : attrs -> outcome) : outcome :=
  match x with Done a => f a | Thrown a => Thrown a | Undefined => Undefined end.
Notation "'do' a <- x ; y" := (andthen x (fun a => y)) (at level 61, a name, x at next level, right associativity).

(** static_cast<int>(double): truncation; undefined if it does not fit. *)
Definition to_int (q : Q) : option Z :=
  let n := Z.quot (Qnum q) (Zpos (Qden q)) in
  if ((-2147483648 <=? n) && (n <=? 2147483647))%Z then Some n else None.

(** x.cast<int>(): any_regular.hpp:695-702; bad_cast if it is not a number. *)
Inductive cast_int := CastInt (n : Z) | BadCast | CastUB.
Definition as_int (v : lval) : cast_int :=
  match v with
  | LNum q => match to_int q with Some n => CastInt n | None => CastUB end
  | _ => BadCast
  end.

Definition has (d : params) (k : string) : bool := match d k with Some _ => true | None => false end.

Section Apply.
(** *alignment_table_g and *placement_table_g: the tables after init_once
    (eve_evaluate.cpp:101-105). *)
Variables (al : list (string * alignment)) (pl : list (string * placement)).

(** The look-ups of eve_evaluate.cpp:224-231, 299-315: the value must be a name
    (else bad_cast); a name that is not in the table changes nothing. *)
Definition look {V} (t : list (string * V)) (v : lval) (old : V) (set : V -> attrs -> attrs) (a : attrs) : outcome :=
  match v with
  | LName s => match table_get_to name_lt String.eqb t s old with
               | None => Undefined
               | Some (_, x) => Done (set x a)
               end
  | _ => Thrown a
  end.

(** The loops 244-250 and 266-276 over an array of names. *)
Fixpoint each_name (f : string -> attrs -> attrs) (l : list lval) (a : attrs) : outcome :=
  match l with
  | [] => Done a
  | LName s :: r => each_name f r (f s a)
  | _ :: _ => Thrown a
  end.

(** eve_evaluate.cpp:221 with dictionary.hpp:36-41 and any_regular.hpp:518-524 *)
Definition apply_indent (d : params) (a : attrs) : outcome :=
  match d "indent"%string with
  | Some (LNum q) => match to_int q with Some n => Done (set_indent n a) | None => Undefined end
  | _ => Done a
  end.

(** 223-226 *)
Definition apply_horizontal (d : params) (a : attrs) : outcome :=
  match d "horizontal"%string with
  | Some v => look al v (l_alignment (l_horz a)) (fun x a => set_horz (set_l_alignment x (l_horz a)) a) a
  | None => Done a
  end.

(** 228-231 *)
Definition apply_vertical (d : params) (a : attrs) : outcome :=
  match d "vertical"%string with
  | Some v => look al v (l_alignment (l_vert a)) (fun x a => set_vert (set_l_alignment x (l_vert a)) a) a
  | None => Done a
  end.

(** 245-249 *)
Definition mask_name (s : string) (a : attrs) : attrs :=
  let a := if String.eqb s "guide_baseline" then set_vert (set_suppress true (l_vert a)) a else a in
  if String.eqb s "guide_label" then set_horz (set_suppress true (l_horz a)) a else a.

(** 235-251 *)
Definition apply_guide_mask (d : params) (a : attrs) : outcome :=
  match d "guide_mask"%string with
  | Some v =>
    let a := set_vert (set_suppress false (l_vert a)) a in
    let a := set_horz (set_suppress false (l_horz a)) a in
    match v with
    | LArr l => each_name mask_name l a
    | _ => Thrown a
    end
  | None => Done a
  end.

(** 268-275 *)
Definition balance_name (s : string) (a : attrs) : attrs :=
  let a := if String.eqb s "guide_baseline" then set_vert (set_suppress true (set_balance true (l_vert a))) a else a in
  if String.eqb s "guide_label" then set_horz (set_suppress true (set_balance true (l_horz a))) a else a.

(** 260-277 *)
Definition apply_guide_balance (d : params) (a : attrs) : outcome :=
  match d "guide_balance"%string with
  | Some v =>
    let a := set_vert (set_balance false (l_vert a)) a in
    let a := set_horz (set_balance false (l_horz a)) a in
    match v with
    | LArr l => each_name balance_name l a
    | _ => Thrown a
    end
  | None => Done a
  end.

(** 282-300 *)
Definition apply_placement (d : params) (a : attrs) : outcome :=
  match d "placement"%string with
  | Some v =>
    do a <- look pl v (l_placement a) set_placement a;
    match l_placement a with
    | place_row => if has d "guide_mask" then Done a else Done (set_vert (set_suppress false (l_vert a)) a)
    | _ => Done a
    end
  | None => Done a
  end.

(** 302-309 *)
Definition apply_child_horizontal (d : params) (a : attrs) : outcome :=
  match d "child_horizontal"%string with
  | Some v => look al v (l_child (l_horz a)) (fun x a => set_horz (set_child x (l_horz a)) a) a
  | None => Done a
  end.

(** 311-318 *)
Definition apply_child_vertical (d : params) (a : attrs) : outcome :=
  match d "child_vertical"%string with
  | Some v => look al v (l_child (l_vert a)) (fun x a => set_vert (set_child x (l_vert a)) a) a
  | None => Done a
  end.

(** std::vector<int>::resize *)
Definition resize (n : nat) (l : list Z) : list Z := firstn n l ++ repeat 0%Z (n - length l).

(** 330-333: transform into the vector from the given position *)
Fixpoint put_spacing (l : list lval) (pos : nat) (a : attrs) : outcome :=
  match l with
  | [] => Done a
  | v :: r =>
    match as_int v with
    | BadCast => Thrown a
    | CastUB => Undefined
    | CastInt n =>
      if pos <? length (l_spacing a) then put_spacing r (S pos) (set_spacing (upd (l_spacing a) pos n) a)
      else Undefined
    end
  end.

(** 321-340 *)
Definition apply_spacing (d : params) (a : attrs) : outcome :=
  match d "spacing"%string with
  | Some (LArr l) => put_spacing l 1 (set_spacing (resize (length l + 1) (l_spacing a)) a)
  | Some v =>
    match nth_error (l_spacing a) 1 with
    | None => Undefined
    | Some old =>
      match v with
      | LNum q => match to_int q with
                  | None => Undefined
                  | Some n => Done (set_spacing (upd (l_spacing a) 1 n) a)
                  end
      | _ => Done (set_spacing (upd (l_spacing a) 1 old) a)
      end
    end
  | None => Done a
  end.

(** 349-352: margin_array[k].cast<int>() *)
Definition margin_at (l : list lval) (k : nat) (set : Z -> attrs -> attrs) (a : attrs) : outcome :=
  match nth_error l k with
  | None => Undefined
  | Some v => match as_int v with
              | CastInt n => Done (set n a)
              | BadCast => Thrown a
              | CastUB => Undefined
              end
  end.

Definition vert_first (n : Z) (a : attrs) := set_vert (set_margin (n, snd (l_margin (l_vert a))) (l_vert a)) a.
Definition vert_second (n : Z) (a : attrs) := set_vert (set_margin (fst (l_margin (l_vert a)), n) (l_vert a)) a.
Definition horz_first (n : Z) (a : attrs) := set_horz (set_margin (n, snd (l_margin (l_horz a))) (l_horz a)) a.
Definition horz_second (n : Z) (a : attrs) := set_horz (set_margin (fst (l_margin (l_horz a)), n) (l_horz a)) a.

(** 343-362 *)
Definition apply_margin (d : params) (a : attrs) : outcome :=
  match d "margin"%string with
  | Some (LArr l) =>
    do a <- margin_at l 0 vert_first a;
    do a <- margin_at l 1 horz_first a;
    do a <- margin_at l 2 vert_second a;
    margin_at l 3 horz_second a
  | Some v =>
    match as_int v with
    | BadCast => Thrown a
    | CastUB => Undefined
    | CastInt n => Done (horz_second n (vert_second n (horz_first n (vert_first n a))))
    end
  | None => Done a
  end.

(** eve_evaluate.cpp:218-364 *)
Definition apply_layout_parameters (a : attrs) (d : params) : outcome :=
  do a <- apply_indent d a;
  do a <- apply_horizontal d a;
  do a <- apply_vertical d a;
  do a <- apply_guide_mask d a;
  do a <- apply_guide_balance d a;
  do a <- apply_placement d a;
  do a <- apply_child_horizontal d a;
  do a <- apply_child_vertical d a;
  do a <- apply_spacing d a;
  apply_margin d a.
End Apply.

(** eve_evaluate.cpp:368-376.  [refl] is *reflected_range_g, which is null until
    init_once has been called by bind_layout or apply_layout_parameters; [get]
    is sheet_t::get. *)
Definition layout_variables {R} (refl : option (list string)) (of_name get : string -> R) (name : string) : option R :=
  match refl with
  | None => None
  | Some l =>
    match lower_bound name_lt (fun x => x) l name with
    | None => None
    | Some (i, _) =>
      if i =? length l then Some (get name)
      else match nth_error l i with
           | None => None
           | Some x => if String.eqb x name then Some (of_name name) else Some (get name)
           end
    end
  end.
