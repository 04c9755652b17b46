(** Model of the Eve layout engine: /repo/source/eve.cpp, /repo/adobe/eve.hpp, /repo/adobe/layout_attributes.hpp, /repo/adobe/extents.hpp.
    The forest of view proxies is a tree (eve.hpp: there can be only one topmost view, and it must be visible).
    int and size_t are Z and nat without overflow.  The only floating-point computation (the place of an align_proportional item)
    is a parameter of the model.  inset_m is not modelled: the engine does not read it.  ADOBE_ASSERT is not modelled, except that
    what it guards gives None where the engine is modelled with an option.  Printing of warnings is not modelled. *)
From Verif Require Import Prelude.
From Coq Require Import List ZArith Lia Bool.
Import ListNotations.
Open Scope Z_scope.

(** layout_attributes.hpp:36-55 (align_fill is align_forward_fill) *)
Inductive alignment := align_forward | align_reverse | align_center | align_proportional | align_forward_fill | align_reverse_fill | align_default.
(** layout_attributes.hpp:62 *)
Inductive placement := place_leaf | place_column | place_row | place_overlay.
(** extents.hpp:63 *)
Inductive slice_select := horizontal | vertical.
(** eve.hpp evaluate_options_t *)
Inductive options := evaluate_flat | evaluate_nested.

(** extents.hpp:73-84 extents_t::slice_t *)
Record extents := mk_extents { e_length : Z; e_outset : Z * Z; e_frame : Z * Z; e_guides : list Z }.
(** layout_attributes.hpp place_data_t::slice_t *)
Record place_slice := mk_place { p_length : Z; p_position : Z; p_outset : Z * Z; p_guides : list Z }.
(** layout_attributes.hpp layout_attributes_t::slice_t, with the slices of the other members of view_proxy_t (eve.cpp:82-105):
    extents_m, place_m, container_length_m, measured_length_m, container_guide_set_m *)
Record slice := mk_slice {
  s_alignment : alignment; s_suppress : bool; s_balance : bool; s_margin : Z * Z; s_child_alignment : alignment;
  s_extents : extents; s_place : place_slice; s_container_length : Z; s_measured_length : Z; s_forward : list Z; s_reverse : list Z }.
(** What the client supplies: measure(), and measure_vertical() if the placeable is a twopass one (eve.cpp:540-592, placeable_concept.hpp) *)
Record placeable := mk_placeable {
  measure : extents * extents;
  measure_vertical : option (extents * extents -> place_slice * place_slice -> extents) }.
(** eve.cpp:82-105 view_proxy_t with the members of layout_attributes_t that have no slices *)
Record view := mk_view {
  v_placeable : placeable; v_visible : bool; v_placement : placement; v_indent : Z; v_create : bool; v_spacing : list Z;
  v_space_before : Z; v_horizontal : slice; v_vertical : slice }.

Inductive tree (A : Type) := Node (a : A) (ts : list (tree A)).
Arguments Node {A} _ _.
Definition root {A} (t : tree A) : A := match t with Node a _ => a end.
Definition kids {A} (t : tree A) : list (tree A) := match t with Node _ ts => ts end.
Definition set_root {A} (t : tree A) (a : A) : tree A := Node a (kids t).

Definition slc (d : slice_select) (v : view) : slice := match d with horizontal => v_horizontal v | vertical => v_vertical v end.
Definition upd (d : slice_select) (f : slice -> slice) (v : view) : view :=
  match d with
  | horizontal => mk_view (v_placeable v) (v_visible v) (v_placement v) (v_indent v) (v_create v) (v_spacing v) (v_space_before v) (f (v_horizontal v)) (v_vertical v)
  | vertical => mk_view (v_placeable v) (v_visible v) (v_placement v) (v_indent v) (v_create v) (v_spacing v) (v_space_before v) (v_horizontal v) (f (v_vertical v))
  end.
Definition set_space_before (x : Z) (v : view) : view :=
  mk_view (v_placeable v) (v_visible v) (v_placement v) (v_indent v) (v_create v) (v_spacing v) x (v_horizontal v) (v_vertical v).

Definition set_alignment (a : alignment) (s : slice) := mk_slice a (s_suppress s) (s_balance s) (s_margin s) (s_child_alignment s) (s_extents s) (s_place s) (s_container_length s) (s_measured_length s) (s_forward s) (s_reverse s).
Definition set_suppress (b : bool) (s : slice) := mk_slice (s_alignment s) b (s_balance s) (s_margin s) (s_child_alignment s) (s_extents s) (s_place s) (s_container_length s) (s_measured_length s) (s_forward s) (s_reverse s).
Definition set_extents (e : extents) (s : slice) := mk_slice (s_alignment s) (s_suppress s) (s_balance s) (s_margin s) (s_child_alignment s) e (s_place s) (s_container_length s) (s_measured_length s) (s_forward s) (s_reverse s).
Definition set_place (p : place_slice) (s : slice) := mk_slice (s_alignment s) (s_suppress s) (s_balance s) (s_margin s) (s_child_alignment s) (s_extents s) p (s_container_length s) (s_measured_length s) (s_forward s) (s_reverse s).
Definition set_lengths (c m : Z) (s : slice) := mk_slice (s_alignment s) (s_suppress s) (s_balance s) (s_margin s) (s_child_alignment s) (s_extents s) (s_place s) c m (s_forward s) (s_reverse s).
Definition set_guides (f r : list Z) (s : slice) := mk_slice (s_alignment s) (s_suppress s) (s_balance s) (s_margin s) (s_child_alignment s) (s_extents s) (s_place s) (s_container_length s) (s_measured_length s) f r.
Definition place_length (l : Z) (p : place_slice) := mk_place l (p_position p) (p_outset p) (p_guides p).
Definition place_position (x : Z) (p : place_slice) := mk_place (p_length p) x (p_outset p) (p_guides p).
Definition place_outset (o : Z * Z) (p : place_slice) := mk_place (p_length p) (p_position p) o (p_guides p).
Definition place_guides (g : list Z) (p : place_slice) := mk_place (p_length p) (p_position p) (p_outset p) g.
Definition upd_place (f : place_slice -> place_slice) (s : slice) : slice := set_place (f (s_place s)) s.

Definition align (d : slice_select) (v : view) := s_alignment (slc d v).
Definition suppressed (d : slice_select) (v : view) := s_suppress (slc d v).
Definition clen (d : slice_select) (v : view) := s_container_length (slc d v).
Definition fwd (d : slice_select) (v : view) := s_forward (slc d v).
Definition rev_g (d : slice_select) (v : view) := s_reverse (slc d v).
Definition frame (d : slice_select) (v : view) := e_frame (s_extents (slc d v)).
Definition margin (d : slice_select) (v : view) := s_margin (slc d v).
Definition near (d : slice_select) (v : view) := fst (frame d v) + fst (margin d v).
Definition far (d : slice_select) (v : view) := snd (frame d v) + snd (margin d v).
Definition plen (d : slice_select) (v : view) := p_length (s_place (slc d v)).
Definition ppos (d : slice_select) (v : view) := p_position (s_place (slc d v)).
Definition is_leaf (v : view) : bool := match v_placement v with place_leaf => true | _ => false end.

(** eve.cpp:200-203 *)
Definition is_with (p : placement) (d : slice_select) : bool :=
  match p, d with place_column, vertical | place_row, horizontal => true | _, _ => false end.
(** the sets of alignments that the switches of eve.cpp name *)
Definition has_forward (a : alignment) : bool := match a with align_forward | align_forward_fill | align_reverse_fill => true | _ => false end.
Definition has_reverse (a : alignment) : bool := match a with align_reverse | align_forward_fill | align_reverse_fill => true | _ => false end.
Definition to_forward (a : alignment) : bool := match a with align_forward | align_forward_fill => true | _ => false end.
Definition to_reverse (a : alignment) : bool := match a with align_reverse | align_reverse_fill => true | _ => false end.
Definition is_padded (a : alignment) : bool := match a with align_center | align_proportional | align_forward_fill | align_reverse_fill => true | _ => false end.

(** ** adjust: eve.cpp:597-635 *)

(** 602-625: the alignment of a child is settled, the guides of a leaf are copied *)
Definition resolve (d : slice_select) (inherited : alignment) (c : view) : view :=
  let c := upd d (fun s => set_alignment (match s_alignment s with align_default => inherited | a => a end) s) c in
  if is_leaf c then
    let e := s_extents (slc d c) in
    if to_forward (align d c) then upd d (fun s => set_guides (e_guides e) (s_reverse s) s) c
    else if to_reverse (align d c) then upd d (fun s => set_guides (s_forward s) (rev (map (fun g => e_length e - g) (e_guides e))) s) c
    else c
  else c.
(** 1134-1145: the spacing of the container is copied to its children, the last one filling up *)
Fixpoint space (sp : list Z) (final : Z) (cs : list view) : list view :=
  match cs, sp with
  | [], _ => []
  | c :: cs', x :: sp' => set_space_before x c :: space sp' final cs'
  | c :: cs', [] => set_space_before final c :: space [] final cs'
  end.
(** 1166-1193, 1220-1247: a child that is not suppressed and whose alignment has no guides is marked suppressed *)
Definition mark (d : slice_select) (c : view) : view :=
  if suppressed d c then c else if has_forward (align d c) || has_reverse (align d c) then c else upd d (set_suppress true) c.
(** the guides of the child that its container has to place: none if it is suppressed or its alignment does not have them *)
Definition fwd_of (d : slice_select) (c : view) : list Z := if suppressed d c then [] else if has_forward (align d c) then fwd d c else [].
Definition rev_of (d : slice_select) (c : view) : list Z := if suppressed d c then [] else if has_reverse (align d c) then rev_g d c else [].
(** 1107-1197 adjust_with and 1201-1251 adjust_cross: the guide vectors are cleared and resized (so they hold zeros) *)
Definition count_with (gs : list (list Z)) : nat := fold_right (fun g n => length g + n)%nat 0%nat gs.
Definition count_cross (gs : list (list Z)) : nat := fold_right (fun g n => Nat.max (length g) n) 0%nat gs.
Definition adjust (d : slice_select) (v : view) (cs : list view) : view * list view :=
  if is_leaf v then (v, cs) else                                                                               (* 598-599 *)
  let cs := map (resolve d (s_child_alignment (slc d v))) cs in
  let w := is_with (v_placement v) d in
  let cs := if w then space (v_spacing v) (last (v_spacing v) 0) cs else cs in
  let cs := map (mark d) cs in
  let count := if w then count_with else count_cross in
  (upd d (set_guides (repeat 0 (count (map (fwd_of d) cs))) (repeat 0 (count (map (rev_of d) cs)))) v, cs).

(** ** solve_up: eve.cpp:639-654 *)

(** the loops 1290-1294, 1321-1325, 1498-1503, 1514-1519: the guides of a child push those of the container.
    The result is the updated guides of the container; the vectors are long enough (adjust_fits in Eve_Guides.v). *)
Fixpoint push (base : Z) (child container : list Z) : list Z :=
  match child, container with g :: child', x :: container' => Z.max x (g + base) :: push base child' container' | _, _ => container end.

(** 1280-1308 (right to left over the children, so over the reversed list): reverse guides, rlength, additional_rlength *)
Fixpoint up_reverse (d : slice_select) (rcs : list view) (gs : list Z) (rlength additional : Z) : list Z * Z :=
  match rcs with
  | [] => (gs, additional)
  | c :: rcs' =>
    let mine := rev_of d c in
    let pushed := push rlength mine gs in
    let rlength' := match mine, pushed with g :: _, x :: _ => if is_leaf c then x - g else rlength | _, _ => rlength end in
    let r := up_reverse d rcs' (skipn (length mine) pushed) (rlength' + clen d c + v_space_before c) (additional + (rlength' - rlength)) in
    (firstn (length mine) pushed ++ fst r, snd r)
  end.
(** 1310-1337 *)
Fixpoint up_forward (d : slice_select) (cs : list view) (gs : list Z) (len : Z) : list Z * Z :=
  match cs with
  | [] => (gs, len)
  | c :: cs' =>
    let len := len + v_space_before c in
    let mine := fwd_of d c in
    let pushed := push len mine gs in
    let len := match mine, pushed with g :: _, x :: _ => if is_leaf c then x - g else len | _, _ => len end in
    let r := up_forward d cs' (skipn (length mine) pushed) (len + clen d c) in
    (firstn (length mine) pushed ++ fst r, snd r)
  end.
(** 1341-1349 balance: adobe::max_adjacent_difference finds the widest gap, and every gap becomes that wide *)
Fixpoint max_gap (g : Z) (gs : list Z) : Z := match gs with [] => 0 | [x] => x - g | x :: gs' => Z.max (x - g) (max_gap x gs') end.
Fixpoint progression (x gap : Z) (n : nat) : list Z := match n with O => [] | S n' => x :: progression (x + gap) gap n' end.
Definition balance (gs : list Z) : list Z := match gs with g :: rest => progression g (max_gap g rest) (length gs) | [] => [] end.
(** 1258-1357 solve_up_with *)
Definition solve_up_with (d : slice_select) (v : view) (cs : list view) : view :=
  let (rg, additional) := up_reverse d (rev cs) (rev_g d v) (far d v) (far d v) in
  let (fg, len) := up_forward d cs (fwd d v) (near d v) in
  let fg := if s_balance (slc d v) && (2 <? length fg)%nat then balance fg else fg in
  let len := len + additional in
  upd d (fun s => set_lengths (Z.max len (s_container_length s)) len (set_guides fg rg s)) v.

(** 1481-1489, 1537-1546, 1626-1635: what indent adds at either end *)
Definition near_of (d : slice_select) (v c : view) : Z := near d v + if to_forward (align d c) then v_indent c else 0.
Definition far_of (d : slice_select) (v c : view) : Z := far d v + if to_reverse (align d c) then v_indent c else 0.
(** 1548-1580: a leaf is offset to the first guide *)
Definition near_leaf (d : slice_select) (v c : view) (fg : list Z) : Z :=
  match fwd_of d c, fg with g :: _, x :: _ => if is_leaf c then x - g else near_of d v c | _, _ => near_of d v c end.
Definition far_leaf (d : slice_select) (v c : view) (rg : list Z) : Z :=
  match rev_of d c, rg with g :: _, x :: _ => if is_leaf c then x - g else far_of d v c | _, _ => far_of d v c end.
(** 1456-1590 solve_up_cross *)
Definition solve_up_cross (d : slice_select) (v : view) (cs : list view) : view :=
  let fg := fold_left (fun gs c => push (near_of d v c) (fwd_of d c) gs) cs (fwd d v) in
  let rg := fold_left (fun gs c => push (far_of d v c) (rev_of d c) gs) cs (rev_g d v) in
  let len := fold_left (fun l c => Z.max l (clen d c + near_leaf d v c fg + far_leaf d v c rg)) cs (near d v + far d v) in
  upd d (fun s => set_lengths (Z.max len (s_container_length s)) len (set_guides fg rg s)) v.
Definition solve_up (d : slice_select) (v : view) (cs : list view) : view * list view :=
  (if is_leaf v then v else if is_with (v_placement v) d then solve_up_with d v cs else solve_up_cross d v cs, cs).

(** ** solve_down: eve.cpp:658-678 *)

(** the guides of a child become those of the container, less the position (1413-1424, 1449-1460, 1652-1659, 1678-1685); the second
    component tells whether one changed *)
Fixpoint pull (base : Z) (child container : list Z) : list Z * bool :=
  match child, container with
  | g :: child', x :: container' => let r := pull base child' container' in (x - base :: fst r, negb (x - base =? g) || snd r)
  | _, _ => (child, false)
  end.
(** a leaf keeps its first guide, and the position becomes what that asks for (1404-1411, 1440-1447, 1645-1650, 1671-1676) *)
Definition pull_child (c : view) (base : Z) (child container : list Z) : list Z * bool * Z :=
  match child, container with
  | g :: child', x :: container' => if is_leaf c then let r := pull (x - g) child' container' in (g :: fst r, snd r, x - g)
                                    else let r := pull base child container in (fst r, snd r, base)
  | _, _ => (child, false, base)
  end.
Definition set_fwd (d : slice_select) (gs : list Z) (c : view) : view := upd d (fun s => set_guides gs (s_reverse s) s) c.
Definition set_rev (d : slice_select) (gs : list Z) (c : view) : view := upd d (fun s => set_guides (s_forward s) gs s) c.
(** 1392-1430: right to left, until one child has changed; the result has the children in the order of the argument *)
Fixpoint down_reverse (d : slice_select) (rcs : list view) (gs : list Z) (rlength : Z) : list view * bool :=
  match rcs with
  | [] => ([], false)
  | c :: rcs' =>
    let mine := rev_of d c in
    let '(mine', changed, rlength) := pull_child c rlength mine gs in
    let c' := if changed then set_rev d mine' c else c in
    if changed then (c' :: rcs', true)
    else let r := down_reverse d rcs' (skipn (length mine) gs) (rlength + clen d c + v_space_before c) in (c' :: fst r, snd r)
  end.
(** 1432-1466 *)
Fixpoint down_forward (d : slice_select) (cs : list view) (gs : list Z) (len : Z) : list view * bool :=
  match cs with
  | [] => ([], false)
  | c :: cs' =>
    let mine := fwd_of d c in
    let '(mine', changed, len) := pull_child c (len + v_space_before c) mine gs in
    let c' := if changed then set_fwd d mine' c else c in
    if changed then (c' :: cs', true)
    else let r := down_forward d cs' (skipn (length mine) gs) (len + clen d c) in (c' :: fst r, snd r)
  end.
(** 1361-1469 solve_down_with *)
Definition solve_down_with (d : slice_select) (v : view) (cs : list view) : list view * bool :=
  let r := down_reverse d (rev cs) (rev_g d v) (far d v) in
  if snd r then (rev (fst r), true) else down_forward d cs (fwd d v) (near d v).
(** 1594-1692 solve_down_cross: every child *)
Definition down_cross_child (d : slice_select) (v c : view) : view * bool :=
  let '(f', fc, _) := pull_child c (near_of d v c) (fwd_of d c) (fwd d v) in
  let '(r', rc, _) := pull_child c (far_of d v c) (rev_of d c) (rev_g d v) in
  ((let c := if fc then set_fwd d f' c else c in if rc then set_rev d r' c else c), fc || rc).
Definition solve_down_cross (d : slice_select) (v : view) (cs : list view) : list view * bool :=
  let r := map (down_cross_child d v) cs in (map fst r, existsb snd r).
Definition solve_down (d : slice_select) (v : view) (cs : list view) : list view * bool :=
  if is_leaf v then (cs, false) else if is_with (v_placement v) d then solve_down_with d v cs else solve_down_cross d v cs.

(** ** The traversals: eve.cpp:241-251, 350-396 *)

Definition set_roots {A} (ts : list (tree A)) (vs : list A) : list (tree A) := map (fun p => set_root (fst p) (snd p)) (combine ts vs).
Fixpoint postorder {A} (f : A -> list A -> A * list A) (t : tree A) : tree A :=
  match t with Node a ts => let ts := map (postorder f) ts in let r := f a (map root ts) in Node (fst r) (set_roots ts (snd r)) end.
(** the children are visited after they have been updated from their parent, so the recursion takes the new root of the subtree *)
Fixpoint down_from (d : slice_select) (t : tree view) (v : view) {struct t} : tree view * bool :=
  match t with Node _ ts =>
    let r := solve_down d v (map root ts) in
    let rs := (fix go (ts : list (tree view)) (vs : list view) {struct ts} : list (tree view) * bool :=
                 match ts, vs with
                 | t :: ts', v :: vs' => let x := down_from d t v in let y := go ts' vs' in (fst x :: fst y, snd x || snd y)
                 | _, _ => ([], false)
                 end) ts (fst r) in
    (Node v (fst rs), snd r || snd rs)
  end.
Definition down_pass (d : slice_select) (t : tree view) : tree view * bool := down_from d t (root t).
Definition up_pass (d : slice_select) (t : tree view) : tree view := postorder (solve_up d) t.
(** 350-396 solve: at most limiter passes; the result tells whether the last one still made progress (the assertion at 395 fails if so) *)
Fixpoint solve_loop (d : slice_select) (limiter : nat) (t : tree view) : tree view * bool :=
  let r := down_pass d t in
  let t := up_pass d (fst r) in
  match snd r, limiter with
  | true, S limiter' => solve_loop d limiter' t
  | progress, _ => (t, progress)
  end.
Definition solve (d : slice_select) (limiter : nat) (t : tree view) : tree view * bool := solve_loop d limiter (up_pass d t).

(** ** layout: eve.cpp:682-697 *)

Definition put (d : slice_select) (len pos : Z) (c : view) : view := upd d (upd_place (fun p => place_position pos (place_length len p))) c.
(** 850-866 *)
Definition padded_count (d : slice_select) (cs : list view) : Z := Z.of_nat (length (filter (fun c => is_padded (align d c)) cs)).
(** 880-928: the reverse items, right to left over the children (so over the reversed list).  Placed items (in that order), those left,
    padded_count, remaining_additional_length.  None: a division by a padded_count of zero, or a guide past the end of the vector. *)
Fixpoint layout_reverse (d : slice_select) (rcs : list view) (gs : list Z) (rlength padded remaining : Z) : option (list view * list view * Z * Z) :=
  match rcs with
  | [] => Some ([], [], padded, remaining)
  | c :: rcs' =>
    if negb (to_reverse (align d c)) then Some ([], rcs, padded, remaining) else
    let mine := if suppressed d c then [] else rev_g d c in
    let offset := match mine, gs with g :: _, x :: _ => if is_leaf c then Some (x - g) else Some 0 | [], _ => Some 0 | _ :: _, [] => None end in
    match offset with
    | None => None
    | Some o =>
      let rlength := rlength - o in
      match align d c with
      | align_reverse_fill =>
        if padded =? 0 then None else
        let additional := Z.quot remaining padded in
        let len := clen d c + additional in
        match layout_reverse d rcs' (skipn (length mine) gs) (rlength - (len + v_space_before c)) (padded - 1) (remaining - additional) with
        | Some (done, others, p, r) => Some (put d len (rlength - len) c :: done, others, p, r)
        | None => None
        end
      | _ =>
        let len := clen d c in
        match layout_reverse d rcs' (skipn (length mine) gs) (rlength - (len + v_space_before c)) padded remaining with
        | Some (done, others, p, r) => Some (put d len (rlength - len) c :: done, others, p, r)
        | None => None
        end
      end
    end
  end.
(** 930-1019: the other items, left to right.  round_proportion models lines 997-1000: from (length - zero_length), (available_length -
    block_length) and additional_length, the rounded offset, None if the conversion to an integer is undefined.
    None: that, a division by zero, a guide past the end, or std::logic_error (Right align item before other item). *)
Fixpoint layout_forward (round_proportion : Z -> Z -> Z -> option Z) (d : slice_select) (zero available : Z) (cs : list view) (gs : list Z) (len padded remaining : Z) : option (list view) :=
  match cs with
  | [] => Some []
  | c :: cs' =>
    let len := len + v_space_before c in
    let additional := if is_padded (align d c) then Z.quot remaining padded else 0 in
    let padded' := if is_padded (align d c) then padded - 1 else padded in
    let remaining' := remaining - additional in
    if is_padded (align d c) && (padded =? 0) then None else
    let mine := if suppressed d c then [] else fwd d c in
    match align d c with
    | align_forward | align_forward_fill =>
      let start := match mine, gs with g :: _, x :: _ => if is_leaf c then Some (x - g) else Some len | [], _ => Some len | _ :: _, [] => None end in
      match start with
      | None => None
      | Some len =>
        let l := match align d c with align_forward_fill => clen d c + additional | _ => clen d c end in
        option_map (fun done => put d l len c :: done)
          (layout_forward round_proportion d zero available cs' (skipn (length mine) gs) (len + l) padded' remaining')
      end
    | align_center =>
      option_map (fun done => put d (clen d c) (len + Z.quot (clen d c + additional - clen d c) 2) c :: done)
        (layout_forward round_proportion d zero available cs' gs (len + additional + clen d c) padded' remaining')
    | align_proportional =>
      match round_proportion (len - zero) (available - (clen d c + additional)) additional with
      | None => None
      | Some o =>
        option_map (fun done => put d (clen d c) (len + o) c :: done)
          (layout_forward round_proportion d zero available cs' gs (len + additional + clen d c) padded' remaining')
      end
    | align_reverse | align_reverse_fill => None
    | align_default =>
      option_map (fun done => put d (clen d c) (ppos d c) c :: done)
        (layout_forward round_proportion d zero available cs' gs (len + clen d c) padded' remaining')
    end
  end.
(** 832-1021 layout_with *)
Definition layout_with (rp : Z -> Z -> Z -> option Z) (d : slice_select) (v : view) (cs : list view) : option (list view) :=
  match layout_reverse d (rev cs) (rev_g d v) (plen d v - far d v) (padded_count d cs) (plen d v - s_measured_length (slc d v)) with
  | None => None
  | Some (done, others, padded, remaining) =>
    match layout_forward rp d (near d v) (plen d v - near d v - far d v) (rev others) (fwd d v) (near d v) padded remaining with
    | None => None
    | Some placed => Some (placed ++ rev done)
    end
  end.
(** 1025-1103 layout_cross.  Note line 1089: the position of an align_reverse_fill item is computed from the length it had before it was filled. *)
Definition layout_cross_child (d : slice_select) (v c : view) : option view :=
  let lo := near_of d v c in
  let hi := plen d v - far_of d v c in
  match align d c with
  | align_forward | align_forward_fill =>
    let start := match (if suppressed d c then [] else fwd d c), fwd d v with
                 | g :: _, x :: _ => if is_leaf c then Some (x - g) else Some lo
                 | _ :: _, [] => if is_leaf c then None else Some lo
                 | [], _ => Some lo
                 end in
    option_map (fun lo => put d (match align d c with align_forward_fill => hi - lo | _ => clen d c end) lo c) start
  | align_reverse | align_reverse_fill =>
    let stop := match (if suppressed d c then [] else rev_g d c), rev_g d v with
                | g :: _, x :: _ => if is_leaf c then Some (plen d v - (x - g)) else Some hi
                | _ :: _, [] => if is_leaf c then None else Some hi
                | [], _ => Some hi
                end in
    option_map (fun hi => put d (match align d c with align_reverse_fill => hi - lo | _ => clen d c end) (hi - clen d c) c) stop
  | align_center | align_proportional => Some (put d (clen d c) (Z.quot (hi + lo - clen d c) 2) c)
  | align_default => Some (put d (clen d c) (ppos d c) c)
  end.
Fixpoint all_some {A} (l : list (option A)) : option (list A) :=
  match l with [] => Some [] | Some x :: l' => option_map (fun y => x :: y) (all_some l') | None :: _ => None end.
Definition layout_cross (d : slice_select) (v : view) (cs : list view) : option (list view) := all_some (map (layout_cross_child d v) cs).
Definition layout (rp : Z -> Z -> Z -> option Z) (d : slice_select) (v : view) (cs : list view) : option (list view) :=
  if is_leaf v then Some cs else if is_with (v_placement v) d then layout_with rp d v cs else layout_cross d v cs.
(** the preorder traversal: the children are updated from their parent, then visited *)
Fixpoint preorder_from (f : view -> list view -> option (list view)) (t : tree view) (v : view) {struct t} : option (tree view) :=
  match t with Node _ ts =>
    match f v (map root ts) with
    | None => None
    | Some vs =>
      option_map (Node v)
        ((fix go (ts : list (tree view)) (vs : list view) {struct ts} : option (list (tree view)) :=
            match ts, vs with
            | t :: ts', v :: vs' => match preorder_from f t v, go ts' vs' with Some x, Some y => Some (x :: y) | _, _ => None end
            | _, _ => Some []
            end) ts vs)
    end
  end.
(** 400-419 *)
Definition layout_pass (rp : Z -> Z -> Z -> option Z) (d : slice_select) (optional_length : Z) (t : tree view) : option (tree view) :=
  let v := root t in
  preorder_from (layout rp d) t (upd d (upd_place (place_length (if optional_length =? 0 then clen d v else optional_length))) v).

(** ** Outsets, coordinates *)

(** 731-828 adjust_outsets (a leaf too) *)
Definition adjust_outsets (d : slice_select) (v : view) (cs : list view) : view * list view :=
  match cs with
  | [] => (upd d (fun s => upd_place (place_outset (e_outset (s_extents s))) s) v, cs)
  | c :: cs' =>
    let lead x := ppos d x - fst (p_outset (s_place (slc d x))) in
    let trail x := plen d v - (ppos d x + plen d x + snd (p_outset (s_place (slc d x)))) in
    let '(a, b) := if is_with (v_placement v) d then (lead c, trail (last cs c))
                   else (fold_left (fun m x => Z.min m (lead x)) cs (fst (frame d v)), fold_left (fun m x => Z.min m (trail x)) cs (snd (frame d v))) in
    (upd d (fun s => upd_place (fun p => place_outset (Z.max (fst (p_outset p)) (- a), Z.max (snd (p_outset p)) (- b)) p) s) v, cs)
  end.
(** 701-715: the guides are handed to the item *)
Definition deliver_guides (d : slice_select) (v : view) : view :=
  if to_forward (align d v) then upd d (fun s => upd_place (place_guides (s_forward s)) s) v
  else if to_reverse (align d v) then upd d (fun s => upd_place (place_guides (rev (map (fun g => p_length (s_place s) - g) (s_reverse s)))) s) v
  else v.
Definition shift_by (d : slice_select) (x : Z) (c : view) : view := upd d (upd_place (fun p => place_position (p_position p + x) p)) c.
(** 700-727 flatten, preorder: the position of the parent is added unless the coordinates are nested and the parent creates a view *)
Definition stops (o : options) (v : view) : bool := match o with evaluate_nested => v_create v | evaluate_flat => false end.
Fixpoint flatten_from (o : options) (d : slice_select) (offset : Z) (t : tree view) : tree view :=
  match t with Node v ts =>
    let v := deliver_guides d (shift_by d offset v) in
    Node v (map (flatten_from o d (if stops o v then 0 else ppos d v)) ts)
  end.
Definition flatten (o : options) (d : slice_select) (t : tree view) : tree view := flatten_from o d 0 t.

(** ** evaluate and adjust: eve.cpp:423-497 *)

(** 540-574 *)
Definition calculate (v : view) : view :=
  let v := upd horizontal (set_extents (fst (measure (v_placeable v)))) (upd vertical (set_extents (snd (measure (v_placeable v)))) v) in
  upd horizontal (fun s => let e := s_extents s in
    set_lengths (e_length e) (s_measured_length s) (set_place (mk_place (e_length e) (p_position (s_place s)) (e_outset e) (e_guides e)) s)) v.
(** 578-595 *)
Definition calculate_vertical (v : view) : view :=
  let v := match measure_vertical (v_placeable v) with
           | Some f => upd vertical (set_extents (f (s_extents (v_horizontal v), s_extents (v_vertical v)) (s_place (v_horizontal v), s_place (v_vertical v)))) v
           | None => v
           end in
  upd vertical (fun s => let e := s_extents s in
    set_lengths (e_length e) (s_measured_length s) (set_place (mk_place (e_length e) (p_position (s_place s)) (e_outset e) (e_guides e)) s)) v.
Fixpoint map_tree {A B} (f : A -> B) (t : tree A) : tree B := match t with Node a ts => Node (f a) (map (map_tree f) ts) end.
Fixpoint tree_size {A} (t : tree A) : nat := match t with Node _ ts => S (fold_right (fun t n => tree_size t + n)%nat 0%nat ts) end.

(** what is done in one direction; the second component of a result: did the solver settle *)
Definition run_slice (rp : Z -> Z -> Z -> option Z) (o : options) (d : slice_select) (size : nat) (optional_length : Z) (t : tree view) : option (tree view * bool) :=
  let t := postorder (adjust d) t in
  let r := solve d size t in                       (* limiter = size + 1 passes (377) *)
  match layout_pass rp d optional_length (fst r) with
  | None => None
  | Some t => Some (flatten o d (postorder (adjust_outsets d) t), negb (snd r))
  end.
(** 438-497 adjust.  size is the number of all proxies, visible or not.  The result is the tree of the visible proxies after place() has been called
    on each of them (in preorder, with its place_m); the returned pair is the length of the root in either direction. *)
Definition adjust_layout (rp : Z -> Z -> Z -> option Z) (o : options) (size : nat) (width height : Z) (t : tree view) : option (tree view * bool) :=
  match run_slice rp o horizontal size width t with
  | None => None
  | Some (t, settled) =>
    match run_slice rp o vertical size height (map_tree calculate_vertical t) with
    | None => None
    | Some (t, settled') => Some (t, settled && settled')
    end
  end.
(** 423-434 evaluate *)
Definition evaluate_visible (rp : Z -> Z -> Z -> option Z) (o : options) (size : nat) (width height : Z) (t : tree view) : option (tree view * bool) :=
  adjust_layout rp o size width height (map_tree calculate t).

(** ** The tree of all proxies *)

(** 40-57, filter_fullorder (forest.hpp:197-205): an invisible proxy is skipped with everything below it *)
Fixpoint visible_part (t : tree view) : tree view := match t with Node v ts => Node v (map snd (filter (fun p => v_visible (fst p)) (map (fun t => (root t, visible_part t)) ts))) end.
(** what evaluate did to the visible ones, put back *)
Fixpoint merge_visible (t new : tree view) {struct t} : tree view :=
  match t with Node _ ts =>
    Node (root new)
      ((fix go (ts : list (tree view)) (ns : list (tree view)) {struct ts} : list (tree view) :=
          match ts with
          | [] => []
          | t :: ts' => if v_visible (root t) then match ns with n :: ns' => merge_visible t n :: go ts' ns' | [] => t :: go ts' [] end else t :: go ts' ns
          end) ts (kids new))
  end.
Definition evaluate (rp : Z -> Z -> Z -> option Z) (o : options) (width height : Z) (t : tree view) : option (tree view * bool) :=
  option_map (fun r => (merge_visible t (fst r), snd r)) (evaluate_visible rp o (tree_size t) width height (visible_part t)).
Definition resize (rp : Z -> Z -> Z -> option Z) (o : options) (width height : Z) (t : tree view) : option (tree view * bool) :=
  option_map (fun r => (merge_visible t (fst r), snd r)) (adjust_layout rp o (tree_size t) width height (visible_part t)).
