(** What a layout is, said with lengths and positions only. *)
From Verif Require Import Prelude Eve_Model.
From Coq Require Import List ZArith Lia Bool.
Import ListNotations.
Open Scope Z_scope.

(** every node of a tree with the subtrees below it *)
Fixpoint every {A} (P : A -> list (tree A) -> Prop) (t : tree A) : Prop :=
  match t with Node a ts => P a ts /\ fold_right (fun t q => every P t /\ q) True ts end.

(** the alignment of a child: its own, or the one its container gives to its children *)
Definition alignment_in (d : slice_select) (v c : view) : alignment := match align d c with align_default => s_child_alignment (slc d v) | a => a end.
(** the gap in front of the first child of a line is the first number of the list of spacings, and so on; the last number is used again and again *)
Definition gap (sp : list Z) (final : Z) : Z := match sp with x :: _ => x | [] => final end.
Fixpoint line_length (sp : list Z) (final : Z) (ls : list Z) : Z :=
  match ls with [] => 0 | l :: ls' => gap sp final + l + line_length (tl sp) final ls' end.
Definition last_gap (v : view) : Z := last (v_spacing v) 0.
Definition indent_in (d : slice_select) (v c : view) : Z := if to_forward (alignment_in d v c) || to_reverse (alignment_in d v c) then v_indent c else 0.
(** the room that the children of v need in v, frame and margins included: side by side, or one above the other *)
Definition content (d : slice_select) (v : view) (cs : list (view * Z)) : Z :=
  near d v + far d v +
  if is_with (v_placement v) d then line_length (v_spacing v) (last_gap v) (map snd cs)
  else fold_right (fun c m => Z.max (snd c + indent_in d v (fst c)) m) 0 cs.
(** the least length of a view: what it measured, and room for its children *)
Fixpoint natural (d : slice_select) (t : tree view) : Z :=
  match t with Node v ts =>
    if is_leaf v then e_length (s_extents (slc d v))
    else Z.max (e_length (s_extents (slc d v))) (content d v (map (fun t => (root t, natural d t)) ts))
  end.
Definition content_of (d : slice_select) (v : view) (ts : list (tree view)) : Z := content d v (map (fun t => (root t, natural d t)) ts).

(** the item t, whose alignment is a, in the block of its line that begins at b and is share longer than the natural length of the item *)
Definition in_block (d : slice_select) (a : alignment) (t : tree view) (b share : Z) : Prop :=
  let pos := ppos d (root t) in let len := plen d (root t) in
  match a with
  | align_forward_fill | align_reverse_fill => pos = b /\ len = natural d t + share
  | align_forward | align_reverse => pos = b /\ len = natural d t /\ share = 0
  | align_center => pos = b + share / 2 /\ len = natural d t
  | align_proportional => b <= pos <= b + share /\ len = natural d t
  | align_default => False
  end.
(** blocks one after the other, each after its gap, from start to stop *)
Fixpoint tiles (d : slice_select) (v : view) (sp : list Z) (start : Z) (ts : list (tree view)) (shares : list Z) (stop : Z) : Prop :=
  match ts, shares with
  | [], [] => start = stop
  | t :: ts', s :: shares' => in_block d (alignment_in d v (root t)) t (start + gap sp (last_gap v)) s /\
                              tiles d v (tl sp) (start + gap sp (last_gap v) + natural d t + s) ts' shares' stop
  | _, _ => False
  end.
Definition sum (l : list Z) : Z := fold_right Z.add 0 l.
Fixpoint drop (n : nat) (sp : list Z) : list Z := match n with O => sp | S n' => drop n' (tl sp) end.
(** the shares of extra space: evenly, to the pixel, over the items that take extra space *)
Definition fair (q : Z) (d : slice_select) (v : view) (t : tree view) (share : Z) : Prop :=
  if is_padded (alignment_in d v (root t)) then share = q \/ share = q + 1 else share = 0.
(** The line from lo to hi: the items that are not right aligned from the left, the right aligned ones up to the right end; extra is the room that is left.
    If an item takes extra space, all of it is used and there is no slack between the two groups. *)
Definition line_laid (d : slice_select) (v : view) (ts : list (tree view)) (lo hi extra : Z) : Prop :=
  exists fs rs fsh rsh mid slack q,
    ts = fs ++ rs /\
    Forall (fun t => to_reverse (alignment_in d v (root t)) = false) fs /\ Forall (fun t => to_reverse (alignment_in d v (root t)) = true) rs /\
    tiles d v (v_spacing v) lo fs fsh mid /\ tiles d v (drop (length fs) (v_spacing v)) (mid + slack) rs rsh hi /\
    Forall2 (fair q d v) fs fsh /\ Forall2 (fair q d v) rs rsh /\ 0 <= q /\ 0 <= slack /\ sum fsh + sum rsh + slack = extra /\
    (Exists (fun t => is_padded (alignment_in d v (root t)) = true) ts -> slack = 0).
(** Across: each item on its own between lo and hi. *)
Definition cross_laid (d : slice_select) (v : view) (t : tree view) (lo hi : Z) : Prop :=
  let pos := ppos d (root t) in let len := plen d (root t) in
  match alignment_in d v (root t) with
  | align_forward => pos = lo + v_indent (root t) /\ len = natural d t
  | align_forward_fill => pos = lo + v_indent (root t) /\ pos + len = hi
  | align_reverse => pos + len = hi - v_indent (root t) /\ len = natural d t
  | align_reverse_fill => pos = lo /\ pos + len = hi - v_indent (root t)
  | align_center | align_proportional => len = natural d t /\ lo <= pos /\ pos + len <= hi /\ Z.abs ((pos - lo) - (hi - (pos + len))) <= 1
  | align_default => False
  end.
(** Where the coordinates of the children of v begin. *)
Definition origin (o : options) (d : slice_select) (v : view) : Z := if stops o v then 0 else ppos d v.
Definition laid_out (o : options) (d : slice_select) (v : view) (ts : list (tree view)) : Prop :=
  if is_leaf v then True else
  let lo := origin o d v + near d v in let hi := origin o d v + plen d v - far d v in
  if is_with (v_placement v) d then line_laid d v ts lo hi (plen d v - content_of d v ts)
  else Forall (fun t => cross_laid d v t lo hi) ts.

(** Containment and order, the part that users see first *)
Fixpoint in_order (d : slice_select) (sp : list Z) (final lo hi : Z) (ts : list (tree view)) : Prop :=
  match ts with
  | [] => lo <= hi
  | t :: ts' => lo + gap sp final <= ppos d (root t) /\ natural d t <= plen d (root t) /\ in_order d (tl sp) final (ppos d (root t) + plen d (root t)) hi ts'
  end.
Definition contained (o : options) (d : slice_select) (v : view) (ts : list (tree view)) : Prop :=
  if is_leaf v then True else
  let lo := origin o d v + near d v in let hi := origin o d v + plen d v - far d v in
  if is_with (v_placement v) d then in_order d (v_spacing v) (last_gap v) lo hi ts
  else Forall (fun t => lo <= ppos d (root t) /\ natural d t <= plen d (root t) /\ ppos d (root t) + plen d (root t) <= hi) ts.

(** The computation with doubles may round as it likes, as long as proportions between 0 and 1 give offsets between 0 and the additional length *)
Definition sensible_rounding (rp : Z -> Z -> Z -> option Z) : Prop :=
  forall num den additional o, 0 <= num <= den -> 0 <= additional -> rp num den additional = Some o -> 0 <= o <= additional.
(** rounding half up of the exact quotient: undefined without a denominator (0/0 is NaN, and its conversion to an integer is undefined) *)
Definition exact_rounding (num den additional : Z) : option Z := if den =? 0 then None else Some ((2 * num * additional + den) / (2 * den)).

(** An attribute set a form would have: nothing negative *)
Definition non_negative (d : slice_select) (v : view) : Prop :=
  0 <= fst (frame d v) /\ 0 <= snd (frame d v) /\ 0 <= fst (margin d v) /\ 0 <= snd (margin d v) /\ 0 <= v_indent v /\ Forall (fun x => 0 <= x) (v_spacing v) /\
  0 <= e_length (s_extents (slc d v)).
(** No guides: none measured, none left from before; or suppressed *)
Definition unguided (d : slice_select) (v : view) : Prop := suppressed d v = true \/ (e_guides (s_extents (slc d v)) = [] /\ fwd d v = [] /\ rev_g d v = []).
(** the children of a container get an alignment *)
Definition aligned (d : slice_select) (v : view) : Prop := s_child_alignment (slc d v) <> align_default.
(** no item that fills from the right across its container (where the code goes wrong) *)
Definition no_reverse_fill (d : slice_select) (v : view) (ts : list (tree view)) : Prop :=
  is_leaf v = false -> is_with (v_placement v) d = false -> Forall (fun t => alignment_in d v (root t) <> align_reverse_fill) ts.
(** Where a line can be laid out: the right aligned items stand last (the engine throws otherwise), and a proportional item is not all there is in its
    line (the engine divides zero by zero otherwise) *)
Definition orderly (d : slice_select) (v : view) (ts : list (tree view)) : Prop :=
  is_leaf v = false -> is_with (v_placement v) d = true ->
  (exists fs rs, ts = fs ++ rs /\ Forall (fun t => to_reverse (alignment_in d v (root t)) = false) fs /\ Forall (fun t => to_reverse (alignment_in d v (root t)) = true) rs) /\
  Forall (fun t => alignment_in d v (root t) = align_proportional -> near d v + far d v + natural d t < content_of d v ts) ts.
Definition defined_rounding (rp : Z -> Z -> Z -> option Z) : Prop :=
  forall num den additional, 0 <= num <= den -> 0 < den -> 0 <= additional -> exists o, rp num den additional = Some o.

(** ** Whole forms *)
(** What measure() and measure_vertical() may say: nothing negative, and guides only for a leaf that suppresses them (the guides of a container are not looked at) *)
Definition measured_well (d : slice_select) (v : view) (e : extents) : Prop :=
  0 <= e_length e /\ 0 <= fst (e_frame e) /\ 0 <= snd (e_frame e) /\ (is_leaf v = true -> suppressed d v = true \/ e_guides e = []).
Definition measurable (v : view) : Prop :=
  measured_well horizontal v (fst (measure (v_placeable v))) /\ measured_well vertical v (snd (measure (v_placeable v))) /\
  forall f, measure_vertical (v_placeable v) = Some f -> forall e p, measured_well vertical v (f e p).
(** the attributes: nothing negative, leaves without children, containers that tell how to align, no guides kept from earlier *)
Definition formed (d : slice_select) (v : view) (ts : list (tree view)) : Prop :=
  0 <= fst (margin d v) /\ 0 <= snd (margin d v) /\ 0 <= v_indent v /\ Forall (fun x => 0 <= x) (v_spacing v) /\
  (if is_leaf v then ts = [] /\ (suppressed d v = true \/ fwd d v = [] /\ rev_g d v = []) else aligned d v) /\ no_reverse_fill d v ts.
Definition good_form (v : view) (ts : list (tree view)) : Prop := formed horizontal v ts /\ formed vertical v ts /\ measurable v.
(** what is never changed *)
Definition attributes (v : view) :=
  (v_placeable v, v_visible v, v_placement v, v_indent v, v_create v, v_spacing v,
   (s_balance (v_horizontal v), s_margin (v_horizontal v), s_child_alignment (v_horizontal v)), (s_balance (v_vertical v), s_margin (v_vertical v), s_child_alignment (v_vertical v))).
(** the alignment of each view, settled *)
Fixpoint alignments (d : slice_select) (inherited : alignment) (t : tree view) : tree alignment :=
  match t with Node v ts => Node (match align d v with align_default => inherited | a => a end) (map (alignments d (s_child_alignment (slc d v))) ts) end.
(** the extents a layout is made from: those measured; the vertical ones are measured after the horizontal layout, from the final width *)
Definition well_measured (v : view) : Prop :=
  s_extents (v_horizontal v) = fst (measure (v_placeable v)) /\
  match measure_vertical (v_placeable v) with
  | None => s_extents (v_vertical v) = snd (measure (v_placeable v))
  | Some f => exists p, s_extents (v_vertical v) = f (measure (v_placeable v)) (s_place (v_horizontal v), p)
  end.
(** the lines of a form can be laid out whatever the lengths: right aligned items stand last, no proportional ones *)
Definition right_last (d : slice_select) (v : view) (ts : list (tree view)) : Prop :=
  is_leaf v = false -> is_with (v_placement v) d = true ->
  exists fs rs, ts = fs ++ rs /\ Forall (fun t => to_reverse (alignment_in d v (root t)) = false) fs /\ Forall (fun t => to_reverse (alignment_in d v (root t)) = true) rs.
Definition no_proportional (d : slice_select) (v : view) (ts : list (tree view)) : Prop :=
  is_leaf v = false -> is_with (v_placement v) d = true -> Forall (fun t => alignment_in d v (root t) <> align_proportional) ts.

(** ** Guides *)
(** the guides that are handed to the item; the place of the k-th one in the coordinates of the item *)
Definition guides_of (d : slice_select) (c : view) : list Z := p_guides (s_place (slc d c)).
Definition at_guide (d : slice_select) (c : view) (k : nat) (x : Z) : Prop := exists g, nth_error (guides_of d c) k = Some g /\ x = ppos d c + g.
Definition at_guide_from_right (d : slice_select) (c : view) (k : nat) (x : Z) : Prop := exists g, nth_error (rev (guides_of d c)) k = Some g /\ x = ppos d c + g.
(** Among the items one above the other: the k-th guides of all left aligned items are at the same place, so are those of the right aligned ones counted from the right *)
Definition guides_line_up (d : slice_select) (v : view) (ts : list (tree view)) : Prop :=
  is_leaf v = false -> is_with (v_placement v) d = false -> forall t1 t2 k x1 x2, In t1 ts -> In t2 ts -> suppressed d (root t1) = false -> suppressed d (root t2) = false ->
  (to_forward (align d (root t1)) = true -> to_forward (align d (root t2)) = true -> at_guide d (root t1) k x1 -> at_guide d (root t2) k x2 -> x1 = x2) /\
  (align d (root t1) = align_reverse -> align d (root t2) = align_reverse -> at_guide_from_right d (root t1) k x1 -> at_guide_from_right d (root t2) k x2 -> x1 = x2).
(** The guides of a container are those of its items, in its own coordinates: one above the other the k-th is the k-th; in a line a leaf adds its guides to those in front of it *)
Definition shown (d : slice_select) (t : tree view) : nat := if negb (suppressed d (root t)) && to_forward (align d (root t)) then length (guides_of d (root t)) else 0%nat.
Definition guides_go_up (o : options) (d : slice_select) (v : view) (ts : list (tree view)) : Prop :=
  is_leaf v = false -> to_forward (align d v) = true -> forall before t after, ts = before ++ t :: after -> suppressed d (root t) = false -> to_forward (align d (root t)) = true ->
  forall k x, at_guide d (root t) k x ->
  if is_with (v_placement v) d then is_leaf (root t) = true -> Forall (fun t => to_reverse (align d (root t)) = false) before -> nth_error (guides_of d v) (fold_right (fun t n => shown d t + n)%nat 0%nat before + k) = Some (x - origin o d v)
  else nth_error (guides_of d v) k = Some (x - origin o d v).
(** Each leaf in a container gets as many guides as it measured, and its first one (the first from the right, if it is right aligned) where it measured it *)
Definition keeps_first_guide (d : slice_select) (v : view) (ts : list (tree view)) : Prop :=
  is_leaf v = false -> Forall (fun t => let c := root t in let gs := e_guides (s_extents (slc d c)) in is_leaf c = true ->
    (to_forward (align d c) = true -> length (guides_of d c) = length gs /\ hd_error (guides_of d c) = hd_error gs) /\
    (align d c = align_reverse -> length (guides_of d c) = length gs /\ option_map (fun g => plen d c - g) (hd_error (rev (guides_of d c))) = option_map (fun g => e_length (s_extents (slc d c)) - g) (hd_error (rev gs)))) ts.
Definition unbalanced (d : slice_select) (v : view) : Prop := s_balance (slc d v) = false.

(** ** Sessions *)
(** two trees of the same shape that agree at every view in what g reads *)
Definition alike {B} (g : view -> B) (t t' : tree view) : Prop := map_tree g t = map_tree g t'.
(** the subtrees that are hidden *)
Fixpoint hidden (t : tree view) : list (tree view) := match t with Node _ ts => flat_map (fun t => if v_visible (root t) then hidden t else [t]) ts end.
(** What evaluate leaves of the visible views t (it leaves the tree t') *)
Record evaluated (o : options) (w h : Z) (t t' : tree view) : Prop := {
  ev_laid_h : every (laid_out o horizontal) t';
  ev_laid_v : every (laid_out o vertical) t';
  ev_length_h : plen horizontal (root t') = if w =? 0 then natural horizontal t' else w;
  ev_length_v : plen vertical (root t') = if h =? 0 then natural vertical t' else h;
  ev_position : forall d, ppos d (root t') = ppos d (root t);
  ev_attributes : alike attributes t' t;
  ev_alignments : forall d a, alignments d a t' = alignments d a t;
  ev_measured : every (fun v _ => well_measured v) t' }.

(** set_visible (eve.cpp:347) may be called with any views *)
Definition set_visible (b : bool) (v : view) : view :=
  mk_view (v_placeable v) b (v_placement v) (v_indent v) (v_create v) (v_spacing v) (v_space_before v) (v_horizontal v) (v_vertical v).
(** A size that is asked for: the default (0), or one the views fit in *)
Definition big_enough (d : slice_select) (w : Z) (t : tree view) : Prop := w = 0 \/ natural d t <= w.
(** A form opened with a good form, shown, resized, with views hidden and shown again: resized (adjust) only when no view has been hidden or shown since it was evaluated.
    The second index tells the options and the sizes of the last layout, if nothing has been hidden or shown since. *)
Inductive session (rp : Z -> Z -> Z -> option Z) : tree view -> option (options * Z * Z) -> Prop :=
| session_opened t : every good_form t -> session rp t None
| session_shown t s t' : session rp t s -> alike (set_visible true) t' t -> session rp t' None
| session_evaluated o w h t s t' ok : session rp t s -> big_enough horizontal w (visible_part t') -> big_enough vertical h (visible_part t') -> evaluate rp o w h t = Some (t', ok) -> session rp t' (Some (o, w, h))
| session_resized o w h t s t' ok : session rp t (Some s) -> big_enough horizontal w (visible_part t') -> big_enough vertical h (visible_part t') -> resize rp o w h t = Some (t', ok) -> session rp t' (Some (o, w, h)).
(** the extents of a view in a session: the horizontal ones measured; the vertical ones measured, or computed again from the final width *)
Definition measured_from_width (v : view) : Prop :=
  s_extents (v_horizontal v) = fst (measure (v_placeable v)) /\
  match measure_vertical (v_placeable v) with
  | None => s_extents (v_vertical v) = snd (measure (v_placeable v))
  | Some f => exists e p, s_extents (v_vertical v) = f (fst (measure (v_placeable v)), e) (s_place (v_horizontal v), p)
  end.
(** What is on the screen after a layout: every view in its place, in both directions *)
Record displayed (o : options) (w h : Z) (t : tree view) : Prop := {
  dp_contained : forall d, every (contained o d) t;
  dp_laid : forall d, every (laid_out o d) t;
  dp_width : plen horizontal (root t) = if w =? 0 then natural horizontal t else w;
  dp_height : plen vertical (root t) = if h =? 0 then natural vertical t else h;
  dp_measured : every (fun v _ => measured_from_width v) t }.
(** All views and all leaves of a tree, in preorder; the room a view takes; two views side by side, or one above the other *)
Fixpoint views (t : tree view) : list view := match t with Node v ts => v :: flat_map views ts end.
Fixpoint leaves (t : tree view) : list view := match t with Node v ts => if is_leaf v then [v] else flat_map leaves ts end.
Definition box_in (d : slice_select) (v w : view) : Prop := ppos d w <= ppos d v /\ ppos d v + plen d v <= ppos d w + plen d w.
Definition apart (v w : view) : Prop :=
  (ppos horizontal v + plen horizontal v <= ppos horizontal w \/ ppos horizontal w + plen horizontal w <= ppos horizontal v) \/
  (ppos vertical v + plen vertical v <= ppos vertical w \/ ppos vertical w + plen vertical w <= ppos vertical v).
