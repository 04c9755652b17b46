(** Specification of adobe::forest: a forest is its fullorder word.

    The fullorder word of a list of ordered trees lists, for every node, its
    leading edge, then the words of its children, then its trailing edge. *)
From Verif Require Import Prelude Forest_Model.
Set Implicit Arguments.

Definition word := list iter.

(** Ordered trees of node numbers and their fullorder words. *)
Inductive tree := TNode (id : nat) (kids : list tree).
Fixpoint tree_word (t : tree) : word :=
  match t with TNode n kids => lead n :: flat_map tree_word kids ++ [trail n] end.
Definition forest_word (ts : list tree) : word := flat_map tree_word ts.

(** Reading a word with a stack of open nodes; [None] if a trailing edge does
    not close the innermost open node. *)
Fixpoint nest (stack : list nat) (w : word) : option (list nat) :=
  match w with
  | [] => Some stack
  | (n, true) :: rest => nest (n :: stack) rest
  | (n, false) :: rest =>
      match stack with
      | m :: s => if m =? n then nest s rest else None
      | [] => None
      end
  end.

(** A complete, properly nested word. *)
Definition nested (w : word) : Prop := nest [] w = Some [].

(** The number of nodes of a complete word. *)
Definition node_count (w : word) : nat := length (filter snd w).

(** Walking: [steps next i w j] -- starting at [i] the successive results of
    [next] are the elements of [w] and then [j]. *)
Fixpoint steps (next : iter -> option iter) (i : iter) (w : word) (j : iter) : Prop :=
  match w with
  | [] => next i = Some j
  | x :: rest => next i = Some x /\ steps next x rest j
  end.

(** Forest number k of the abstract state is the pair of its root node and its
    word; [vals] gives the value of every node ever created ([None] for the roots). *)
Record sstate (T : Type) := SS { words : list (nat * word); vals : list (option T) }.

Section Ops.
Context {T : Type}.

(** Operations on numbered forests.  Iterators are node numbers with an edge;
    a new node gets the next unused number. *)
Inductive fop :=
| FNew                                         (* forest() *)
| FInsert (f : nat) (pos : iter) (v : T)       (* f.insert(pos, v) *)
| FPushFront (f : nat) (v : T)                 (* f.push_front(v) *)
| FPushBack (f : nat) (v : T)                  (* f.push_back(v) *)
| FPopFront (f : nat)                          (* f.pop_front() *)
| FPopBack (f : nat)                           (* f.pop_back() *)
| FErase (f : nat) (pos : iter)                (* f.erase(pos) *)
| FEraseRange (f : nat) (first last : iter)    (* f.erase(first, last) *)
| FClear (f : nat)                             (* f.clear() *)
| FSpliceSame (f : nat) (pos first last : iter)  (* f.splice(pos, f, first, last) *)
| FSplice (f : nat) (pos : iter) (x : nat) (first last : iter) (* f.splice(pos, x, first, last) *)
| FSpliceNode (f : nat) (pos : iter) (x : nat) (i : iter)      (* f.splice(pos, x, i) *)
| FSpliceAll (f : nat) (pos : iter) (x : nat)                  (* f.splice(pos, x) *)
| FMove (f x : nat)                            (* f = std::move(x) *)
| FInsertParent (f : nat) (first last : iter) (v : T)          (* f.insert_parent(first, last, v) *)
| FReverseChildren (f : nat) (p : nat)  (* f.reverse(child_begin(p), child_end(p)) *)
| FInsertRange (f : nat) (pos : iter) (x : nat) (first last : iter) (* f.insert(pos, first, last), copying from x *)
| FTransform (f : nat) (pos : iter) (x : nat) (first last : iter) (g : T -> T)
                                        (* transform_forest(first, last, f, pos, g), reading from x *)
| FCopy (x : nat)                       (* forest(x) *)
| FSize (f : nat)                       (* f.size() *)
| FParent (f : nat) (i : iter)          (* find_parent(i) *)
| FEmpty (f : nat)                      (* f.empty() *)
| FHasChildren (f : nat) (i : iter)     (* has_children(i) *)
| FEqual (f x : nat).                   (* f == x *)

Inductive fout := FNothing | FIter (i : iter) | FNum (n : nat) | FBool (b : bool).

(** The whole circle of forest (r, w): the root's leading edge, the word, the
    root's trailing edge, which is end(). *)
Definition circle (rw : nat * word) : word := lead (fst rw) :: snd rw ++ [trail (fst rw)].

Definition without (p : nat -> bool) (w : word) : word := filter (fun i => negb (p (fst i))) w.

Definition inside_both (u : word) (n : nat) : bool :=
  (existsb (iter_eqb (lead n)) u && existsb (iter_eqb (trail n)) u)%bool.

(** Same shape and equal values, node by node. *)
Fixpoint same_forest (eqb : T -> T -> bool) (vs : list (option T)) (u w : word) : bool :=
  match u, w with
  | [], [] => true
  | (n, e) :: u', (m, e') :: w' =>
      (Bool.eqb e e' &&
       (if e then match nth n vs None, nth m vs None with Some a, Some b => eqb a b | _, _ => false end
        else true) &&
       same_forest eqb vs u' w')%bool
  | _, _ => false
  end.

(** The copy of word [w] on new nodes numbered from [k] in order of their
    leading edges; [ren] maps the copied nodes to the new ones. *)
Fixpoint renumber (k : nat) (ren : list (nat * nat)) (w : word) : word :=
  match w with
  | [] => []
  | (n, true) :: rest => lead k :: renumber (S k) ((n, k) :: ren) rest
  | (n, false) :: rest =>
      trail (match find (fun p => fst p =? n) ren with Some p => snd p | None => n end) :: renumber k ren rest
  end.

Variable eqb : T -> T -> bool.

Definition at_ (s : sstate T) (f : nat) (rw : nat * word) : Prop := nth_error (words s) f = Some rw.

(** What each operation does to the words and what it returns.  A position in
    a forest with root [r] and word [a ++ b] is written by its split: the iterator
    at the split is [hd (trail r) b], which is end() when [b] is empty. *)
Inductive sstep : fop -> sstate T -> sstate T -> fout -> Prop :=
| s_new s :
    sstep FNew s (SS (words s ++ [(length (vals s), [])]) (vals s ++ [None])) FNothing
| s_insert s f r a b v :
    at_ s f (r, a ++ b) ->
    let n := length (vals s) in
    sstep (FInsert f (hd (trail r) b) v) s
      (SS (upd (words s) f (r, a ++ lead n :: trail n :: b)) (vals s ++ [Some v]))
      (FIter (lead n))
| s_push_front s f r w v :
    at_ s f (r, w) ->
    let n := length (vals s) in
    sstep (FPushFront f v) s (SS (upd (words s) f (r, lead n :: trail n :: w)) (vals s ++ [Some v])) FNothing
| s_push_back s f r w v :
    at_ s f (r, w) ->
    let n := length (vals s) in
    sstep (FPushBack f v) s (SS (upd (words s) f (r, w ++ [lead n; trail n])) (vals s ++ [Some v])) FNothing
| s_pop_front s f r n w :
    (* only the node itself goes; its children take its place *)
    at_ s f (r, lead n :: w) ->
    sstep (FPopFront f) s (SS (upd (words s) f (r, without (Nat.eqb n) w)) (vals s)) FNothing
| s_pop_back s f r n w :
    at_ s f (r, w ++ [trail n]) ->
    sstep (FPopBack f) s (SS (upd (words s) f (r, without (Nat.eqb n) w)) (vals s)) FNothing
| s_erase s f r a n e b :
    (* the returned position follows the erased edge, skipping the erased node *)
    at_ s f (r, a ++ (n, e) :: b) ->
    sstep (FErase f (n, e)) s
      (SS (upd (words s) f (r, without (Nat.eqb n) (a ++ b))) (vals s))
      (FIter (hd (trail r) (without (Nat.eqb n) b)))
| s_erase_range s f r a u b :
    at_ s f (r, a ++ u ++ b) ->
    sstep (FEraseRange f (hd (trail r) (u ++ b)) (hd (trail r) b)) s
      (SS (upd (words s) f (r, a ++ without (inside_both u) u ++ b)) (vals s))
      (FIter (hd (trail r) b))
| s_clear s f r w :
    at_ s f (r, w) -> sstep (FClear f) s (SS (upd (words s) f (r, [])) (vals s)) FNothing
| s_splice_same_none s f r w pos i :
    (* an empty range *)
    at_ s f (r, w) -> sstep (FSpliceSame f pos i i) s s (FIter pos)
| s_splice_same_left s f r a b u c :
    (* moving the sibling range u = [first,last) to an earlier position *)
    at_ s f (r, a ++ b ++ u ++ c) -> nested u -> u <> [] ->
    sstep (FSpliceSame f (hd (trail r) (b ++ u ++ c)) (hd (trail r) u) (hd (trail r) c)) s
      (SS (upd (words s) f (r, a ++ u ++ b ++ c)) (vals s)) (FIter (hd (trail r) u))
| s_splice_same_right s f r a u b c :
    (* moving it to a later position *)
    at_ s f (r, a ++ u ++ b ++ c) -> nested u -> u <> [] ->
    sstep (FSpliceSame f (hd (trail r) c) (hd (trail r) u) (hd (trail r) (b ++ c))) s
      (SS (upd (words s) f (r, a ++ b ++ u ++ c)) (vals s)) (FIter (hd (trail r) u))
| s_splice s f x r a b r' a' u b' :
    f <> x -> at_ s f (r, a ++ b) -> at_ s x (r', a' ++ u ++ b') -> nested u ->
    sstep (FSplice f (hd (trail r) b) x (hd (trail r') (u ++ b')) (hd (trail r') b')) s
      (SS (upd (upd (words s) f (r, a ++ u ++ b)) x (r', a' ++ b')) (vals s))
      (FIter (hd (trail r) (u ++ b)))
| s_splice_node s f x r a b r' a' n e u b' :
    f <> x -> at_ s f (r, a ++ b) -> at_ s x (r', a' ++ (lead n :: u ++ [trail n]) ++ b') -> nested u ->
    sstep (FSpliceNode f (hd (trail r) b) x (n, e)) s
      (SS (upd (upd (words s) f (r, a ++ (lead n :: u ++ [trail n]) ++ b)) x (r', a' ++ b')) (vals s))
      (FIter (lead n))
| s_splice_all s f x r a b r' w' :
    f <> x -> at_ s f (r, a ++ b) -> at_ s x (r', w') ->
    sstep (FSpliceAll f (hd (trail r) b) x) s
      (SS (upd (upd (words s) f (r, a ++ w' ++ b)) x (r', [])) (vals s))
      (FIter (hd (trail r) (w' ++ b)))
| s_move s f x r w r' w' :
    f <> x -> at_ s f (r, w) -> at_ s x (r', w') ->
    sstep (FMove f x) s (SS (upd (upd (words s) f (r, w')) x (r', [])) (vals s)) FNothing
| s_insert_parent s f r a u b v :
    at_ s f (r, a ++ u ++ b) -> nested u ->
    let n := length (vals s) in
    sstep (FInsertParent f (hd (trail r) (u ++ b)) (hd (trail r) b) v) s
      (SS (upd (words s) f (r, a ++ lead n :: u ++ trail n :: b)) (vals s ++ [Some v]))
      (FIter (lead n))
| s_reverse s f r w a p ts b w' :
    (* the children ts of p; p may be the root *)
    at_ s f (r, w) -> circle (r, w) = a ++ lead p :: forest_word ts ++ trail p :: b ->
    circle (r, w') = a ++ lead p :: forest_word (rev ts) ++ trail p :: b ->
    sstep (FReverseChildren f p) s (SS (upd (words s) f (r, w')) (vals s)) FNothing
| s_insert_range s f x r a b r' a' u b' :
    f <> x -> at_ s f (r, a ++ b) -> at_ s x (r', a' ++ u ++ b') -> nested u ->
    sstep (FInsertRange f (hd (trail r) b) x (hd (trail r') (u ++ b')) (hd (trail r') b')) s
      (SS (upd (words s) f (r, a ++ renumber (length (vals s)) [] u ++ b))
          (vals s ++ map (fun i => nth (fst i) (vals s) None) (filter snd u)))
      (FIter (hd (trail r) b))
| s_transform s f x r a b r' a' u b' g :
    f <> x -> at_ s f (r, a ++ b) -> at_ s x (r', a' ++ u ++ b') -> nested u ->
    sstep (FTransform f (hd (trail r) b) x (hd (trail r') (u ++ b')) (hd (trail r') b') g) s
      (SS (upd (words s) f (r, a ++ renumber (length (vals s)) [] u ++ b))
          (vals s ++ map (fun i => option_map g (nth (fst i) (vals s) None)) (filter snd u)))
      FNothing
| s_copy s x r w :
    at_ s x (r, w) ->
    sstep (FCopy x) s
      (SS (words s ++ [(length (vals s), renumber (S (length (vals s))) [] w)])
          (vals s ++ None :: map (fun i => nth (fst i) (vals s) None) (filter snd w)))
      FNothing
| s_size s f r w : at_ s f (r, w) -> sstep (FSize f) s s (FNum (node_count w))
| s_parent s f r w a p ts n kids ts' b e :
    at_ s f (r, w) ->
    circle (r, w) = a ++ lead p :: forest_word (ts ++ TNode n kids :: ts') ++ trail p :: b ->
    sstep (FParent f (n, e)) s s (FIter (trail p))
| s_empty s f r w :
    at_ s f (r, w) -> sstep (FEmpty f) s s (FBool (match w with [] => true | _ => false end))
| s_has_children s f r w a n kids b e :
    at_ s f (r, w) -> circle (r, w) = a ++ tree_word (TNode n kids) ++ b ->
    sstep (FHasChildren f (n, e)) s s (FBool (match kids with [] => false | _ => true end))
| s_equal s f x r w r' w' :
    at_ s f (r, w) -> at_ s x (r', w') ->
    sstep (FEqual f x) s s (FBool (same_forest eqb (vals s) w w')).

Inductive ssteps : list fop -> sstate T -> sstate T -> list fout -> Prop :=
| ss_nil s : ssteps [] s s []
| ss_cons o ops s s1 s2 x xs : sstep o s s1 x -> ssteps ops s1 s2 xs -> ssteps (o :: ops) s s2 (x :: xs).

(** The concrete machine: the node store and the forest objects. *)
Record mstate := MS { mstore : store (T := T); forests : list forest }.

Definition put1 (m : mstate) (f : nat) (r : option (store (T := T) * forest * iter)) : option (mstate * fout) :=
  match r with Some (h, x, i) => Some (MS h (upd (forests m) f x), FIter i) | None => None end.
Definition put2 (m : mstate) (f g : nat) (r : option (store (T := T) * forest * forest * iter)) : option (mstate * fout) :=
  match r with Some (h, x, y, i) => Some (MS h (upd (upd (forests m) f x) g y), FIter i) | None => None end.

(** [fuel] bounds the loops inside one operation. *)
Definition mstep (fuel : nat) (o : fop) (m : mstate) : option (mstate * fout) :=
  let h := mstore m in
  let fs := forests m in
  match o with
  | FNew => let '(h', f) := new_forest h in Some (MS h' (fs ++ [f]), FNothing)
  | FInsert f pos v => let* x := nth_error fs f in put1 m f (insert h x pos v)
  | FPushFront f v => let* x := nth_error fs f in let* (m', _) := put1 m f (push_front h x v) in Some (m', FNothing)
  | FPushBack f v => let* x := nth_error fs f in let* (m', _) := put1 m f (push_back h x v) in Some (m', FNothing)
  | FPopFront f => let* x := nth_error fs f in let* (m', _) := put1 m f (pop_front h x) in Some (m', FNothing)
  | FPopBack f => let* x := nth_error fs f in let* (m', _) := put1 m f (pop_back h x) in Some (m', FNothing)
  | FErase f pos => let* x := nth_error fs f in put1 m f (erase h x pos)
  | FEraseRange f a b => let* x := nth_error fs f in put1 m f (erase_range fuel h x a b)
  | FClear f => let* x := nth_error fs f in let* (h', x') := clear fuel h x in Some (MS h' (upd fs f x'), FNothing)
  | FSpliceSame f pos a b =>
      let* x := nth_error fs f in let* (h', i) := splice_same h pos a b in Some (MS h' fs, FIter i)
  | FSplice f pos g a b =>
      let* x := nth_error fs f in let* y := nth_error fs g in
      put2 m f g (splice_other h x y pos a b 0)   (* forest.hpp:896-899: count 0 *)
  | FSpliceNode f pos g i =>
      let* x := nth_error fs f in let* y := nth_error fs g in put2 m f g (splice_node h x y pos i)
  | FSpliceAll f pos g =>
      let* x := nth_error fs f in let* y := nth_error fs g in put2 m f g (splice_all fuel h x y pos)
  | FMove f g =>                               (* forest.hpp:598-602: clear(), then splice(end(), x) *)
      let* x := nth_error fs f in let* y := nth_error fs g in
      let* (h', x') := clear fuel h x in
      let* (m', _) := put2 m f g (splice_all fuel h' x' y (end_ x')) in Some (m', FNothing)
  | FInsertParent f a b v => let* x := nth_error fs f in put1 m f (insert_parent h x a b v)
  | FReverseChildren f p =>
      let* _ := nth_error fs f in
      let* b := child_begin h (lead p) in
      let* h' := reverse fuel h b (child_end (lead p)) in Some (MS h' fs, FNothing)
  | FInsertRange f pos g a b =>
      let* x := nth_error fs f in let* _ := nth_error fs g in put1 m f (insert_range fuel h x pos a b)
  | FTransform f pos g a b fn =>
      let* x := nth_error fs f in let* _ := nth_error fs g in
      let* (h', x') := transform_forest fuel h x fn a b pos [pos] in Some (MS h' (upd fs f x'), FNothing)
  | FCopy g => let* y := nth_error fs g in let* (h', x) := copy fuel h y in Some (MS h' (fs ++ [x]), FNothing)
  | FSize f => let* x := nth_error fs f in let* (x', n) := size fuel h x in Some (MS h (upd fs f x'), FNum n)
  | FParent f i => let* _ := nth_error fs f in let* j := find_parent fuel h i in Some (m, FIter j)
  | FEmpty f => let* x := nth_error fs f in let* b := empty h x in Some (m, FBool b)
  | FHasChildren f i => let* _ := nth_error fs f in let* b := has_children h i in Some (m, FBool b)
  | FEqual f g =>
      let* x := nth_error fs f in let* y := nth_error fs g in
      let* (x', y', b) := equal eqb fuel h x y in Some (MS h (upd (upd fs f x') g y'), FBool b)
  end.

Fixpoint mrun (fuel : nat) (ops : list fop) (m : mstate) : option (mstate * list fout) :=
  match ops with
  | [] => Some (m, [])
  | o :: rest =>
      let* (m1, x) := mstep fuel o m in
      let* (m2, xs) := mrun fuel rest m1 in Some (m2, x :: xs)
  end.

(** After the history [ops] from nothing the specification is in state [s] with
    results [xs], and the machine, given enough fuel for its loops, is in [m] with
    the same results. *)
Definition reaches (ops : list fop) (s : sstate T) (xs : list fout) (m : mstate) : Prop :=
  ssteps ops (SS [] []) s xs /\ exists N, forall fuel, N <= fuel -> mrun fuel ops (MS [] []) = Some (m, xs).

(** Ordered trees of values: what a forest is worth to its user. *)
Inductive vtree := VNode (v : option T) (kids : list vtree).
Fixpoint valued (vs : list (option T)) (t : tree) : vtree :=
  match t with TNode n kids => VNode (nth n vs None) (map (valued vs) kids) end.

End Ops.
