(** What the traversals of a forest should visit, as functions of its trees. *)
From Verif Require Import Prelude Forest_Model Forest_Spec.
Set Implicit Arguments.

(** for (i = first; i != last; i = next(i)) visit(i) *)
Fixpoint visit_loop {S : Type} (fuel : nat) (next : S -> option S) (at_end : S -> bool) (i : S) : option (list S) :=
  match fuel with
  | O => None
  | S fuel =>
      if at_end i then Some []
      else let* j := next i in let* l := visit_loop fuel next at_end j in Some (i :: l)
  end.

Definition root_id (t : tree) : nat := match t with TNode n _ => n end.

(** Nodes in the order of their leading edges, and of their trailing edges. *)
Fixpoint preorder (t : tree) : list nat := match t with TNode n kids => n :: flat_map preorder kids end.
Fixpoint postorder (t : tree) : list nat := match t with TNode n kids => flat_map postorder kids ++ [n] end.

(** Both edges of each node with its depth. *)
Fixpoint depth_word (d : Z) (t : tree) : list (iter * Z) :=
  match t with TNode n kids => (lead n, d) :: flat_map (depth_word (d + 1)) kids ++ [(trail n, d)] end.

(** The mirror image: children in the opposite order at every level. *)
Fixpoint mirror (t : tree) : tree := match t with TNode n kids => TNode n (rev (map mirror kids)) end.

(** The nodes satisfying [q] all of whose ancestors satisfy it. *)
Fixpoint prune (q : nat -> bool) (t : tree) : list tree :=
  match t with TNode n kids => if q n then [TNode n (flat_map (prune q) kids)] else [] end.
