(** Independent specification of a bounded queue with put-back, from the documentation
    of circular_queue (/repo/adobe/circular_queue.hpp:30-205): a list of the elements
    held (oldest first) and the list of popped elements (latest popped first). *)
From Verif Require Import Prelude.
From Verif Require CircularQueue_Model.
Notation op := CircularQueue_Model.op.

Section Spec.
Context {A : Type}.
Record fifo := Fifo { held : list A; popped : list A }.

(** [None] = the operation's documented precondition does not hold. *)
Definition spec_step (cap : nat) (s : fifo) (o : op A) : option fifo :=
  match o with
  | CircularQueue_Model.Push x =>
      if length (held s) <? cap then Some (Fifo (held s ++ [x]) (popped s))
      else Some (Fifo (tl (held s) ++ [x]) (popped s))
  | CircularQueue_Model.Pop =>
      match held s with
      | [] => None
      | x :: r => Some (Fifo r (x :: popped s))
      end
  | CircularQueue_Model.Putback =>
      match popped s with
      | [] => None
      | x :: p => if length (held s) <? cap then Some (Fifo (x :: held s) p) else None
      end
  | CircularQueue_Model.Clear => Some (Fifo [] (rev (held s) ++ popped s))
  end.

Fixpoint spec_run (cap : nat) (s : fifo) (os : list (op A)) : option fifo :=
  match os with
  | [] => Some s
  | o :: os' => match spec_step cap s o with Some s' => spec_run cap s' os' | None => None end
  end.
End Spec.
Arguments fifo : clear implicits.
