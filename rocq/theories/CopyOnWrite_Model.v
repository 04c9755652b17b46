(** Model of adobe::copy_on_write (adobe/copy_on_write.hpp:68-388) and of the
    atomic reference counter adobe::counter_t (adobe/counter.hpp:77-95).

    Part 1 is a sequential model: any number of handles ("slots"), a heap of
    counted objects, every member function as a function on that state.
    Part 2 is a concurrent model: several threads, each with its own handles,
    interleaved at the granularity of single shared-memory accesses.

    Simplifications.  Allocators are not modelled (one global heap whose
    addresses are never reused, so a stale pointer is always detected); the value
    type is a parameter [T] with its [==] and [<]; moving a [T] out of a by-value
    parameter is a copy, since the parameter cannot be observed afterwards. *)
From Verif Require Import Prelude.
Set Implicit Arguments.

(** copy_on_write.hpp:338-357: implementation_t = header (count) + value.
    [Freed] is an object that was destroyed and deallocated. *)
Inductive cell (T : Type) := Live (count : nat) (value : T) | Freed.
Arguments Freed {T}.

Section Sequential.
Context {T : Type}.
Variable dflt : T.                 (* T() *)
Variable eqb ltb : T -> T -> bool. (* operator== and operator< of T *)

(** A handle is its object_m pointer (copy_on_write.hpp:316): [None] is the
    null pointer a moved-from handle holds. *)
Definition handle := option nat.

(** A slot is the storage of one handle: [None] when no handle is constructed
    there.  [default_s] copy_on_write.hpp:319 with [None] = flag_s not set. *)
Record state := St { heap : list (cell T); slots : list (option handle); default_s : option nat }.

(** What the allocation inside an operation does (an oracle): succeed, fail in
    allocator.allocate, or fail in the copy constructor of T. *)
Inductive fault := NoFault | BadAlloc | CopyThrows.

(** Outcome: normal return, exception, undefined behaviour (access to a freed or
    null object, or reading unconstructed memory). *)
Inductive res (A : Type) := Done (a : A) | Threw | UB.
Arguments Done {A}. Arguments Threw {A}. Arguments UB {A}.

(** counter.hpp:84 increment *)
Definition increment (hp : list (cell T)) (a : nat) : option (list (cell T)) :=
  match nth_error hp a with
  | Some (Live c v) => Some (upd hp a (Live (S c) v))
  | _ => None
  end.

(** counter.hpp:88 is_one *)
Definition is_one (hp : list (cell T)) (a : nat) : option bool :=
  match nth_error hp a with
  | Some (Live c _) => Some (c =? 1)
  | _ => None
  end.

Definition value_of (hp : list (cell T)) (a : nat) : option T :=
  match nth_error hp a with Some (Live _ v) => Some v | _ => None end.

(** Plain store into value_m. *)
Definition store (hp : list (cell T)) (a : nat) (v : T) : option (list (cell T)) :=
  match nth_error hp a with
  | Some (Live c _) => Some (upd hp a (Live c v))
  | _ => None
  end.

(** copy_on_write.hpp:250-281 allocate / allocate_move.  A fresh object has
    count 1 (counter.hpp:80).  When the copy constructor throws, the catch block
    calls tmp->get_allocator() on memory in which no object was constructed
    (l.263, l.277): undefined behaviour. *)
Definition allocate (flt : fault) (hp : list (cell T)) (v : T) : res (list (cell T) * nat) :=
  match flt with
  | NoFault => Done (hp ++ [Live 1 v], length hp)
  | BadAlloc => Threw
  | CopyThrows => UB
  end.

(** copy_on_write.hpp:283-302 release: decrement (counter.hpp:86), destroy and
    deallocate when the count reaches zero. *)
Definition release (hp : list (cell T)) (x : handle) : option (list (cell T)) :=
  match x with
  | None => Some hp
  | Some a =>
      match nth_error hp a with
      | Some (Live c v) => Some (upd hp a (if c =? 1 then Freed else Live (c - 1) v))
      | _ => None
      end
  end.

(** Operations on handles; the nat arguments are slots. *)
Inductive op :=
| ODefault (h : nat) (flt : fault)              (* copy_on_write() *)
| OConstruct (h : nat) (v : T) (flt : fault)    (* copy_on_write(T) *)
| OCopy (h s : nat)                             (* copy_on_write(const copy_on_write&) *)
| OMove (h s : nat)                             (* copy_on_write(copy_on_write&&) *)
| ODestroy (h : nat)                            (* ~copy_on_write() *)
| OAssign (h s : nat)                           (* h = s;            operator=(copy_on_write) *)
| OAssignMove (h s : nat)                       (* h = std::move(s); operator=(copy_on_write) *)
| OAssignValue (h : nat) (v : T) (flt : fault)  (* h = v;            operator=(T) *)
| OWrite (h : nat) (f : T -> T) (flt : fault)   (* h.write() = f(h.write()) *)
| OSwap (h s : nat)
| ORead (h : nat)
| OEq (h s : nat)
| OLt (h s : nat).

(** What an operation returns to the caller; [Exn] records an exception. *)
Inductive out := Nothing | Val (v : T) | Bool (b : bool) | Exn.

Definition slot (st : state) (h : nat) : option (option handle) := nth_error (slots st) h.
Definition set_slot (sl : list (option handle)) (h : nat) (x : option handle) := upd sl h x.

(** copy_on_write.hpp:361-368 init_default, run at most once by call_once. *)
Definition init_default (flt : fault) (st : state) : res state :=
  match default_s st with
  | Some _ => Done st
  | None =>
      match allocate flt (heap st) dflt with
      | Done (hp, a) => Done (St hp (slots st) (Some a))
      | Threw => Threw
      | UB => UB
      end
  end.

Definition ok (o : out) (r : option state) : res (state * out) :=
  match r with Some st => Done (st, o) | None => UB end.

(** copy_on_write.hpp:93-97 *)
Definition op_default (h : nat) (flt : fault) (st : state) : res (state * out) :=
  match slot st h with
  | Some None =>
      match init_default flt st with
      | Done st1 =>
          match default_s st1 with
          | Some a =>
              ok Nothing (match increment (heap st1) a with
                  | Some hp => Some (St hp (set_slot (slots st1) h (Some (Some a))) (default_s st1))
                  | None => None end)
          | None => UB
          end
      | Threw => Done (st, Exn)
      | UB => UB
      end
  | _ => UB
  end.

(** copy_on_write.hpp:113 *)
Definition op_construct (h : nat) (v : T) (flt : fault) (st : state) : res (state * out) :=
  match slot st h with
  | Some None =>
      match allocate flt (heap st) v with
      | Done (hp, a) => Done (St hp (set_slot (slots st) h (Some (Some a))) (default_s st), Nothing)
      | Threw => Done (st, Exn)
      | UB => UB
      end
  | _ => UB
  end.

(** copy_on_write.hpp:119-122 *)
Definition copy_handle (hp : list (cell T)) (x : handle) : option (list (cell T)) :=
  match x with None => Some hp | Some a => increment hp a end.

Definition op_copy (h s : nat) (st : state) : res (state * out) :=
  match slot st h, slot st s with
  | Some None, Some (Some x) =>
      ok Nothing (match copy_handle (heap st) x with
                  | Some hp => Some (St hp (set_slot (slots st) h (Some x)) (default_s st))
                  | None => None end)
  | _, _ => UB
  end.

(** copy_on_write.hpp:124 *)
Definition op_move (h s : nat) (st : state) : res (state * out) :=
  match slot st h, slot st s with
  | Some None, Some (Some x) =>
      Done (St (heap st) (set_slot (set_slot (slots st) h (Some x)) s (Some None)) (default_s st), Nothing)
  | _, _ => UB
  end.

(** copy_on_write.hpp:126 *)
Definition op_destroy (h : nat) (st : state) : res (state * out) :=
  match slot st h with
  | Some (Some x) =>
      ok Nothing (match release (heap st) x with
                  | Some hp => Some (St hp (set_slot (slots st) h None) (default_s st))
                  | None => None end)
  | _ => UB
  end.

(** copy_on_write.hpp:133-136: the by-value parameter is copy-constructed from
    [s], swapped with *this, and destroyed holding the old pointer. *)
Definition op_assign (h s : nat) (st : state) : res (state * out) :=
  match slot st h, slot st s with
  | Some (Some old), Some (Some x) =>
      ok Nothing (match copy_handle (heap st) x with
        | Some hp =>
            match release hp old with
            | Some hp' => Some (St hp' (set_slot (slots st) h (Some x)) (default_s st))
            | None => None
            end
        | None => None
        end)
  | _, _ => UB
  end.

(** The same with the parameter move-constructed from [s] (l.124 then l.133-136);
    when h = s the swap reads back the null the move left and then gives the
    pointer back. *)
Definition op_assign_move (h s : nat) (st : state) : res (state * out) :=
  match slot st h, slot st s with
  | Some (Some _), Some (Some x) =>
      let sl := set_slot (slots st) s (Some None) in
      match nth_error sl h with
      | Some (Some old) =>
          ok Nothing (match release (heap st) old with
            | Some hp => Some (St hp (set_slot sl h (Some x)) (default_s st))
            | None => None
            end)
      | _ => UB
      end
  | _, _ => UB
  end.

(** copy_on_write.hpp:304-307 reset *)
Definition reset (st : state) (h : nat) (old : handle) (hp : list (cell T)) (to : nat) : option state :=
  match release hp old with
  | Some hp' => Some (St hp' (set_slot (slots st) h (Some (Some to))) (default_s st))
  | None => None
  end.

(** copy_on_write.hpp:139-148 *)
Definition op_assign_value (h : nat) (v : T) (flt : fault) (st : state) : res (state * out) :=
  match slot st h with
  | Some (Some None) =>
      match allocate flt (heap st) v with
      | Done (hp, a) => Done (St hp (set_slot (slots st) h (Some (Some a))) (default_s st), Nothing)
      | Threw => Done (st, Exn)
      | UB => UB
      end
  | Some (Some (Some a)) =>
      match is_one (heap st) a with
      | Some true =>
          ok Nothing (match store (heap st) a v with
                      | Some hp => Some (St hp (slots st) (default_s st))
                      | None => None end)
      | Some false =>
          match allocate flt (heap st) v with
          | Done (hp, b) => ok Nothing (reset st h (Some a) hp b)
          | Threw => Done (st, Exn)
          | UB => UB
          end
      | None => UB
      end
  | _ => UB
  end.

(** copy_on_write.hpp:162-169, followed by the caller's modification [f] through
    the returned reference.  Calling write() on a moved-from handle violates the
    assert: [UB]. *)
Definition op_write (h : nat) (f : T -> T) (flt : fault) (st : state) : res (state * out) :=
  match slot st h with
  | Some (Some (Some a)) =>
      match is_one (heap st) a, value_of (heap st) a with
      | Some true, Some v =>
          ok Nothing (match store (heap st) a (f v) with
                      | Some hp => Some (St hp (slots st) (default_s st))
                      | None => None end)
      | Some false, Some v =>
          match allocate flt (heap st) v with
          | Done (hp, b) =>
              ok Nothing (match reset st h (Some a) hp b with
                | Some st1 =>
                    match value_of (heap st1) b with
                    | Some w => match store (heap st1) b (f w) with
                                | Some hp1 => Some (St hp1 (slots st1) (default_s st1))
                                | None => None end
                    | None => None
                    end
                | None => None
                end)
          | Threw => Done (st, Exn)
          | UB => UB
          end
      | _, _ => UB
      end
  | _ => UB
  end.

(** copy_on_write.hpp:217-219 *)
Definition op_swap (h s : nat) (st : state) : res (state * out) :=
  match slot st h, slot st s with
  | Some (Some x), Some (Some y) =>
      Done (St (heap st) (set_slot (set_slot (slots st) h (Some y)) s (Some x)) (default_s st), Nothing)
  | _, _ => UB
  end.

(** copy_on_write.hpp:176-179; assert violated on a moved-from handle. *)
Definition op_read (h : nat) (st : state) : res (state * out) :=
  match slot st h with
  | Some (Some (Some a)) =>
      match value_of (heap st) a with Some v => Done (st, Val v) | None => UB end
  | _ => UB
  end.

Definition ptr_eqb (x y : handle) : bool :=
  match x, y with
  | None, None => true
  | Some a, Some b => a =? b
  | _, _ => false
  end.

(** copy_on_write.hpp:215 *)
Definition identity (x y : handle) : bool := ptr_eqb x y.

(** copy_on_write.hpp:206; None = undefined behaviour *)
Definition unique_instance (st : state) (x : handle) : option bool :=
  match x with None => Some true | Some a => is_one (heap st) a end.

(** copy_on_write.hpp:237-239 *)
Definition op_eq (h s : nat) (st : state) : res (state * out) :=
  match slot st h, slot st s with
  | Some (Some x), Some (Some y) =>
      if identity x y then Done (st, Bool true) else
      match x, y with
      | Some a, Some b =>
          match value_of (heap st) a, value_of (heap st) b with
          | Some v, Some w => Done (st, Bool (eqb v w))
          | _, _ => UB
          end
      | _, _ => Done (st, Bool false)
      end
  | _, _ => UB
  end.

(** copy_on_write.hpp:221-223 *)
Definition op_lt (h s : nat) (st : state) : res (state * out) :=
  match slot st h, slot st s with
  | Some (Some x), Some (Some y) =>
      match y with
      | None => Done (st, Bool false)
      | Some b =>
          match x with
          | None => Done (st, Bool true)
          | Some a =>
              if identity x y then Done (st, Bool false) else
              match value_of (heap st) a, value_of (heap st) b with
              | Some v, Some w => Done (st, Bool (ltb v w))
              | _, _ => UB
              end
          end
      end
  | _, _ => UB
  end.

Definition do_op (o : op) (st : state) : res (state * out) :=
  match o with
  | ODefault h f => op_default h f st
  | OConstruct h v f => op_construct h v f st
  | OCopy h s => op_copy h s st
  | OMove h s => op_move h s st
  | ODestroy h => op_destroy h st
  | OAssign h s => op_assign h s st
  | OAssignMove h s => op_assign_move h s st
  | OAssignValue h v f => op_assign_value h v f st
  | OWrite h g f => op_write h g f st
  | OSwap h s => op_swap h s st
  | ORead h => op_read h st
  | OEq h s => op_eq h s st
  | OLt h s => op_lt h s st
  end.

(** A history; [None] once some operation has undefined behaviour. *)
Fixpoint run (ops : list op) (st : state) : option (state * list out) :=
  match ops with
  | [] => Some (st, [])
  | o :: rest =>
      match do_op o st with
      | Done (st', x) =>
          match run rest st' with Some (st2, xs) => Some (st2, x :: xs) | None => None end
      | _ => None
      end
  end.

(** Program start: [n] slots without handles, nothing allocated. *)
Definition start (n : nat) : state := St [] (repeat None n) None.

(** copy_on_write.hpp:370-373 release_default, run by std::atexit. *)
Definition at_exit (st : state) : option (list (cell T)) := release (heap st) (default_s st).

End Sequential.
Arguments Done {A}. Arguments Threw {A}. Arguments UB {A}.
Arguments Nothing {T}. Arguments Exn {T}. Arguments Bool {T}.
Arguments OCopy {T}. Arguments OMove {T}. Arguments ODestroy {T}. Arguments OAssign {T}.
Arguments OAssignMove {T}. Arguments OSwap {T}. Arguments ORead {T}. Arguments OEq {T}. Arguments OLt {T}.
Arguments ODefault {T}. Arguments start {T}.
