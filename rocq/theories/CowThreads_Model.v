(** Concurrent model of adobe::copy_on_write (adobe/copy_on_write.hpp:68-388) over
    the atomic counter adobe::counter_t (adobe/counter.hpp:77-95, std::atomic with
    sequentially consistent operations).

    Every thread owns its handles (as the library requires: a handle is not
    shared between threads) but the counted objects behind them are shared.
    A step performs at most one access to a shared object: one atomic operation
    on a count, or the plain accesses of one value operation.  Everything else a
    step does touches the thread's own handles only.

    Simplifications: addresses are never reused; a null handle stands both for a
    moved-from and for a not constructed handle (so constructing = assigning to a
    null handle, destroying = releasing and nulling); std::call_once is one atomic
    step; allocation always succeeds. *)
From Verif Require Import Prelude CopyOnWrite_Model.
Set Implicit Arguments.

Section Threads.
Context {T : Type}.
Variable dflt : T.
Variable eqb : T -> T -> bool.

(** What a thread's program can do with its handles (slot numbers). *)
Inductive top :=
| TCopy (d s : nat)           (* d = s *)
| TMove (d s : nat)           (* d = std::move(s) *)
| TDrop (d : nat)             (* ~d *)
| TSet (d : nat) (v : T)      (* d = v *)
| TWrite (d : nat) (f : T -> T) (* d.write() = f(d.write()) *)
| TRead (d : nat)
| TEq (d s : nat)
| TDefault (d : nat).         (* d = copy_on_write() *)

Inductive tout := TVal (v : T) | TBool (b : bool).

(** The rest of an operation that is under way.
    [Rel a]   release(a) is about to decrement the count of a;
    [Free a]  the decrement gave zero: about to destroy and deallocate a;
    [Mut d f] write()/operator=(T) saw is_one() (or made a fresh copy): about to
              modify the value of slot d in place;
    [Cpy d f] write() saw a count other than one: about to copy the value;
    [Dfl d]   the default constructor is past call_once: about to increment. *)
Inductive micro :=
| Rel (a : nat) | Free (a : nat) | Mut (d : nat) (f : T -> T) | Cpy (d : nat) (f : T -> T) | Dfl (d : nat).

Record thread := Th { tslots : list (option nat); prog : list top; todo : list micro; outs : list tout }.
Record world := W { wheap : list (cell T); threads : list thread; wdefault : option nat }.

Inductive sres := Step (h : list (cell T)) (dv : option nat) (t : thread) | Finished | Bad.

Definition relq (x : option nat) : list micro := match x with Some a => [Rel a] | None => [] end.

(** One step of a thread. *)
Definition tstep (hp : list (cell T)) (dv : option nat) (t : thread) : sres :=
  let sl := tslots t in
  match todo t with
  | Rel a :: rest =>                    (* l.294 count_m.decrement() == false *)
      match nth_error hp a with
      | Some (Live (S c) v) =>
          Step (upd hp a (Live c v)) dv (Th sl (prog t) (if c =? 0 then Free a :: rest else rest) (outs t))
      | _ => Bad
      end
  | Free a :: rest =>                   (* l.297-301 destroy, deallocate *)
      match nth_error hp a with
      | Some (Live _ _) => Step (upd hp a Freed) dv (Th sl (prog t) rest (outs t))
      | _ => Bad
      end
  | Mut d f :: rest =>                  (* l.143 or the caller's use of the result of l.168 *)
      match nth_error sl d with
      | Some (Some a) =>
          match value_of hp a with
          | Some v => match store hp a (f v) with
                      | Some hp' => Step hp' dv (Th sl (prog t) rest (outs t))
                      | None => Bad end
          | None => Bad
          end
      | _ => Bad
      end
  | Cpy d f :: rest =>                  (* l.166 reset(allocate(object_m, object_m->value_m)) *)
      match nth_error sl d with
      | Some (Some a) =>
          match value_of hp a with
          | Some v => Step (hp ++ [Live 1 v]) dv
                        (Th (upd sl d (Some (length hp))) (prog t) (Rel a :: Mut d f :: rest) (outs t))
          | None => Bad
          end
      | _ => Bad
      end
  | Dfl d :: rest =>                    (* l.95-96, then the assignment l.133-136 *)
      match dv, nth_error sl d with
      | Some a, Some old =>
          match increment hp a with
          | Some hp' => Step hp' dv (Th (upd sl d (Some a)) (prog t) (relq old ++ rest) (outs t))
          | None => Bad
          end
      | _, _ => Bad
      end
  | [] =>
      match prog t with
      | [] => Finished
      | TCopy d s :: p =>               (* l.119-122 then l.133-136 *)
          match nth_error sl d, nth_error sl s with
          | Some old, Some None => Step hp dv (Th (upd sl d None) p (relq old) (outs t))
          | Some old, Some (Some a) =>
              match increment hp a with
              | Some hp' => Step hp' dv (Th (upd sl d (Some a)) p (relq old) (outs t))
              | None => Bad
              end
          | _, _ => Bad
          end
      | TMove d s :: p =>               (* l.124 then l.133-136 *)
          match nth_error sl d, nth_error sl s with
          | Some _, Some x =>
              let sl1 := upd sl s None in
              match nth_error sl1 d with
              | Some old => Step hp dv (Th (upd sl1 d x) p (relq old) (outs t))
              | None => Bad
              end
          | _, _ => Bad
          end
      | TDrop d :: p =>                 (* l.126 *)
          match nth_error sl d with
          | Some old => Step hp dv (Th (upd sl d None) p (relq old) (outs t))
          | None => Bad
          end
      | TSet d v :: p =>                (* l.139-148 *)
          match nth_error sl d with
          | Some None => Step (hp ++ [Live 1 v]) dv (Th (upd sl d (Some (length hp))) p [] (outs t))
          | Some (Some a) =>
              match is_one hp a with
              | Some true => Step hp dv (Th sl p [Mut d (fun _ => v)] (outs t))
              | Some false => Step (hp ++ [Live 1 v]) dv
                                (Th (upd sl d (Some (length hp))) p [Rel a] (outs t))
              | None => Bad
              end
          | None => Bad
          end
      | TWrite d f :: p =>              (* l.162-169; is_one is the only shared access *)
          match nth_error sl d with
          | Some (Some a) =>
              match is_one hp a with
              | Some true => Step hp dv (Th sl p [Mut d f] (outs t))
              | Some false => Step hp dv (Th sl p [Cpy d f] (outs t))
              | None => Bad
              end
          | _ => Bad
          end
      | TRead d :: p =>                 (* l.176-179 *)
          match nth_error sl d with
          | Some (Some a) =>
              match value_of hp a with
              | Some v => Step hp dv (Th sl p [] (outs t ++ [TVal v]))
              | None => Bad
              end
          | _ => Bad
          end
      | TEq d s :: p =>                 (* l.237-239 *)
          match nth_error sl d, nth_error sl s with
          | Some x, Some y =>
              if identity x y then Step hp dv (Th sl p [] (outs t ++ [TBool true])) else
              match x, y with
              | Some a, Some b =>
                  match value_of hp a, value_of hp b with
                  | Some v, Some w => Step hp dv (Th sl p [] (outs t ++ [TBool (eqb v w)]))
                  | _, _ => Bad
                  end
              | _, _ => Step hp dv (Th sl p [] (outs t ++ [TBool false]))
              end
          | _, _ => Bad
          end
      | TDefault d :: p =>              (* l.94 call_once(init_default), l.361-368 *)
          match nth_error sl d with
          | Some _ =>
              match dv with
              | Some _ => Step hp dv (Th sl p [Dfl d] (outs t))
              | None => Step (hp ++ [Live 1 dflt]) (Some (length hp)) (Th sl p [Dfl d] (outs t))
              end
          | None => Bad
          end
      end
  end.

(** A schedule is any list of thread numbers.  Scheduling a finished (or
    nonexistent) thread does nothing; [None] = undefined behaviour. *)
Definition wstep (i : nat) (w : world) : option world :=
  match nth_error (threads w) i with
  | None => Some w
  | Some t =>
      match tstep (wheap w) (wdefault w) t with
      | Step hp dv t' => Some (W hp (upd (threads w) i t') dv)
      | Finished => Some w
      | Bad => None
      end
  end.

Fixpoint wrun (sched : list nat) (w : world) : option world :=
  match sched with
  | [] => Some w
  | i :: rest => match wstep i w with Some w' => wrun rest w' | None => None end
  end.

(** The plain (non-atomic) accesses to shared values in a thread's next step:
    address and whether it writes. *)
Definition slot_addr (t : thread) (d : nat) : list nat :=
  match nth_error (tslots t) d with Some (Some a) => [a] | _ => [] end.

Definition next_accesses (t : thread) : list (nat * bool) :=
  match todo t with
  | Rel _ :: _ => []
  | Free a :: _ => [(a, true)]
  | Mut d _ :: _ => map (fun a => (a, true)) (slot_addr t d)
  | Cpy d _ :: _ => map (fun a => (a, false)) (slot_addr t d)
  | Dfl _ :: _ => []
  | [] =>
      match prog t with
      | TRead d :: _ => map (fun a => (a, false)) (slot_addr t d)
      | TEq d s :: _ => map (fun a => (a, false)) (slot_addr t d ++ slot_addr t s)
      | _ => []
      end
  end.

(** Start: a main thread has set up values [vs] and handed out handles on them:
    thread number i starts with handles [fst], each [None] (null) or [Some k], a
    handle on value number k, and with program [snd]. *)
Definition initial_count (ts : list (list (option nat) * list top)) (k : nat) : nat :=
  length (filter (fun x => match x with Some a => a =? k | None => false end) (concat (map fst ts))).

Fixpoint init_cells (ts : list (list (option nat) * list top)) (k : nat) (vs : list T) : list (cell T) :=
  match vs with
  | [] => []
  | v :: rest =>
      (if initial_count ts k =? 0 then Freed else Live (initial_count ts k) v) :: init_cells ts (S k) rest
  end.

Definition init (vs : list T) (ts : list (list (option nat) * list top)) : world :=
  W (init_cells ts 0 vs) (map (fun x => Th (fst x) (snd x) [] []) ts) None.

End Threads.
