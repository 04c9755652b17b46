(** * What any_regular_t and poly_base are supposed to be: values

    A store of variables, each undeclared, or holding a value of some type, or
    moved from.  Nothing here mentions storage, pointers or the free store. *)
From Coq Require Import List ZArith QArith Bool.
From Verif Require Import Prelude AnyReg_Model.
Import ListNotations.
Local Open Scope nat_scope.

Inductive aval := Known (t : cty) (v : cval) | Moved (t : cty).
Definition store := list (option aval).

(** What a variable holds after being given [v] of type [t]: any_regular_t
    keeps the promoted value, poly_base the value. *)
Definition given (fl : flavour) (t : cty) (v : cval) : aval :=
  match fl with Any => Known (promote t) (up t v) | Poly => Known t v end.

(** What is left of a value which was moved away: numbers and the like stay,
    anything else is gone. *)
Definition rest (a : aval) : aval :=
  match a with
  | Known t v => if trivial t then Known t v else Moved t
  | Moved t => Moved t
  end.

(** The effect of a statement on the store; [None]: a client must not write it
    (it declares a variable twice, uses one that does not exist, reads a value
    which was moved away, ...). *)
Definition effect (fl : flavour) (o : op) (A : store) : option store :=
  match o with
  | ODefault x =>
    match nth_error A x with
    | Some None => Some (upd A x (Some (Known TEmpty CEmpty)))
    | _ => None
    end
  | OCtor x t v =>
    match nth_error A x with
    | Some None => Some (upd A x (Some (given fl t v)))
    | _ => None
    end
  | OCopy x y =>
    match nth_error A x, nth_error A y with
    | Some None, Some (Some (Known t v)) => Some (upd A x (Some (Known t v)))
    | _, _ => None
    end
  | OMove x y =>
    match nth_error A x, nth_error A y with
    | Some None, Some (Some a) => Some (upd (upd A y (Some (rest a))) x (Some a))
    | _, _ => None
    end
  | OAssign x y =>
    match nth_error A x, nth_error A y with
    | Some (Some _), Some (Some (Known t v)) => Some (upd A x (Some (Known t v)))
    | _, _ => None
    end
  | OAssignMove x y =>
    match nth_error A x, nth_error A y with
    | Some (Some _), Some (Some a) => Some (upd (upd A y (Some (rest a))) x (Some a))
    | _, _ => None
    end
  | OSet x t v =>
    match nth_error A x with
    | Some (Some _) => Some (upd A x (Some (given fl t v)))
    | _ => None
    end
  | OAssignVal x t v =>
    match nth_error A x with
    | Some (Some a) =>
      match fl, a with
      | Poly, Moved t' =>
        if cty_eq_dec t' t
        then if local t then Some (upd A x (Some (given fl t v))) else None
        else Some (upd A x (Some (given fl t v)))
      | _, _ => Some (upd A x (Some (given fl t v)))
      end
    | _ => None
    end
  | OAssignRel x y =>
    match nth_error A x, nth_error A y with
    | Some (Some _), Some (Some (Known t v)) =>
      match fl with
      | Any => Some (upd A x (Some (Known t v)))
      | Poly => if Nat.eqb x y then None else Some (upd A x (Some (Known t v)))
      end
    | _, _ => None
    end
  | OSwap x y =>
    match nth_error A x, nth_error A y with
    | Some (Some a), Some (Some b) => Some (upd (upd A x (Some b)) y (Some a))
    | _, _ => None
    end
  | OWrite x t v =>
    match nth_error A x with
    | Some (Some (Known t' _)) =>
      if cty_eq_dec t' t then Some (upd A x (Some (Known t v))) else Some A
    | _ => None
    end
  | ODestroy x =>
    match nth_error A x with
    | Some (Some _) => Some (upd A x None)
    | _ => None
    end
  end.

Fixpoint effects (fl : flavour) (os : list op) (A : store) : option store :=
  match os with
  | [] => Some A
  | o :: r => match effect fl o A with Some A' => effects fl r A' | None => None end
  end.

(** The number of values that are kept in the free store. *)
Definition remotes (A : store) : nat :=
  length (filter (fun a => match a with Some (Known t _) => negb (local t) | _ => false end) A).

(** What the queries of the interface must answer in a state in which the
    variables hold [A]; and that the free store holds nothing else. *)
Definition shows (fl : flavour) (s : st) (A : store) : Prop :=
  (forall x t v, nth_error A x = Some (Some (Known t v)) ->
     type_info x s = Ok t s /\
     is_empty x s = Ok (if cty_eq_dec t TEmpty then true else false) s /\
     (forall t', cast fl t' x s =
        let want := match fl with Any => promote t' | Poly => t' end in
        if cty_eq_dec t want
        then match fl with
             | Any => match down t' v with Some u => Ok u s | None => UB end
             | Poly => Ok v s
             end
        else Exc ECast s)) /\
  (forall x y t v t' v',
     nth_error A x = Some (Some (Known t v)) -> nth_error A y = Some (Some (Known t' v')) ->
     equal x y s = Ok (if cty_eq_dec t t' then veq v v' else false) s) /\
  live s = remotes A.

(** ** Exceptions *)

(** Statements which must leave everything as it was if they throw, and which
    do: all of them but any_regular_t::assign(T) of a type kept in the free
    store, poly_base::assign(poly), and for any_regular_t those that make a
    remote copy of a type with a throwing move constructor. *)
Definition quiet (fl : flavour) (t : cty) : bool :=
  match fl with Any => negb (mthrow t) | Poly => true end.

Definition type_in (A : store) (x : nat) : cty :=
  match nth_error A x with Some (Some (Known t _)) => t | _ => TEmpty end.

Definition strong (fl : flavour) (o : op) (A : store) : bool :=
  match o with
  | OCtor _ t _ | OSet _ t _ => quiet fl t
  | OCopy _ y | OAssign _ y => quiet fl (type_in A y)
  | OAssignVal _ t _ => match fl with Any => local (promote t) | Poly => true end
  | OAssignRel _ y => match fl with Any => quiet fl (type_in A y) | Poly => false end
  | _ => true
  end.

(** The states a client can reach with [strong] statements, some of which
    throw, and what it knows then: a statement which completed had its effect,
    a statement which threw had none. *)
Inductive reach (fl : flavour) (n : nat) (sched : list bool) : st -> store -> Prop :=
| rinit : reach fl n sched (init n sched) (repeat None n)
| rdone s A o s' A' :
    reach fl n sched s A -> effect fl o A = Some A' -> strong fl o A = true ->
    step fl o s = Ok tt s' -> reach fl n sched s' A'
| rthrew s A o e s' A' :
    reach fl n sched s A -> effect fl o A = Some A' -> strong fl o A = true ->
    step fl o s = Exc e s' -> reach fl n sched s' A.
