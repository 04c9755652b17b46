(** * any_regular_t and poly_base: type erased values with a small object store

    Models adobe/any_regular.hpp (class any_regular_t and its two storage
    models), adobe/poly.hpp (poly_base and its two storage states) and
    adobe/conversion.hpp:20-30 (promote).

    An [any_regular_t] is 16 bytes of raw storage (any_regular.hpp:435, 633)
    in which exactly one object lives: either a "local" model, which holds the
    value itself, or a "remote" model, which holds a pointer to a free store
    object that holds the value.  [poly_base] (poly.hpp:166, 383) is the same
    with virtual functions in place of the table of function pointers.

    What is explicit here: the storage of each variable (empty, local object,
    remote pointer, null pointer after a move), the free store, every place
    where an exception can come from (an allocation, the copy constructor or
    the move constructor of the element), and undefined behaviour (destroying
    or using storage in which no object lives, following a null or a dangling
    pointer, converting a double that does not fit).

    Simplifications.  Types are given by [cty]: the arithmetic types that
    matter for promotion, std::string, const char*, and any number of user
    types, of which we say whether they are stored locally and whether their
    copy and move constructors can throw.  float is left out.  Finite doubles
    are rationals.  The conversions a client can not compile are undefined. *)
From Coq Require Import List ZArith QArith String Bool Lia.
From Verif Require Import Prelude.
Import ListNotations.
Local Open Scope nat_scope.
Ltac Zify.zify_post_hook ::= idtac.

(** ** Types and values *)

Inductive cty :=
| TEmpty | TBool | TInt16 | TUInt16 | TInt32 | TUInt32 | TInt64 | TDouble
| TString | TCharPtr
| TUser (id : nat) (loc cth mth : bool).
(** [TUser id loc cth mth]: a class; [loc]: it fits and its move or copy
    constructor is declared not to throw (any_regular.hpp:450-453;
    poly.hpp:168-174); [cth]: its copy constructor can throw; [mth]: its move
    constructor can throw. *)

Inductive cval :=
| CEmpty | CBool (b : bool) | CInt (n : Z) | CDbl (q : Q) | CStr (s : string) | CUser (n : nat).

Definition cty_eq_dec (a b : cty) : {a = b} + {a <> b}.
Proof. decide equality; try apply bool_dec; apply Nat.eq_dec. Defined.

(** typeid(x) == typeid(y). *)
Definition cty_eqb (a b : cty) : bool := if cty_eq_dec a b then true else false.

(** traits<T>::use_local_type: any_regular.hpp:450-453 (a model of a type of
    at most eight bytes fits in two doubles), poly.hpp:168-174. *)
Definition local (t : cty) : bool :=
  match t with
  | TString => false
  | TUser _ l _ _ => l
  | _ => true
  end.

(** Whether copying a value of the type can throw. *)
Definition cthrow (t : cty) : bool :=
  match t with
  | TString => true
  | TUser _ _ c _ => c
  | _ => false
  end.

(** Whether moving a value of the type can throw.  A type stored locally has a
    move that does not (any_regular.hpp:450-453). *)
Definition mthrow (t : cty) : bool :=
  match t with
  | TUser _ l _ m => m && negb l
  | _ => false
  end.

(** Types whose move leaves the source as it was. *)
Definition trivial (t : cty) : bool :=
  match t with
  | TString | TUser _ _ _ _ => false
  | _ => true
  end.

(** conversion.hpp:20-30: arithmetic types of two to four bytes are stored as
    double, const char* as std::string. *)
Definition promote (t : cty) : cty :=
  match t with
  | TInt16 | TUInt16 | TInt32 | TUInt32 => TDouble
  | TCharPtr => TString
  | _ => t
  end.

(** The range of an integral type. *)
Definition int_range (t : cty) : option (Z * Z) :=
  match t with
  | TInt16 => Some (-32768, 32767)%Z
  | TUInt16 => Some (0, 65535)%Z
  | TInt32 => Some (-2147483648, 2147483647)%Z
  | TUInt32 => Some (0, 4294967295)%Z
  | TInt64 => Some (-9223372036854775808, 9223372036854775807)%Z
  | _ => None
  end.

(** The conversion of an integer to double: round to a 53 bit significand,
    to nearest, ties to even. *)
Definition round_even (n d : Z) : Z :=
  let q := (n / d)%Z in
  let r := (n mod d)%Z in
  if (2 * r <? d)%Z then q
  else if (d <? 2 * r)%Z then (q + 1)%Z
  else if Z.even q then q else (q + 1)%Z.

Definition to_double (n : Z) : Z :=
  if (Z.abs n <? 2 ^ 53)%Z then n
  else let e := (Z.log2 (Z.abs n) - 52)%Z in (round_even n (2 ^ e) * 2 ^ e)%Z.

(** static_cast<promote_type>(x): any_regular.hpp:502, 561 (the argument of the
    model's constructor is of the promoted type). *)
Definition up (t : cty) (v : cval) : cval :=
  match t, v with
  | (TInt16 | TUInt16 | TInt32 | TUInt32), CInt n => CDbl (inject_Z (to_double n))
  | _, _ => v
  end.

(** static_cast<T>(value) on the way out: any_regular.hpp:700-701, 709-710.
    A double is truncated towards zero; if the result does not fit the behaviour is undefined
    ([None]).  static_cast<const char*>(std::string) does not compile. *)
Definition down (t : cty) (v : cval) : option cval :=
  match t with
  | TInt16 | TUInt16 | TInt32 | TUInt32 =>
    match v, int_range t with
    | CDbl q, Some (lo, hi) =>
      let n := Z.quot (Qnum q) (Zpos (Qden q)) in
      if ((lo <=? n) && (n <=? hi))%Z then Some (CInt n) else None
    | _, _ => None
    end
  | TCharPtr => None
  | _ => Some v
  end.

(** operator== of the stored type. *)
Definition veq (a b : cval) : bool :=
  match a, b with
  | CEmpty, CEmpty => true
  | CBool x, CBool y => Bool.eqb x y
  | CInt x, CInt y => Z.eqb x y
  | CDbl x, CDbl y => Qeq_bool x y
  | CStr x, CStr y => String.eqb x y
  | CUser x, CUser y => Nat.eqb x y
  | _, _ => false
  end.

(** ** Storage *)

(** The value inside a local model: present, or moved from. *)
Inductive content := Live (v : cval) | Gone.

(** The 16 bytes of a variable. *)
Inductive storage :=
| SRaw                                    (* no object lives here *)
| SLocal (t : cty) (c : content)          (* any_regular_model_local<T>, poly_state_local *)
| SRemote (t : cty) (p : option nat).     (* any_regular_model_remote<T>, poly_state_remote *)

(** A free store cell. *)
Inductive hcell := HFree | HRaw | HObj (t : cty) (v : cval).

Record st := mkst { heap : list hcell; vars : list storage; fails : list bool }.
(** [fails]: the schedule of exceptions.  Each place which can throw consumes
    one element; [true] means that it throws; nothing throws when it is empty. *)

Inductive exn := EAlloc | ECopy | EMove | ECast.

Inductive res (A : Type) := Ok (a : A) (s : st) | Exc (e : exn) (s : st) | UB.
Arguments Ok {A}. Arguments Exc {A}. Arguments UB {A}.

Definition M (A : Type) := st -> res A.
Definition ret {A} (a : A) : M A := fun s => Ok a s.
Definition bind {A B} (m : M A) (f : A -> M B) : M B :=
  fun s => match m s with Ok a s' => f a s' | Exc e s' => Exc e s' | UB => UB end.
Definition throw {A} (e : exn) : M A := fun s => Exc e s.
Definition undef {A} : M A := fun _ => UB.
Notation "x <- m ;; k" := (bind m (fun x => k)) (at level 61, m at next level, right associativity).
Notation "m ;;; k" := (bind m (fun _ => k)) (at level 61, right associativity).

Definition tick : M bool :=
  fun s => match fails s with
           | [] => Ok false s
           | b :: r => Ok b (mkst (heap s) (vars s) r)
           end.

(** A place that can throw [e] if [c]. *)
Definition may (c : bool) (e : exn) : M unit :=
  if c then b <- tick ;; (if b then throw e else ret tt) else ret tt.

Definition set_cell (a : nat) (c : hcell) : M unit :=
  fun s => Ok tt (mkst (upd (heap s) a c) (vars s) (fails s)).

Definition get_cell (a : nat) : M hcell :=
  fun s => match nth_error (heap s) a with Some c => Ok c s | None => UB end.

Definition get_var (x : nat) : M storage :=
  fun s => match nth_error (vars s) x with Some c => Ok c s | None => UB end.

Definition set_var (x : nat) (c : storage) : M unit :=
  fun s => Ok tt (mkst (heap s) (upd (vars s) x c) (fails s)).

(** capture_allocator::allocate (memory.hpp:456-463), ::operator new. *)
Definition alloc : M nat :=
  b <- tick ;;
  (if b then throw EAlloc
   else fun s => Ok (length (heap s)) (mkst (heap s ++ [HRaw]) (vars s) (fails s))).

Inductive flavour := Any | Poly.

(** any_regular_model_remote::new_move (any_regular.hpp:287-293) allocates, then
    constructs the allocator and the value in place: if the move constructor
    throws, nothing gives the storage back.  poly_state_remote
    (poly.hpp:101) uses a new expression, which does. *)
Definition new_remote (fl : flavour) (t : cty) (v : cval) : M nat :=
  a <- alloc ;;
  (if mthrow t then
     b <- tick ;;
     (if b then match fl with
                | Any => throw EMove
                | Poly => set_cell a HFree ;;; throw EMove
                end
      else ret tt)
   else ret tt) ;;;
  set_cell a (HObj t v) ;;;
  ret a.

(** The constructor of the model type from a value that is moved in:
    any_regular.hpp:218, 299; poly.hpp:101, 139. *)
Definition make_model (fl : flavour) (t : cty) (v : cval) : M storage :=
  if local t then ret (SLocal t (Live v))
  else a <- new_remote fl t v ;; ret (SRemote t (Some a)).

(** Copying a value. *)
Definition copy_val (t : cty) : M unit := may (cthrow t) ECopy.

(** typeid of the stored object: any_regular.hpp:228, 323; poly.hpp:110, 146. *)
Definition type_of (c : storage) : M cty :=
  match c with
  | SRaw => undef
  | SLocal t _ => ret t
  | SRemote t _ => ret t
  end.

(** clone: any_regular.hpp:232-234, 327-329; poly.hpp:186-188.  Both take the
    value by value: one copy, then a move. *)
Definition clone (fl : flavour) (c : storage) : M storage :=
  match c with
  | SRaw => undef
  | SLocal t (Live v) => copy_val t ;;; ret (SLocal t (Live v))
  | SLocal t Gone => copy_val t ;;; ret (SLocal t Gone)
  | SRemote t None => undef
  | SRemote t (Some a) =>
    k <- get_cell a ;;
    match k with
    | HObj t' v => if cty_eqb t t' then copy_val t ;;; make_model fl t v else undef
    | _ => undef
    end
  end.

(** What a move leaves behind. *)
Definition moved_from (t : cty) (c : content) : content :=
  if trivial t then c else Gone.

(** move_clone: any_regular.hpp:236-238, 331-333 (with 301-304);
    poly.hpp:190-192 (with 97-99, 137).  Gives the new storage and what is left
    in the source. *)
Definition move_clone (c : storage) : M (storage * storage) :=
  match c with
  | SRaw => undef
  | SLocal t k => ret (SLocal t k, SLocal t (moved_from t k))
  | SRemote t p => ret (SRemote t p, SRemote t None)
  end.

(** destruct: any_regular.hpp:230, 325 with 306-313; poly.hpp:103. *)
Definition destruct_ (c : storage) : M unit :=
  match c with
  | SRaw => undef
  | SLocal _ _ => ret tt
  | SRemote _ None => ret tt
  | SRemote t (Some a) =>
    k <- get_cell a ;;
    match k with
    | HObj t' _ => if cty_eqb t t' then set_cell a HFree else undef
    | _ => undef
    end
  end.

(** The stored value; [None] if it has been moved from (local only: a remote
    model that was moved from has a null pointer, and following it is
    undefined). *)
Definition read (c : storage) : M (option cval) :=
  match c with
  | SRaw => undef
  | SLocal _ (Live v) => ret (Some v)
  | SLocal _ Gone => ret None
  | SRemote _ None => undef
  | SRemote t (Some a) =>
    k <- get_cell a ;;
    match k with
    | HObj t' v => if cty_eqb t t' then ret (Some v) else undef
    | _ => undef
    end
  end.

(** ** The operations a client can write *)

Inductive op :=
| ODefault (x : nat)                         (* any_regular_t x; *)
| OCtor (x : nat) (t : cty) (v : cval)       (* any_regular_t x(v);  v of type t *)
| OCopy (x y : nat)                          (* any_regular_t x(y); *)
| OMove (x y : nat)                          (* any_regular_t x(std::move(y)); *)
| OAssign (x y : nat)                        (* x = y; *)
| OAssignMove (x y : nat)                    (* x = std::move(y); *)
| OSet (x : nat) (t : cty) (v : cval)        (* x = any_regular_t(v); *)
| OAssignVal (x : nat) (t : cty) (v : cval)  (* x.assign(v); *)
| OAssignRel (x y : nat)                     (* x.assign(y); *)
| OSwap (x y : nat)                          (* swap(x, y); *)
| OWrite (x : nat) (t : cty) (v : cval)      (* x.cast<T>() = v;  T its own promotion *)
| ODestroy (x : nat).                        (* end of the life of x *)

(** A declaration needs storage in which nothing lives yet. *)
Definition fresh (x : nat) : M unit :=
  c <- get_var x ;; match c with SRaw => ret tt | _ => undef end.

(** any_regular_t(T x): any_regular.hpp:500-503.  The argument is copied into
    the parameter, converted to the promoted type, and moved into the model.
    poly_base(T x): poly.hpp:266-270, 183 (two copies: into the parameter, and
    from it through const value_type&). *)
Definition from_value (fl : flavour) (t : cty) (v : cval) : M storage :=
  match fl with
  | Any =>
    copy_val t ;;;
    (if cty_eqb (promote t) t then ret tt else copy_val (promote t)) ;;;
    make_model fl (promote t) (up t v)
  | Poly => copy_val t ;;; copy_val t ;;; make_model fl t v
  end.

(** any_regular_t(const any_regular_t&), operator=(any_regular_t x)
    (any_regular.hpp:481-489; poly.hpp:281-283, 306-310): once the parameter is
    there, destroy the old object and move the parameter in; then the parameter
    is destroyed. *)
Definition replace (x : nat) (tmp : storage) : M unit :=
  c <- get_var x ;;
  destruct_ c ;;;
  set_var x SRaw ;;;
  m <- move_clone tmp ;;
  set_var x (fst m) ;;;
  destruct_ (snd m).

(** swap of two objects of the same type: any_regular.hpp:248-250, 343-345;
    poly.hpp:115-117, 151-153.  Of different types: any_regular.hpp:669-678;
    poly.hpp:294-303. *)
Definition swap_ (x y : nat) : M unit :=
  a <- get_var x ;;
  b <- get_var y ;;
  ta <- type_of a ;;
  tb <- type_of b ;;
  (if cty_eqb ta tb then
     match a, b with
     | SLocal t k, SLocal t' k' => set_var x (SLocal t k') ;;; set_var y (SLocal t' k)
     | SRemote t p, SRemote t' p' => set_var x (SRemote t p') ;;; set_var y (SRemote t' p)
     | _, _ => undef
     end
   else
     m <- move_clone a ;;
     destruct_ (snd m) ;;;
     set_var x SRaw ;;;
     m2 <- move_clone b ;;
     set_var x (fst m2) ;;;
     destruct_ (snd m2) ;;;
     set_var y SRaw ;;;
     m3 <- move_clone (fst m) ;;
     set_var y (fst m3) ;;;
     destruct_ (snd m3)).

(** x.cast<T>() = v with T its own promotion: any_regular.hpp:704-711, then the
    assignment operator of T, which can throw if a copy can. *)
Definition write (x : nat) (t : cty) (v : cval) : M unit :=
  c <- get_var x ;;
  ty <- type_of c ;;
  (if cty_eqb ty t then
     match c with
     | SRaw => undef
     | SLocal _ _ => copy_val t ;;; set_var x (SLocal t (Live v))
     | SRemote _ None => undef
     | SRemote _ (Some a) =>
       k <- get_cell a ;;
       match k with
       | HObj t' _ => if cty_eqb t t' then copy_val t ;;; set_cell a (HObj t v) else undef
       | _ => undef
       end
     end
   else throw ECast).

(** any_regular_t::assign(T x) (any_regular.hpp:558-563): destroys the object,
    then constructs the new model in its place.
    poly_base::assign(const T&) (poly.hpp:349-358): assigns in place if the type
    is the same, else makes a temporary and swaps. *)
Definition assign_val (fl : flavour) (x : nat) (t : cty) (v : cval) : M unit :=
  match fl with
  | Any =>
    copy_val t ;;;
    c <- get_var x ;;
    destruct_ c ;;;
    set_var x SRaw ;;;
    (if cty_eqb (promote t) t then ret tt else copy_val (promote t)) ;;;
    m <- make_model fl (promote t) (up t v) ;;
    set_var x m
  | Poly =>
    c <- get_var x ;;
    ty <- type_of c ;;
    (if cty_eqb ty t then write x t v
     else
       tmp <- from_value fl t v ;;
       (* swap( *this, tmp); tmp is then destroyed *)
       m <- move_clone c ;;
       destruct_ (snd m) ;;;
       set_var x SRaw ;;;
       m2 <- move_clone tmp ;;
       set_var x (fst m2) ;;;
       destruct_ (snd m2) ;;;
       m3 <- move_clone (fst m) ;;
       destruct_ (snd m3) ;;;
       destruct_ (fst m3))
  end.

(** any_regular_t::assign(any_regular_t x) (any_regular.hpp:565-569): like
    operator=.  poly_base::assign(const poly_base<J, K>& x) (poly.hpp:360-368):
    destroys the object, then clones x in its place. *)
Definition assign_rel (fl : flavour) (x y : nat) : M unit :=
  match fl with
  | Any => c <- get_var y ;; tmp <- clone fl c ;; replace x tmp
  | Poly =>
    a <- get_var x ;;
    destruct_ a ;;;
    set_var x SRaw ;;;
    c <- get_var y ;;
    m <- clone fl c ;;
    set_var x m
  end.

Definition step (fl : flavour) (o : op) : M unit :=
  match o with
  | ODefault x => fresh x ;;; set_var x (SLocal TEmpty (Live CEmpty))
  | OCtor x t v => fresh x ;;; m <- from_value fl t v ;; set_var x m
  | OCopy x y => fresh x ;;; c <- get_var y ;; m <- clone fl c ;; set_var x m
  | OMove x y =>
    fresh x ;;; c <- get_var y ;; m <- move_clone c ;; set_var y (snd m) ;;; set_var x (fst m)
  | OAssign x y => c <- get_var y ;; tmp <- clone fl c ;; replace x tmp
  | OAssignMove x y =>
    c <- get_var y ;; m <- move_clone c ;; set_var y (snd m) ;;; replace x (fst m)
  | OSet x t v => tmp <- from_value fl t v ;; replace x tmp
  | OAssignVal x t v => assign_val fl x t v
  | OAssignRel x y => assign_rel fl x y
  | OSwap x y => swap_ x y
  | OWrite x t v => write x t v
  | ODestroy x => c <- get_var x ;; destruct_ c ;;; set_var x SRaw
  end.

(** A sequence of statements, each in its own try block. *)
Fixpoint run (fl : flavour) (os : list op) : M unit :=
  match os with
  | [] => ret tt
  | o :: r => fun s => match step fl o s with
                       | Ok _ s' => run fl r s'
                       | Exc _ s' => run fl r s'
                       | UB => UB
                       end
  end.

(** [n] variables not yet declared, an empty free store. *)
Definition init (n : nat) (sched : list bool) : st := mkst [] (repeat SRaw n) sched.

(** ** Queries *)

(** type_info(): any_regular.hpp:580; poly.hpp:325. *)
Definition type_info (x : nat) : M cty := c <- get_var x ;; type_of c.

(** cast<T>() const: any_regular.hpp:695-702; poly.hpp:327-332 (no promotion). *)
Definition cast (fl : flavour) (t : cty) (x : nat) : M cval :=
  c <- get_var x ;;
  ty <- type_of c ;;
  (if cty_eqb ty (match fl with Any => promote t | Poly => t end) then
     v <- read c ;;
     match v with
     | None => undef                      (* a moved from value: unspecified *)
     | Some w => match fl with
                 | Any => match down t w with Some u => ret u | None => undef end
                 | Poly => ret w
                 end
     end
   else throw ECast).

(** bool cast(T& x) const: any_regular.hpp:518-524; poly.hpp:341-347. *)
Definition cast_to (fl : flavour) (t : cty) (x : nat) (old : cval) : M (bool * cval) :=
  c <- get_var x ;;
  ty <- type_of c ;;
  (if cty_eqb ty (match fl with Any => promote t | Poly => t end) then
     v <- cast fl t x ;; ret (true, v)
   else ret (false, old)).

(** operator==: any_regular.hpp:656-658 with 244-246, 339-341;
    poly_regular.hpp:70-73. *)
Definition equal (x y : nat) : M bool :=
  a <- get_var x ;;
  b <- get_var y ;;
  ta <- type_of a ;;
  tb <- type_of b ;;
  (if cty_eqb ta tb then
     va <- read a ;;
     vb <- read b ;;
     match va, vb with
     | Some u, Some w => ret (veq u w)
     | _, _ => undef
     end
   else ret false).

(** empty(x): any_regular.hpp:751. *)
Definition is_empty (x : nat) : M bool :=
  t <- type_info x ;; ret (cty_eqb t TEmpty).

(** The number of live cells of the free store. *)
Definition live (s : st) : nat :=
  length (filter (fun c => match c with HFree => false | _ => true end) (heap s)).
