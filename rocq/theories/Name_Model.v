(** Model of the string pools, name_t and static_name_t:
    /repo/source/string_pool.cpp:27-116, /repo/source/name.cpp:26-77, /repo/adobe/name.hpp:58-299,
    /repo/adobe/string.hpp:53-61.
    A C string is the list of its bytes (N below 256, none of them 0), without the terminator.
    Memory is a list of separately allocated blocks of bytes, [None] = never written; a pointer is
    a block number and an offset, or the address of the literal "" (detail::empty_string_s()).
    [None] as a result is undefined behaviour. std::set and std::unordered_map are lists searched
    by the container's notion of equivalence. char is signed (as on x86). The mutex of
    map_string makes the calls sequential, so a history is a list of calls. *)
From Verif Require Import Prelude.
Local Open Scope nat_scope.

Inductive ptr := EmptyString | Pool (block offset : nat).

(** string_pool.cpp:27-71: pool_m, next_m and end_m (offsets in the last block; both 0 = NULL) *)
Record string_pool := SPool { blocks : list (list (option N)); next_m : nat; end_m : nat }.

(** one byte store in block [b] *)
Definition store (bs : list (list (option N))) (b off : nat) (x : N) : option (list (list (option N))) :=
  match nth_error bs b with
  | None => None
  | Some blk => if off <? length blk then Some (upd bs b (upd blk off (Some x))) else None
  end.

(** string_pool.cpp:48-65 allocate *)
Definition allocate (pool_size : nat) (p : string_pool) (len : nat) : option (ptr * string_pool) :=
  let full_length := len + 1 in
  let p := if end_m p - next_m p <? full_length
           then let size := Nat.max pool_size full_length in
                SPool (blocks p ++ [repeat None size]) 0 size
           else p in
  let b := length (blocks p) - 1 in
  match store (blocks p) b (next_m p + len) 0%N with
  | None => None
  | Some bs => Some (Pool b (next_m p), SPool bs (next_m p + len + 1) (end_m p))
  end.

(** adobe::copy_n, algorithm/copy.hpp:77-98 *)
Fixpoint copy_n (bs : list (list (option N))) (b off : nat) (s : list N) : option (list (list (option N))) :=
  match s with
  | [] => Some bs
  | x :: s => match store bs b off x with None => None | Some bs => copy_n bs b (S off) s end
  end.

(** string_pool.cpp:37-45 string_pool_t::add *)
Definition pool_add (pool_size : nat) (p : string_pool) (s : list N) : option (ptr * string_pool) :=
  match allocate pool_size p (length s) with
  | None => None
  | Some (EmptyString, _) => None
  | Some (Pool b off, p) =>
    match copy_n (blocks p) b off s with
    | None => None
    | Some bs => Some (Pool b off, SPool bs (next_m p) (end_m p))
    end
  end.

(** Reading a C string: the bytes up to the terminator. *)
Fixpoint c_string (mem : list (option N)) : option (list N) :=
  match mem with
  | [] => None
  | None :: _ => None
  | Some 0%N :: _ => Some []
  | Some c :: mem => option_map (cons c) (c_string mem)
  end.
Definition c_str (p : string_pool) (a : ptr) : option (list N) :=
  match a with
  | EmptyString => Some []
  | Pool b off => match nth_error (blocks p) b with None => None | Some blk => c_string (skipn off blk) end
  end.

(** string.hpp:53-61 str_less_t; the element after the last one is the terminator 0 *)
Definition schar (c : N) : Z := (if (c <? 128)%N then Z.of_N c else Z.of_N c - 256)%Z.
Fixpoint str_less (x y : list N) : bool :=
  match x, y with
  | a :: x', b :: y' => if N.eqb a b then str_less x' y' else (schar a <? schar b)%Z
  | [], b :: _ => (0 <? schar b)%Z
  | a :: _, [] => (schar a <? 0)%Z
  | [], [] => false
  end.

(** string_pool.cpp:83-108 unique_string_pool_t *)
Record unique_pool := UPool { store_m : list ptr; pool_m : string_pool }.
Definition empty_pool : unique_pool := UPool [] (SPool [] 0 0).

(** store_m.find(str) *)
Definition set_find (u : unique_pool) (s : list N) : option ptr :=
  find (fun a => match c_str (pool_m u) a with
                 | None => false
                 | Some t => negb (str_less t s) && negb (str_less s t)
                 end) (store_m u).

(** string_pool.cpp:89-101 *)
Definition unique_add (pool_size : nat) (u : unique_pool) (s : list N) : option (ptr * unique_pool) :=
  match s with
  | [] => Some (EmptyString, u)
  | _ =>
    match set_find u s with
    | Some a => Some (a, u)
    | None =>
      match pool_add pool_size (pool_m u) s with
      | None => None
      | Some (a, p) => Some (a, UPool (store_m u ++ [a]) p)
      end
    end
  end.

Fixpoint unique_adds (pool_size : nat) (u : unique_pool) (l : list (list N)) : option (list ptr * unique_pool) :=
  match l with
  | [] => Some ([], u)
  | s :: l =>
    match unique_add pool_size u s with
    | None => None
    | Some (a, u) =>
      match unique_adds pool_size u l with None => None | Some (ps, u) => Some (a :: ps, u) end
    end
  end.

(** name.hpp:58-78: static_cast<std::size_t>(char) sign-extends *)
Local Open Scope N_scope.
Definition sext (c : N) : N := if c <? 128 then c else 2 ^ 64 - 256 + c.
Definition name_hash (s : list N) : N :=
  fold_left (fun state c => (N.lxor state (sext c) * 0x100000001b3) mod 2 ^ 64) s 0xcbf29ce484222325.

(** name.cpp:71-72: pool_s and map_s *)
Record names := Names { pool_s : unique_pool; map_s : list (N * ptr) }.
Definition no_names : names := Names empty_pool [].
(** string_pool.cpp:29 *)
Definition default_pool_size : nat := 4096.

(** name.cpp:63-77 *)
Definition map_string_hash (n : names) (s : list N) (hash : N) : option (ptr * names) :=
  match find (fun e => fst e =? hash) (map_s n) with
  | Some (_, a) => Some (a, n)
  | None =>
    match unique_add default_pool_size (pool_s n) s with
    | None => None
    | Some (a, u) => Some (a, Names u ((hash, a) :: map_s n))
    end
  end.

(** name.cpp:50-59 *)
Definition map_string (n : names) (s : list N) : option (ptr * names) :=
  match s with
  | [] => map_string_hash n [] (name_hash [])
  | _ => map_string_hash n s (name_hash s)
  end.

(** name.hpp:135-171, 205-207: static_name_t{str, name_hash(str, n)} *)
Record static_name := Static { string_m : list N; hash_m : N }.
Definition literal_name (s : list N) : static_name := Static s (name_hash s).
(** name.hpp:145-147 *)
Definition static_eq (x y : static_name) : bool := hash_m x =? hash_m y.

(** The two ways to make a name_t: from a C string (name.hpp:225) and from a literal
    (name.hpp:230-231). *)
Inductive request := Dynamic (s : list N) | Literal (s : list N).
Definition make (n : names) (r : request) : option (ptr * names) :=
  match r with
  | Dynamic s => map_string n s
  | Literal s => let x := literal_name s in map_string_hash n (string_m x) (hash_m x)
  end.
Fixpoint makes (n : names) (rs : list request) : option (list ptr * names) :=
  match rs with
  | [] => Some ([], n)
  | r :: rs =>
    match make n r with
    | None => None
    | Some (a, n) => match makes n rs with None => None | Some (l, n) => Some (a :: l, n) end
    end
  end.

(** name.hpp:248 operator==, name.cpp:46 operator bool, name.hpp:257-259 operator< (strcmp) *)
Definition ptr_eqb (a b : ptr) : bool :=
  match a, b with
  | EmptyString, EmptyString => true
  | Pool b1 o1, Pool b2 o2 => (b1 =? b2)%nat && (o1 =? o2)%nat
  | _, _ => false
  end.
Definition name_bool (a : ptr) : bool := negb (ptr_eqb a EmptyString).
Fixpoint strcmp_lt (x y : list N) : bool :=
  match x, y with
  | [], [] => false
  | [], _ :: _ => true
  | _ :: _, [] => false
  | a :: x', b :: y' => if a =? b then strcmp_lt x' y' else a <? b
  end.
Definition name_less (n : names) (a b : ptr) : option bool :=
  match c_str (pool_m (pool_s n)) a, c_str (pool_m (pool_s n)) b with
  | Some x, Some y => Some (strcmp_lt x y)
  | _, _ => None
  end.
