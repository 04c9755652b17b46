(** Model of /repo/source/zuid.cpp, /repo/source/zuid_uuid.cpp, /repo/source/zuid_sys_dep.cpp,
    /repo/adobe/zuid.hpp and /repo/adobe/implementation/zuid_sys_dep.hpp: universally unique
    identifiers, their text, their order, the name based ones and the generated ones.

    Bytes and unsigned integers are [N]; a uint8_t/uint16_t/uint32_t/uint64_t value is reduced
    modulo 2^8/2^16/2^32/2^64 wherever the code stores one. *)
From Verif Require Import Prelude MD5_Model.
Local Open Scope N_scope.
Ltac Zify.zify_post_hook ::= idtac.

(** /repo/adobe/zuid.hpp uuid_t (data1_m .. data4_m[8]). *)
Record uuid := Uuid { d1 : N; d2 : N; d3 : N; d4 : list N }.

(** /repo/source/zuid.cpp:118-122 empty_uuid. *)
Definition empty_uuid : uuid := Uuid 0 0 0 (repeat 0 8).

(* ---- text ------------------------------------------------------------------------------ *)

(** printf's %x: the digits of an unsigned value, no leading zeros. *)
Definition xdigit (d : N) : N := if d <? 10 then 48 + d else 87 + d.
Fixpoint to_hex (fuel : nat) (n : N) : list N :=
  match fuel with
  | O => []
  | S f => if n <? 16 then [xdigit n] else to_hex f (n / 16) ++ [xdigit (n mod 16)]
  end.
(** printf's %0wx on an unsigned int. *)
Definition printf_0x (w : nat) (n : N) : list N :=
  let s := to_hex 8 n in repeat 48 (w - length s) ++ s.

(** /repo/source/zuid.cpp:107-114 format_uuid: snprintf into a buffer of string_size_k + 1 = 37
    characters keeps at most 36; the result is the C string in the buffer. *)
Definition format_uuid (u : uuid) : list N :=
  let b i := printf_0x 2 (nth i (d4 u) 0) in
  firstn 36 (printf_0x 8 (d1 u) ++ [45] ++ printf_0x 4 (d2 u) ++ [45] ++ printf_0x 4 (d3 u) ++ [45]
             ++ b 0%nat ++ b 1%nat ++ [45]
             ++ b 2%nat ++ b 3%nat ++ b 4%nat ++ b 5%nat ++ b 6%nat ++ b 7%nat).

(** /repo/source/zuid.cpp:219-227 zuid_t::str. *)
Definition str (u : uuid) : list N := format_uuid u.

(** isspace in the C locale (sscanf skips white space before %x). *)
Definition isspace (c : N) : bool := (c =? 32) || ((9 <=? c) && (c <=? 13)).
Fixpoint skip_space (s : list N) : list N :=
  match s with c :: r => if isspace c then skip_space r else s | [] => [] end.

(** The value of a hexadecimal digit. *)
Definition xvalue (c : N) : option N :=
  if (48 <=? c) && (c <=? 57) then Some (c - 48)
  else if (97 <=? c) && (c <=? 102) then Some (c - 87)
  else if (65 <=? c) && (c <=? 70) then Some (c - 55)
  else None.

(** The digits sscanf takes for a field of at most [w] characters: the value, whether there was
    a digit, what is left. *)
Fixpoint take_hex (w : nat) (acc : N) (any : bool) (s : list N) : N * bool * list N :=
  match w, s with
  | S w', c :: r =>
    match xvalue c with
    | Some v => take_hex w' (16 * acc + v) true r
    | None => (acc, any, s)
    end
  | _, _ => (acc, any, s)
  end.

(** C11 7.21.6.2: a "%wx" conversion: skip white space; an optional sign and an optional 0x count
    towards the width [w]; at least one digit.  The value is an unsigned long (2^64).  "0x" with no
    digit after it is the longest prefix of a matching sequence and does not match. *)
Definition scan_hex (w : nat) (s : list N) : option (N * list N) :=
  let s := skip_space s in
  let '(neg, w, s) := match w, s with
                      | S w', c :: r => if c =? 45 then (true, w', r)
                                        else if c =? 43 then (false, w', r) else (false, w, s)
                      | _, _ => (false, w, s)
                      end in
  let '(w, s) := match w, s with
                 | S (S w'), z :: x :: r =>
                   if (z =? 48) && ((x =? 120) || (x =? 88)) then (w', r) else (w, s)
                 | _, _ => (w, s)
                 end in
  let '(v, any, rest) := take_hex w 0 false s in
  if any then Some ((if neg : bool then (2 ^ 64 - v) mod 2 ^ 64 else v), rest) else None.

Inductive directive := Hex (w : nat) | Dash.

(** sscanf: the values stored, in order; it stops at the first directive that fails. *)
Fixpoint sscanf (fmt : list directive) (s : list N) : list N :=
  match fmt with
  | [] => []
  | Hex w :: r => match scan_hex w s with Some (v, s') => v :: sscanf r s' | None => [] end
  | Dash :: r => match s with c :: s' => if c =? 45 then sscanf r s' else [] | [] => [] end
  end.

(** /repo/source/zuid.cpp:175: the format "%8lx-%4hx-%4hx-%2x%2x-%2x%2x%2x%2x%2x%2x". *)
Definition zuid_format : list directive :=
  [Hex 8; Dash; Hex 4; Dash; Hex 4; Dash; Hex 2; Hex 2; Dash; Hex 2; Hex 2; Hex 2; Hex 2; Hex 2; Hex 2].

(** /repo/source/zuid.cpp:165-184 zuid_t(const char* ).  [text] is the C string without its NUL.
    [None]: the constructor reads temp_data1 or an element of temp_data that sscanf did not store
    (they are not initialised). *)
Definition zuid_of_text (text : list N) : option uuid :=
  let vals := sscanf zuid_format text in
  match nth_error vals 0, nth_error vals 10 with
  | Some temp_data1, Some _ =>
    Some (Uuid (temp_data1 mod 2 ^ 32)                   (* static_cast<int32_t>, stored in uint32_t *)
               (nth 1 vals 0 mod 2 ^ 16) (nth 2 vals 0 mod 2 ^ 16)   (* %hx *)
               (map (fun v => v mod 256) (skipn 3 vals)))   (* static_cast<uint8_t> of an int *)
  | _, _ => None
  end.

(** What a reader of a NUL terminated buffer sees. *)
Fixpoint c_str (s : list N) : list N :=
  match s with c :: r => if c =? 0 then [] else c :: c_str r | [] => [] end.

(** /repo/source/zuid.cpp:148-161 zuid_t(const std::string&): the first 36 characters, through
    zuid_t(const char* ). *)
Definition zuid_of_string (s : list N) : option uuid := zuid_of_text (c_str (firstn 36 s)).

(* ---- order ----------------------------------------------------------------------------- *)

(** /repo/source/zuid_uuid.cpp:203-219 uuid_compare: -1, 0 or 1. *)
Fixpoint compare_bytes (n : nat) (a b : list N) : Z :=
  match n with
  | O => 0%Z
  | S n' => let x := nth 0 a 0 in let y := nth 0 b 0 in
            if x =? y then compare_bytes n' (tl a) (tl b) else if x <? y then (-1)%Z else 1%Z
  end.
Definition uuid_compare (a b : uuid) : Z :=
  if negb (d1 a =? d1 b) then (if d1 a <? d1 b then (-1)%Z else 1%Z)
  else if negb (d2 a =? d2 b) then (if d2 a <? d2 b then (-1)%Z else 1%Z)
  else if negb (d3 a =? d3 b) then (if d3 a <? d3 b then (-1)%Z else 1%Z)
  else compare_bytes 8 (d4 a) (d4 b).

(** /repo/source/zuid.cpp:245-253 operator== and operator<. *)
Definition zuid_eq (a b : uuid) : bool := (uuid_compare a b =? 0)%Z.
Definition zuid_lt (a b : uuid) : bool := (uuid_compare a b =? -1)%Z.

(* ---- name based ------------------------------------------------------------------------ *)

(** /repo/adobe/implementation/zuid_sys_dep.hpp:86-99 swab. *)
Definition swab32 (x : N) : N :=
  N.lor (N.lor (N.lor (N.shiftl x 24 mod 2 ^ 32) (N.shiftl (N.land x 0xFF00) 8))
               (N.shiftr (N.land x 0xFF0000) 8)) (N.shiftr x 24).
Definition swab16 (x : N) : N := N.lor (N.shiftl x 8) (N.shiftr x 8) mod 2 ^ 16.

(** /repo/adobe/implementation/zuid_sys_dep.hpp:103-129 host_to_net and net_to_host: nothing when
    ADOBE_PLATFORM_MAC ([mac]), swab otherwise. *)
Definition htn32 (mac : bool) (x : N) : N := if mac then x else swab32 x.
Definition htn16 (mac : bool) (x : N) : N := if mac then x else swab16 x.

(** The bytes of a uuid_t in the memory of a machine, big ([be]) or little endian, and back. *)
Definition store16 (be : bool) (x : N) : list N :=
  if be then [x / 256; x mod 256] else [x mod 256; x / 256].
Definition store32 (be : bool) (x : N) : list N :=
  let l := [x mod 256; x / 256 mod 256; x / 65536 mod 256; x / 16777216] in if be then rev l else l.
Definition load16 (be : bool) (l : list N) : N :=
  match (if be then rev l else l) with [a; b] => a + 256 * b | _ => 0 end.
Definition load32 (be : bool) (l : list N) : N :=
  match (if be then rev l else l) with [a; b; c; d] => a + 256 * b + 65536 * c + 16777216 * d | _ => 0 end.
Definition memory_of (be : bool) (u : uuid) : list N :=
  store32 be (d1 u) ++ store16 be (d2 u) ++ store16 be (d3 u) ++ d4 u.
Definition uuid_at (be : bool) (m : list N) : uuid :=
  Uuid (load32 be (firstn 4 m)) (load16 be (firstn 2 (skipn 4 m))) (load16 be (firstn 2 (skipn 6 m)))
       (firstn 8 (skipn 8 m)).

(** /repo/source/zuid_uuid.cpp:70-86 format_uuid_v3. *)
Definition format_uuid_v3 (mac be : bool) (hash : list N) : uuid :=
  let u := uuid_at be hash in
  let v1 := htn32 mac (d1 u) in
  let v2 := htn16 mac (d2 u) in
  let v3 := htn16 mac (d3 u) in
  let v3 := N.lor (N.land v3 0x0FFF) (N.shiftl 3 12) in
  let b := N.lor (N.land (nth 0 (d4 u) 0) 0x3F) 0x80 in
  Uuid v1 v2 v3 (upd (d4 u) 0 b).

(** /repo/source/zuid_uuid.cpp:179-200 uuid_create_from_name; the name is cut to [namelen] bytes.
    [junk] is the uninitialised buffer of the md5_t object; [None] is undefined behaviour in it. *)
Definition uuid_create_from_name (mac be : bool) (junk : list N) (nsid : uuid) (name : list N) (namelen : nat)
    : option uuid :=
  let net_nsid := Uuid (htn32 mac (d1 nsid)) (htn16 mac (d2 nsid)) (htn16 mac (d3 nsid)) (d4 nsid) in
  match update (reset junk) (memory_of be net_nsid) with
  | None => None
  | Some c1 =>
    match update c1 (firstn namelen name) with
    | None => None
    | Some c2 => match final c2 with
                 | None => None
                 | Some (hash, _) => Some (format_uuid_v3 mac be hash)
                 end
    end
  end.

(** /repo/source/zuid.cpp:188-193 zuid_t(name_space, name): the length is cast to uint16_t. *)
Definition zuid_of_name (mac be : bool) (junk : list N) (ns : uuid) (name : list N) : option uuid :=
  uuid_create_from_name mac be junk ns name (N.to_nat (N.of_nat (length name) mod 2 ^ 16)).

(* ---- generated ------------------------------------------------------------------------- *)

(** The statics of get_current_time, shared by all threads: /repo/source/zuid_uuid.cpp:101-103. *)
Record statics := Statics { inited : bool; time_last : N; this_tick : N }.

(** /repo/adobe/implementation/zuid_sys_dep.hpp:52 UUIDS_PER_TICK. *)
Definition UUIDS_PER_TICK : N := 10.

(** /repo/source/zuid_uuid.cpp:100-131 get_current_time.  [now] is what get_system_time reports at
    this call (it is read at most once per call: on the first call, whose tick count is 0, only by
    the initialisation).  The body is taken as atomic although nothing locks it. *)
Definition get_current_time (g : statics) (now : N) : N * statics :=
  let g := if inited g then g else Statics true now (this_tick g) in
  let g :=
    if this_tick g <? UUIDS_PER_TICK then Statics true (time_last g) (this_tick g + 1)
    else if ((time_last g + this_tick g) mod 2 ^ 64) <? now then Statics true now 0
    else Statics true (time_last g) ((this_tick g + 1) mod 2 ^ 16) in
  ((time_last g + this_tick g) mod 2 ^ 64, g).

(** /repo/source/zuid_sys_dep.cpp:83-95 the thread's own state: the node address, once chosen, and
    the saved clock sequence, time stamp and node. *)
Record local := Local { my_node : option (list N); saved : option (N * N * list N) }.
Definition fresh : local := Local None None.

(** What the outside world supplies to one call: the system time, the random node address
    random_address would compute, and true_random. *)
Record world := World { now : N; random_node : list N; random : N }.

(** /repo/source/zuid_sys_dep.cpp:243-257 get_ieee_node_identifier. *)
Definition get_node (l : local) (w : world) : list N * local :=
  match my_node l with
  | Some n => (n, l)
  | None => (random_node w, Local (Some (random_node w)) (saved l))
  end.

(** /repo/source/zuid_uuid.cpp:51-64 format_uuid_v1. *)
Definition format_uuid_v1 (clock_seq timestamp : N) (node : list N) : uuid :=
  Uuid (N.land timestamp 0xFFFFFFFF)
       (N.land (N.shiftr timestamp 32) 0xFFFF)
       (N.lor (N.land (N.shiftr timestamp 48) 0x0FFF) (N.shiftl 1 12))
       (N.lor (N.shiftr (N.land clock_seq 0x3F00) 8) 0x80 :: N.land clock_seq 0xFF :: firstn 6 node).

Definition node_eqb (a b : list N) : bool := if list_eq_dec N.eq_dec a b then true else false.

(** /repo/source/zuid_uuid.cpp:139-173 uuid_create, with read_state and write_state
    (/repo/source/zuid_sys_dep.cpp:276-309). *)
Definition uuid_create (g : statics) (l : local) (w : world) : uuid * statics * local :=
  let '(timestamp, g) := get_current_time g (now w) in
  let '(node, l) := get_node l w in
  let clockseq :=
    match saved l with
    | None => random w mod 2 ^ 16
    | Some (cs, last_time, last_node) =>
      if negb (node_eqb node last_node) then random w mod 2 ^ 16
      else if timestamp <? last_time then (cs + 1) mod 2 ^ 16
      else cs
    end in
  (format_uuid_v1 clockseq timestamp node, g, Local (my_node l) (Some (clockseq, timestamp, node))).

(** A run of a program: the calls of zuid_t(), each by some thread, one after the other. *)
Fixpoint generate (g : statics) (ls : nat -> local) (calls : list (nat * world)) : list uuid :=
  match calls with
  | [] => []
  | (t, w) :: rest =>
    let '(u, g', l') := uuid_create g (ls t) w in
    u :: generate g' (fun t' => if Nat.eqb t' t then l' else ls t') rest
  end.

(** The statics before the first call; every thread is fresh. *)
Definition program_start : statics := Statics false 0 0.
Definition zuids (calls : list (nat * world)) : list uuid := generate program_start (fun _ => fresh) calls.
