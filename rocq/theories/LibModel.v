(** Model of the run-time library functions written in Clara (install/lib).

    Library functions are modelled as Gallina functions over the values they
    work on: strings and byte arrays are lists of bytes (0..255), Clara lists are
    Coq lists, ints are 63-bit numbers (Ints.v).  Mutable objects are passed in and
    returned; the heap is not modelled here.  Function arguments that the library
    calls are modelled with a state they may change ([S]), so the order and
    number of calls is visible. *)
From Coq Require Import ZArith List Bool.
From Verif Require Import Ints.
Import ListNotations.
Open Scope Z_scope.

(** Outcome of running a function.
    - [Panic]: the program stopped with an error message (runtime.clara:82-103);
    - [Trap]: division by zero, the processor stops the program;
    - [Wild]: memory outside the object was read or written, or an object of
      negative size was requested; nothing is said about what follows;
    - [NoFuel]: the model's step budget was used up. *)
Inductive res (A : Type) := Val (a : A) | Panic | Trap | Wild | NoFuel.
Arguments Val {A} a. Arguments Panic {A}. Arguments Trap {A}. Arguments Wild {A}. Arguments NoFuel {A}.

Definition bind {A B} (r : res A) (f : A -> res B) : res B :=
  match r with Val a => f a | Panic => Panic | Trap => Trap | Wild => Wild | NoFuel => NoFuel end.
Notation "x <- r ;; e" := (bind r (fun x => e)) (at level 61, r at next level, right associativity).

Definition len {A} (l : list A) : Z := Z.of_nat (length l).

(* ------------------------------------------------------------------ core.clara *)

(** codegen.go:697-718: division traps on zero. *)
Definition div_ (a b : Z) : res Z := match idiv a b with Some q => Val q | None => Trap end.

(** core.clara:27 (mod). *)
Definition mod_ (i m : Z) : res Z := q <- div_ i m ;; Val (isub i (imul q m)).

(* ---------------------------------------------------- bytes.clara, strings.clara *)

(** codegen.go:325-336 (genRead, movsbq): a byte read is sign extended. *)
Definition sign8 (b : Z) : Z := if b <? 128 then b else b - 256.

(** The byte at an index, and a list with it replaced; the caller checks the upper
    bound.  Negative indexes reach memory before the object. *)
Definition read_byte (l : list Z) (idx : Z) : res Z :=
  if idx <? 0 then Wild else Val (sign8 (nth (Z.to_nat idx) l 0)).
Fixpoint upd {A} (l : list A) (n : nat) (v : A) : list A :=
  match l, n with
  | [], _ => []
  | _ :: t, O => v :: t
  | x :: t, S m => x :: upd t m v
  end.
(** codegen.go:338-351 (genWrite, movb): the low 8 bits are written. *)
Definition write_byte (l : list Z) (idx v : Z) : res (list Z) :=
  if idx <? 0 then Wild else Val (upd l (Z.to_nat idx) (v mod 256)).

(** runtime.clara:89-93 (assert) *)
Definition assert_ {A} (c : bool) (k : res A) : res A := if c then k else Panic.

(** bytes.clara:9-12 (get) *)
Definition bytes_get (b : list Z) (idx : Z) : res Z := assert_ (idx <? len b) (read_byte b idx).
(** bytes.clara:14-17 (set) *)
Definition bytes_set (b : list Z) (idx v : Z) : res (list Z) :=
  assert_ (idx <? len b) (write_byte b idx v).
(** strings.clara:2-5 (byte) *)
Definition str_byte (s : list Z) (idx : Z) : res Z := assert_ (idx <? len s) (read_byte s idx).
(** bytes.clara:1-5 (Bytes): zeroed memory.  Negative lengths ask for less memory
    than the header needs, or for an impossible amount: [Wild]. *)
Definition new_bytes (n : Z) : res (list Z) := if n <? 0 then Wild else Val (repeat 0 (Z.to_nat n)).

(** strings.clara:8-19 (Equals); [n] counts the iterations left of the loop
    [for i in 0 .. s1.length]. *)
Fixpoint equals_loop (n : nat) (i : Z) (s1 s2 : list Z) : res bool :=
  match n with
  | O => Val true
  | S n' =>
    b1 <- str_byte s1 i ;; b2 <- str_byte s2 i ;;
    if b1 =? b2 then equals_loop n' (iadd i 1) s1 s2 else Val false
  end.
Definition equals (s1 s2 : list Z) : res bool :=
  if negb (len s1 =? len s2) then Val false else equals_loop (length s1) 0 s1 s2.

(** arrays.clara:3-9 (copyArray); returns the changed destination. *)
Fixpoint copy_array_f (fuel : nat) (src : list Z) (sp : Z) (dst : list Z) (dp : Z) : res (list Z) :=
  match fuel with
  | O => NoFuel
  | S f =>
    if (len src =? sp) || (len dst =? dp) then Val dst
    else v <- bytes_get src sp ;; dst' <- bytes_set dst dp v ;;
         copy_array_f f src (iadd sp 1) dst' (iadd dp 1)
  end.
Definition copy_array src sp dst dp := copy_array_f (S (length dst)) src sp dst dp.

(** strings.clara:141-147 (copyString) *)
Fixpoint copy_string_f (fuel : nat) (src : list Z) (sp : Z) (dst : list Z) (dp : Z) : res (list Z) :=
  match fuel with
  | O => NoFuel
  | S f =>
    if (sp <? len src) && (dp <? len dst)
    then v <- bytes_get src sp ;; dst' <- bytes_set dst dp v ;;
         copy_string_f f src (iadd sp 1) dst' (iadd dp 1)
    else Val dst
  end.
Definition copy_string src sp dst dp := copy_string_f (S (length src)) src sp dst dp.

(** strings.clara:153-158 (toString of a part of a byte array).  The extra byte for
    the terminating NUL is beyond the length of the result and not shown. *)
Definition bytes_to_string (b : list Z) (pos n : Z) : res (list Z) :=
  if n <? 0 then Wild else s <- new_bytes n ;; copy_array b pos s 0.
(** strings.clara:152 *)
Definition bytes_prefix_to_string (b : list Z) (n : Z) : res (list Z) := bytes_to_string b 0 n.
(** strings.clara:151 *)
Definition bytes_all_to_string (b : list Z) : res (list Z) := bytes_prefix_to_string b (len b).
(** strings.clara:23 (Substring) *)
Definition substring (s : list Z) (start end_ : Z) : res (list Z) :=
  bytes_to_string s start (isub end_ start).
(** strings.clara:130-137 (append of strings) *)
Definition str_append (s1 s2 : list Z) : res (list Z) :=
  b <- new_bytes (iadd (len s1) (len s2)) ;;
  b1 <- copy_string s1 0 b 0 ;;
  copy_string s2 0 b1 (len s1).

(** strings.clara:43-53 (matchRun) *)
Fixpoint match_run_f (fuel : nat) (s sub : list Z) (pos i : Z) : res bool :=
  match fuel with
  | O => NoFuel
  | S f =>
    if (pos <? len s) && (i <? len sub)
    then b1 <- str_byte s pos ;; b2 <- str_byte sub i ;;
         if b1 =? b2 then match_run_f f s sub (iadd pos 1) (iadd i 1) else Val false
    else Val (i =? len sub)
  end.
Definition match_run (s sub : list Z) (pos : Z) : res bool :=
  match_run_f (S (length sub)) s sub pos 1.

(** strings.clara:55-59, the loop [for pos in from .. s.length]; the operands of
    [and] are both evaluated (codegen.go:687-694). *)
Fixpoint index_loop (n : nat) (s sub : list Z) (pos : Z) : res Z :=
  match n with
  | O => Val (-1)
  | S n' =>
    b1 <- str_byte s pos ;; b2 <- str_byte sub 0 ;;
    r <- match_run s sub (iadd pos 1) ;;
    if (b1 =? b2) && r then Val pos else index_loop n' s sub (iadd pos 1)
  end.
(** strings.clara:31-61 (IndexOf) *)
Definition index_of_from (s sub : list Z) (from : Z) : res Z :=
  if len sub =? 0 then Val 0
  else if len s =? 0 then Val (-1)
  else if iadd (len sub) from >? len s then Val (-1)
  else index_loop (Z.to_nat (len s - from)) s sub from.
(** strings.clara:27 *)
Definition index_of (s sub : list Z) : res Z := index_of_from s sub 0.

(** strings.clara:65-68 (byteBuffer) *)
Record buffer := Buffer { buf_data : list Z; buf_size : Z }.
(** strings.clara:72 (NewByteBuffer) *)
Definition new_buffer (cap : Z) : res buffer := d <- new_bytes cap ;; Val (Buffer d 0).
(** strings.clara:74-76 (size, reset, toString) *)
Definition buf_reset (b : buffer) : buffer := Buffer (buf_data b) 0.
Definition buf_to_string (b : buffer) : res (list Z) := bytes_prefix_to_string (buf_data b) (buf_size b).
(** strings.clara:119-122, the loop of grow *)
Fixpoint grow_loop (fuel : nat) (n required : Z) : res Z :=
  match fuel with
  | O => NoFuel
  | S f => if n <? required then grow_loop f (imul n 2) required else Val n
  end.
(** strings.clara:118-126 (grow); 64 doublings leave the range of ints. *)
Definition grow (fuel : nat) (b : buffer) (required : Z) : res buffer :=
  n <- grow_loop fuel (imul (len (buf_data b)) 2) required ;;
  d <- new_bytes n ;;
  d' <- copy_array (buf_data b) 0 d 0 ;;
  Val (Buffer d' (buf_size b)).
Definition grow_fuel : nat := 64.
(** strings.clara:80-88 (append of a string) *)
Definition buf_append (b : buffer) (s : list Z) : res buffer :=
  let n := iadd (buf_size b) (len s) in
  b' <- (if n >? len (buf_data b) then grow grow_fuel b n else Val b) ;;
  d <- copy_string s 0 (buf_data b') (buf_size b') ;;
  Val (Buffer d n).
(** strings.clara:107-114 (append of a byte) *)
Definition buf_append_byte (b : buffer) (v : Z) : res buffer :=
  let n := iadd (buf_size b) 1 in
  b' <- (if n >? len (buf_data b) then grow grow_fuel b n else Val b) ;;
  d <- bytes_set (buf_data b') (buf_size b') v ;;
  Val (Buffer d n).
(** strings.clara:92-103 (substring of a buffer) *)
Definition buf_substring (b : buffer) (pos n : Z) : res (list Z) :=
  if (pos <? 0) || (n <? 0) then Panic
  else if iadd pos n >? buf_size b then Panic
  else if n =? 0 then Val []
  else bytes_to_string (buf_data b) pos n.

(* ------------------------------------------------------------------ hash.clara *)

(** hash.clara:6-13 (fnv1a), [n] iterations left of [for i in 0 .. s.length] *)
Fixpoint fnv1a_loop (n : nat) (i : Z) (s : list Z) (h : Z) : res Z :=
  match n with
  | O => Val h
  | S n' =>
    b <- str_byte s i ;;
    let h1 := ixor h (iand b 255) in
    fnv1a_loop n' (iadd i 1) s (iand (imul h1 16777619) 4294967295)
  end.
Definition fnv1a (s : list Z) : res Z := fnv1a_loop (length s) 0 s 2166136261.

(* ------------------------------------------------------------------ core.clara *)

Definition zero_char : Z := 48.
(** core.clara:48: digits := "0123456789" *)
Definition digits10 : list Z := [48; 49; 50; 51; 52; 53; 54; 55; 56; 57].

(** core.clara:55-60, the loop of toString *)
Fixpoint to_string_loop (fuel : nat) (val n x : Z) (buf : list Z) : res (Z * list Z) :=
  match fuel with
  | O => NoFuel
  | S f =>
    if n =? 0 then Val (x, buf)
    else
      q <- div_ n 10 ;;
      d <- str_byte digits10 (if val <? 0 then isub (imul 10 q) n else isub n (imul 10 q)) ;;
      buf' <- bytes_set buf x d ;;
      to_string_loop f val q (isub x 1) buf'
  end.
(** core.clara:44-66 (toString of an int) *)
Definition to_string (val : Z) : res (list Z) :=
  if val =? 0 then Val [48]
  else
    buf <- new_bytes 20 ;;
    r <- to_string_loop 64 val val (isub (len buf) 1) buf ;;
    let '(x, buf) := r in
    r' <- (if val <? 0 then b <- bytes_set buf x 45 ;; Val (isub x 1, b) else Val (x, buf)) ;;
    let '(x, buf) := r' in
    bytes_to_string buf (iadd x 1) (isub (isub (len buf) 1) x).

(** core.clara:5-21 (toBinary): the loop [for j in 63 .. 0] runs for j = 62, ..., 0
    (C20); [n] is j + 1. *)
Fixpoint to_binary_loop (n : nat) (i : Z) (buf : buffer) : res buffer :=
  match n with
  | O => Val buf
  | S j =>
    let j' := Z.of_nat j in
    let mask := ishl 1 j' in
    d <- str_byte [48; 49] (if iand i mask =? mask then 1 else 0) ;;
    buf1 <- buf_append_byte buf d ;;
    m <- mod_ j' 8 ;;
    buf2 <- (if (j' >? 0) && (m =? 0) then buf_append buf1 [194; 183] else Val buf1) ;;
    to_binary_loop j i buf2
  end.
Definition to_binary (i : Z) : res (list Z) :=
  b <- new_buffer 77 ;; b' <- to_binary_loop 63 i b ;; buf_to_string b'.

(* ------------------------------------------------------------ functional.clara *)

(** functional.clara:1-4, 53-56, 88-91: enums option, result, either. *)
Inductive result (T E : Type) := Ok (v : T) | Err (e : E).
Arguments Ok {T E} v. Arguments Err {T E} e.

Section Functional.
Context {S : Type}.

(** functional.clara:6-11 (isNone) *)
Definition is_none {T} (o : option T) : bool := match o with Some _ => false | None => true end.
(** functional.clara:13 (isSome) *)
Definition is_some {T} (o : option T) : bool := negb (is_none o).
(** functional.clara:15-20 (filter) *)
Definition opt_filter {T} (o : option T) (pred : T -> S -> bool * S) (s : S) : option T * S :=
  match o with
  | Some v => let '(b, s') := pred v s in (if b then o else None, s')
  | None => (o, s)
  end.
(** functional.clara:22-27 (orElse) *)
Definition opt_or_else {T} (o : option T) (other : T) : T :=
  match o with Some v => v | None => other end.
(** functional.clara:29-34 (map) *)
Definition opt_map {T R} (o : option T) (f : T -> S -> R * S) (s : S) : option R * S :=
  match o with
  | Some v => let '(r, s') := f v s in (Some r, s')
  | None => (None, s)
  end.
(** functional.clara:36-43 (peek) *)
Definition opt_peek {T} (o : option T) (f : T -> S -> S) (s : S) : option T * S :=
  let s' := match o with Some v => f v s | None => s end in (o, s').
(** functional.clara:58-63 (map of result); the failure is passed on by casting the
    same object to the other type. *)
Definition res_map {T E R} (r : result T E) (f : T -> S -> R * S) (s : S) : result R E * S :=
  match r with
  | Ok v => let '(x, s') := f v s in (Ok x, s')
  | Err e => (Err e, s)
  end.
(** functional.clara:65-70 (then) *)
Definition res_then {T E R} (r : result T E) (f : T -> S -> result R E * S) (s : S) : result R E * S :=
  match r with
  | Ok v => f v s
  | Err e => (Err e, s)
  end.
(** functional.clara:72-83 (peek of result) *)
Definition res_peek {T E} (r : result T E) (f : T -> S -> option E * S) (s : S) : result T E * S :=
  match r with
  | Ok v => let '(o, s') := f v s in
            match o with Some e => (Err e, s') | None => (r, s') end
  | Err e => (r, s)
  end.

(* ------------------------------------------------------------------ list.clara *)

(** list.clara:6-12 (toList): the loop [for x in a.length .. 0] runs for
    x = length-1, ..., 0 (C20); an index outside the array panics. *)
Fixpoint to_list_loop {T} (n : nat) (a : list T) (l : list T) : res (list T) :=
  match n with
  | O => Val l
  | Datatypes.S x => match nth_error a x with
           | Some v => to_list_loop x a (v :: l)
           | None => Panic
           end
  end.
Definition to_list {T} (a : list T) : res (list T) := to_list_loop (length a) a [].
(** list.clara:14 (append) *)
Definition list_append {T} (l : list T) (v : T) : list T := v :: l.
(** list.clara:36-49 (reverse); the loop ends when [l] is empty. *)
Fixpoint reverse_loop {T} (l new : list T) : list T :=
  match l with [] => new | v :: rest => reverse_loop rest (v :: new) end.
Definition reverse {T} (l : list T) : list T := reverse_loop l [].
(** list.clara:16-34 (remove) *)
Fixpoint remove_loop {T} (l new : list T) (val : option T) (pred : T -> S -> bool * S) (s : S)
  : (list T * option T) * S :=
  match l with
  | [] => ((new, val), s)
  | v :: rest =>
    let '(b, s') := pred v s in
    if b && is_none val then remove_loop rest new (Some v) pred s'
    else remove_loop rest (v :: new) val pred s'
  end.
Definition list_remove {T} (l : list T) (pred : T -> S -> bool * S) (s : S) : (list T * option T) * S :=
  let '((new, val), s') := remove_loop l [] None pred s in ((reverse new, val), s').
(** list.clara:51-56 (find) *)
Fixpoint list_find {T} (l : list T) (pred : T -> S -> bool * S) (s : S) : option T * S :=
  match l with
  | [] => (None, s)
  | v :: rest => let '(b, s') := pred v s in if b then (Some v, s') else list_find rest pred s'
  end.
(** list.clara:58-65 (foreach) *)
Fixpoint list_foreach {T} (l : list T) (f : T -> S -> S) (s : S) : S :=
  match l with [] => s | v :: rest => list_foreach rest f (f v s) end.
(** list.clara:67-72 (map): arguments are evaluated left to right (codegen.go:590). *)
Fixpoint list_map {T R} (l : list T) (f : T -> S -> R * S) (s : S) : list R * S :=
  match l with
  | [] => ([], s)
  | v :: rest => let '(y, s1) := f v s in let '(ys, s2) := list_map rest f s1 in (y :: ys, s2)
  end.
(** list.clara:74-79 (reduce) *)
Fixpoint list_reduce {T} (l : list T) (acc : T) (f : T -> T -> S -> T * S) (s : S) : T * S :=
  match l with
  | [] => (acc, s)
  | v :: rest => let '(a, s') := f acc v s in list_reduce rest a f s'
  end.
End Functional.

(* ------------------------------------------------------------------- map.clara *)

Section Map.
Context {K V : Type}.

(** map.clara:1-12 (map, entry).  Entries are mutable objects, each in exactly one
    bucket (put creates them, resize moves them), so a bucket holds the pairs.
    Ints here (sizes) are limited by memory and not wrapped. *)
Record hmap := HMap {
  m_buckets : list (list (K * V));
  m_size : Z;
  m_threshold : Z;
  m_hasher : K -> res Z;
  m_matcher : K -> K -> res bool
}.

(** map.clara:85 (threshold) *)
Definition threshold (size : Z) : Z := size - ishr size 2.
(** map.clara:87, arrays.clara:23-36: an array of empty lists *)
Definition create_buckets (size : Z) : list (list (K * V)) := repeat [] (Z.to_nat size).
(** map.clara:16-18 (NewHashMap) *)
Definition new_hash_map (h : K -> res Z) (mt : K -> K -> res bool) : hmap :=
  HMap (create_buckets 16) 0 (threshold 16) h mt.
(** codegen.go:804-835: array access, an index outside the array panics *)
Definition bucket (bs : list (list (K * V))) (i : Z) : res (list (K * V)) :=
  if (i <? 0) || (len bs <=? i) then Panic else Val (nth (Z.to_nat i) bs []).
Definition set_bucket (bs : list (list (K * V))) (i : Z) (b : list (K * V)) : res (list (list (K * V))) :=
  if (i <? 0) || (len bs <=? i) then Panic else Val (upd bs (Z.to_nat i) b).
(** map.clara:70 (indexFor) *)
Definition index_for (m : hmap) (k : K) : res Z :=
  h <- m_hasher m k ;; mod_ h (len (m_buckets m)).
(** map.clara:54, list.clara:51-56: find in a bucket; the entries before the match,
    the entry and those after. *)
Fixpoint bucket_find (mt : K -> K -> res bool) (b : list (K * V)) (k : K)
  : res (option (list (K * V) * (K * V) * list (K * V))) :=
  match b with
  | [] => Val None
  | e :: rest =>
    c <- mt (fst e) k ;;
    if c then Val (Some ([], e, rest))
    else r <- bucket_find mt rest k ;;
         Val (option_map (fun '(pre, x, post) => (e :: pre, x, post)) r)
  end.
(** map.clara:51-57 (search): the entry found, with its place, or the bucket index. *)
Definition search (m : hmap) (k : K) : res ((Z * (list (K * V) * (K * V) * list (K * V))) + Z) :=
  idx <- index_for m k ;;
  b <- bucket (m_buckets m) idx ;;
  r <- bucket_find (m_matcher m) b k ;;
  Val (match r with Some x => inl (idx, x) | None => inr idx end).
(** map.clara:75-78: one entry moved to its new bucket *)
Definition rehash_entry (h : K -> res Z) (bs : list (list (K * V))) (e : K * V) : res (list (list (K * V))) :=
  hk <- h (fst e) ;;
  slot <- mod_ hk (len bs) ;;
  b <- bucket bs slot ;;
  set_bucket bs slot (list_append b e).
Fixpoint rehash_bucket (h : K -> res Z) (b : list (K * V)) (bs : list (list (K * V))) : res (list (list (K * V))) :=
  match b with
  | [] => Val bs
  | e :: rest => bs' <- rehash_entry h bs e ;; rehash_bucket h rest bs'
  end.
Fixpoint rehash (h : K -> res Z) (old bs : list (list (K * V))) : res (list (list (K * V))) :=
  match old with
  | [] => Val bs
  | b :: rest => bs' <- rehash_bucket h b bs ;; rehash h rest bs'
  end.
(** map.clara:72-82 (resize) *)
Definition resize (m : hmap) : res hmap :=
  bs <- rehash (m_hasher m) (m_buckets m) (create_buckets (2 * len (m_buckets m))) ;;
  Val (HMap bs (m_size m) (threshold (len bs)) (m_hasher m) (m_matcher m)).
(** map.clara:20-34 (put) *)
Definition put (m : hmap) (k : K) (v : V) : res (option V * hmap) :=
  r <- search m k ;;
  match r with
  | inl (idx, (pre, e, post)) =>
    bs <- set_bucket (m_buckets m) idx (pre ++ (fst e, v) :: post) ;;
    Val (Some (snd e), HMap bs (m_size m) (m_threshold m) (m_hasher m) (m_matcher m))
  | inr idx =>
    b <- bucket (m_buckets m) idx ;;
    bs <- set_bucket (m_buckets m) idx (list_append b (k, v)) ;;
    let m1 := HMap bs (m_size m + 1) (m_threshold m) (m_hasher m) (m_matcher m) in
    m2 <- (if m_size m1 >? m_threshold m1 then resize m1 else Val m1) ;;
    Val (None, m2)
  end.
(** map.clara:36-41 (get) *)
Definition get (m : hmap) (k : K) : res (option V) :=
  r <- search m k ;;
  Val (match r with inl (_, (_, e, _)) => Some (snd e) | inr _ => None end).
(** map.clara:43 (contains) *)
Definition contains (m : hmap) (k : K) : res bool := o <- get m k ;; Val (is_some o).
(** map.clara:68 (orElse) *)
Definition map_or_else (m : hmap) (k : K) (other : V) : res V := o <- get m k ;; Val (opt_or_else o other).
(** list.clara:16-34 with a predicate that may fail; same as [list_remove]. *)
Fixpoint bucket_remove_loop (mt : K -> K -> res bool) (k : K) (l new : list (K * V)) (val : option (K * V))
  : res (list (K * V) * option (K * V)) :=
  match l with
  | [] => Val (reverse new, val)
  | e :: rest =>
    c <- mt (fst e) k ;;
    if c && is_none val then bucket_remove_loop mt k rest new (Some e)
    else bucket_remove_loop mt k rest (e :: new) val
  end.
(** map.clara:59-66 (remove) *)
Definition remove (m : hmap) (k : K) : res (option V * hmap) :=
  x <- index_for m k ;;
  b <- bucket (m_buckets m) x ;;
  r <- bucket_remove_loop (m_matcher m) k b [] None ;;
  let '(first, second) := r in
  bs <- set_bucket (m_buckets m) x first ;;
  let size := match second with Some _ => m_size m - 1 | None => m_size m end in
  Val (option_map snd second, HMap bs size (m_threshold m) (m_hasher m) (m_matcher m)).
(** map.clara:45-49 (foreach): the entries in the order they are visited *)
Definition map_foreach {S} (m : hmap) (f : K -> V -> S -> S) (s : S) : S :=
  fold_left (fun s b => list_foreach b (fun e => f (fst e) (snd e)) s) (m_buckets m) s.
End Map.
Arguments hmap : clear implicits.

(* --------------------------------------------------------------- runtime.clara *)

(** C memory: bytes by address. *)
Definition cmem := Z -> Z.
(** An 8-byte little-endian load. *)
Definition load64 (m : cmem) (a : Z) : Z :=
  m a + 256 * (m (a + 1) + 256 * (m (a + 2) + 256 * (m (a + 3) + 256 * (m (a + 4) +
  256 * (m (a + 5) + 256 * (m (a + 6) + 256 * m (a + 7))))))).

(** runtime.clara:41-53 (parseCString).  [deref] loads 8 bytes; toTaggedInt
    (codegen.go:368-373) keeps the low 63 bits of them. *)
Fixpoint parse_c_string (fuel : nat) (m : cmem) (arg off : Z) (buf : buffer) : res buffer :=
  match fuel with
  | O => NoFuel
  | S f =>
    let val := wrap (load64 m (arg + off)) in
    let b := iand val 255 in
    if b =? 0 then Val buf
    else buf' <- buf_append_byte buf b ;; parse_c_string f m arg (iadd off 1) buf'
  end.

(** runtime.clara:31-39 (parseArgs): [n] iterations left of [for i in 0 .. argc] *)
Fixpoint parse_args_loop (fuel n : nat) (m : cmem) (argv i : Z) (buf : buffer) (args : list (list Z))
  : res (list (list Z)) :=
  match n with
  | O => Val args
  | S n' =>
    buf' <- parse_c_string fuel m (load64 m (argv + i * 8)) 0 buf ;;
    s <- buf_to_string buf' ;;
    args' <- (if (i <? 0) || (len args <=? i) then Panic else Val (upd args (Z.to_nat i) s)) ;;
    parse_args_loop fuel n' m argv (i + 1) (buf_reset buf') args'
  end.
Definition parse_args (fuel : nat) (m : cmem) (argc argv : Z) : res (list (list Z)) :=
  buf <- new_buffer 16 ;;
  parse_args_loop fuel (Z.to_nat argc) m argv 0 buf (repeat [] (Z.to_nat argc)).

(** runtime.clara:55-78 (parseEnv) *)
Fixpoint parse_env_loop (fuel n : nat) (m : cmem) (idx : Z) (buf : buffer) (env : hmap (list Z) (list Z))
  : res (hmap (list Z) (list Z)) :=
  match n with
  | O => NoFuel
  | S n' =>
    let entry := load64 m idx in
    (* isNull (gc.clara:114): toTaggedInt loses the top bit *)
    if wrap entry =? 0 then Val env
    else
      buf' <- parse_c_string fuel m entry 0 buf ;;
      s <- buf_to_string buf' ;;
      i <- index_of s [61] ;;
      env' <- (if i =? -1 then r <- put env s [] ;; Val (snd r)
               else k <- buf_substring buf' 0 i ;;
                    v <- buf_substring buf' (iadd i 1) (isub (isub (buf_size buf') i) 1) ;;
                    r <- put env k v ;; Val (snd r)) ;;
      parse_env_loop fuel n' m (idx + 8) (buf_reset buf') env'
  end.
Definition parse_env (fuel n : nat) (m : cmem) (envp : Z) : res (hmap (list Z) (list Z)) :=
  buf <- new_buffer 16 ;;
  parse_env_loop fuel n m envp buf (new_hash_map fnv1a equals).
