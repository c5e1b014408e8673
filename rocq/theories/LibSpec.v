(** What the library functions are supposed to compute. *)
From Coq Require Import ZArith List Bool.
From Verif Require Import Ints LibModel.
Import ListNotations.
Open Scope Z_scope.

Definition byte_list (s : list Z) : Prop := Forall (fun b => 0 <= b < 256) s.

(** [sub] occurs in [s] at position [i]. *)
Definition occurs_at (sub s : list Z) (i : Z) : Prop :=
  0 <= i /\ exists pre post, s = pre ++ sub ++ post /\ Z.of_nat (length pre) = i.

(** Bytes [start, end) of [s]. *)
Definition slice_of (s : list Z) (start end_ : Z) (r : list Z) : Prop :=
  exists pre post, s = pre ++ r ++ post /\
    Z.of_nat (length pre) = start /\ Z.of_nat (length (pre ++ r)) = end_.

(** 32-bit FNV-1a (http://www.isthe.com/chongo/tech/comp/fnv): offset basis
    2166136261, prime 16777619, xor before multiply. *)
Definition fnv1a_32 (s : list Z) : Z :=
  fold_left (fun h b => (Z.lxor h b * 16777619) mod 4294967296) s 2166136261.

(** The number written by decimal digits, most significant first. *)
Definition value_of_digits (ds : list Z) : Z := fold_left (fun n d => 10 * n + d) ds 0.
(** [ds] is the decimal representation of [n]: digits, value, no leading zero. *)
Definition decimal (n : Z) (ds : list Z) : Prop :=
  ds <> [] /\ Forall (fun d => 0 <= d <= 9) ds /\ value_of_digits ds = n /\
  (hd 0 ds = 0 -> ds = [0]).
Definition ascii_digits (ds : list Z) : list Z := map (fun d => 48 + d) ds.

(** Binary rendering: bits 62..0, a separator (U+00B7 in UTF-8) after bits 56, 48,
    ..., 8. *)
Definition binary_text (i : Z) : list Z :=
  flat_map (fun j => (if Z.testbit i (Z.of_nat j) then [49] else [48]) ++
                     (if Nat.eqb (Nat.modulo j 8) 0 && Nat.ltb 0 j then [194; 183] else []))
           (rev (seq 0 63)).

(** A NUL-terminated string in memory. *)
Definition c_string (m : cmem) (p : Z) (s : list Z) : Prop :=
  byte_list s /\ ~ In 0 s /\
  (forall i, (i < length s)%nat -> m (p + Z.of_nat i) = nth i s 0) /\
  m (p + Z.of_nat (length s)) = 0.
(** An array of pointers to NUL-terminated strings. *)
Definition c_strings (m : cmem) (p : Z) (ss : list (list Z)) : Prop :=
  forall i s, nth_error ss i = Some s ->
    exists q, load64 m (p + Z.of_nat i * 8) = q /\ c_string m q s.

(** A finite map as a list of operations sees it: keys up to an equivalence. *)
Section Dict.
Context {K V : Type}.
Variable same : K -> K -> bool.

(** The dictionary as an association list with no two equal keys. *)
Fixpoint d_get (d : list (K * V)) (k : K) : option V :=
  match d with [] => None | (k', v) :: r => if same k' k then Some v else d_get r k end.
Fixpoint d_remove (d : list (K * V)) (k : K) : list (K * V) :=
  match d with [] => [] | (k', v) :: r => if same k' k then r else (k', v) :: d_remove r k end.
Fixpoint d_put (d : list (K * V)) (k : K) (v : V) : list (K * V) :=
  match d with [] => [(k, v)] | (k', v') :: r => if same k' k then (k', v) :: r else (k', v') :: d_put r k v end.

Inductive op := Put (k : K) (v : V) | Get (k : K) | Contains (k : K) | Remove (k : K) | Size | OrElse (k : K) (v : V).
Inductive answer := AVal (o : option V) | ABool (b : bool) | AInt (n : Z) | AElem (v : V).

(** What each operation must answer, and the dictionary after it. *)
Definition d_op (d : list (K * V)) (o : op) : answer * list (K * V) :=
  match o with
  | Put k v => (AVal (d_get d k), d_put d k v)
  | Get k => (AVal (d_get d k), d)
  | Contains k => (ABool (match d_get d k with Some _ => true | None => false end), d)
  | Remove k => (AVal (d_get d k), d_remove d k)
  | Size => (AInt (Z.of_nat (length d)), d)
  | OrElse k v => (AElem (match d_get d k with Some x => x | None => v end), d)
  end.
Fixpoint d_run (d : list (K * V)) (os : list op) : list answer * list (K * V) :=
  match os with
  | [] => ([], d)
  | o :: r => let '(a, d1) := d_op d o in let '(as_, d2) := d_run d1 r in (a :: as_, d2)
  end.

(** The value of a key after a history, latest operation first: that of the last
    put of the key unless the key was removed since. *)
Fixpoint last_value (history : list op) (k : K) : option V :=
  match history with
  | [] => None
  | Put k' v :: r => if same k' k then Some v else last_value r k
  | Remove k' :: r => if same k' k then None else last_value r k
  | _ :: r => last_value r k
  end.
End Dict.
Arguments op : clear implicits. Arguments answer : clear implicits.

(** The keys of an operation satisfy [P]. *)
Definition op_key {K V} (P : K -> Prop) (o : op K V) : Prop :=
  match o with Put k _ | Get k | Contains k | Remove k | OrElse k _ => P k | Size => True end.

(** The same operations on the model of the hash map. *)
Definition m_op {K V} (m : hmap K V) (o : op K V) : res (answer V * hmap K V) :=
  match o with
  | Put k v => r <- put m k v ;; Val (AVal (fst r), snd r)
  | Get k => r <- get m k ;; Val (AVal r, m)
  | Contains k => r <- contains m k ;; Val (ABool r, m)
  | Remove k => r <- remove m k ;; Val (AVal (fst r), snd r)
  | Size => Val (AInt (m_size m), m)
  | OrElse k v => r <- map_or_else m k v ;; Val (AElem r, m)
  end.
Fixpoint m_run {K V} (m : hmap K V) (os : list (op K V)) : res (list (answer V) * hmap K V) :=
  match os with
  | [] => Val ([], m)
  | o :: r => x <- m_op m o ;; y <- m_run (snd x) r ;; Val (fst x :: fst y, snd y)
  end.

(** Operations on a byte buffer and the contents they leave. *)
Inductive piece := PStr (s : list Z) | PByte (v : Z) | PReset.
Definition piece_ok (p : piece) : Prop := match p with PStr s => byte_list s | _ => True end.
Definition piece_len (p : piece) : Z := match p with PStr s => Z.of_nat (length s) | PByte _ => 1 | PReset => 0 end.
Definition add_piece (c : list Z) (p : piece) : list Z :=
  match p with PStr s => c ++ s | PByte v => c ++ [v mod 256] | PReset => [] end.
Definition contents (ps : list piece) : list Z := fold_left add_piece ps [].
Definition buf_piece (b : buffer) (p : piece) : res buffer :=
  match p with PStr s => buf_append b s | PByte v => buf_append_byte b v | PReset => Val (buf_reset b) end.
Fixpoint buf_pieces (b : buffer) (ps : list piece) : res buffer :=
  match ps with [] => Val b | p :: r => b' <- buf_piece b p ;; buf_pieces b' r end.

(** Lists: the calls of a predicate that all answer no, from state to state. *)
Inductive all_false {S T} (pred : T -> S -> bool * S) : list T -> S -> S -> Prop :=
| af_nil : forall s, all_false pred [] s s
| af_cons : forall v l s s1 s2,
    pred v s = (false, s1) -> all_false pred l s1 s2 -> all_false pred (v :: l) s s2.
(** Results of calling a function on each element in order. *)
Inductive calls {S T R} (f : T -> S -> R * S) : list T -> S -> list R -> S -> Prop :=
| calls_nil : forall s, calls f [] s [] s
| calls_cons : forall v l s y s1 ys s2,
    f v s = (y, s1) -> calls f l s1 ys s2 -> calls f (v :: l) s (y :: ys) s2.
(** Folding from the left. *)
Inductive folds {S T} (f : T -> T -> S -> T * S) : list T -> T -> S -> T -> S -> Prop :=
| folds_nil : forall a s, folds f [] a s a s
| folds_cons : forall v l a s a1 s1 a2 s2,
    f a v s = (a1, s1) -> folds f l a1 s1 a2 s2 -> folds f (v :: l) a s a2 s2.

(** Key and value of an environment string: split at the first '='. *)
Inductive env_entry : list Z -> list Z -> list Z -> Prop :=
| env_pair : forall k v, ~ In 61 k -> env_entry (k ++ 61 :: v) k v
| env_name : forall k, ~ In 61 k -> env_entry k k [].
Definition text_eqb (a b : list Z) : bool := if list_eq_dec Z.eq_dec a b then true else false.
(** The dictionary an environment describes: later entries replace earlier ones. *)
Definition env_dict (kvs : list (list Z * list Z)) : list (list Z * list Z) :=
  fold_left (fun d kv => d_put text_eqb d (fst kv) (snd kv)) kvs [].

(** Strings of less than 2^60 bytes, and enough steps allowed for them. *)
Definition fits (fuel : nat) (ss : list (list Z)) : Prop :=
  Forall (fun s => (length s < fuel)%nat /\ 2 * len s <= 2305843009213693952) ss.
(** A NULL-terminated array of pointers to NUL-terminated strings. *)
Definition env_block (m : cmem) (envp : Z) (ss : list (list Z)) : Prop :=
  (forall i s, nth_error ss i = Some s ->
     exists q, load64 m (envp + Z.of_nat i * 8) = q /\ 0 < q < 9223372036854775808 /\ c_string m q s) /\
  load64 m (envp + len ss * 8) = 0.
