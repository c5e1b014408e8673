(** Properties C41-C50: the run-time library. *)
From Coq Require Import ZArith List Bool Permutation Lia.
From Verif Require Import Ints LibModel LibSpec LibProofs LibProofs2 LibLists LibMap LibArgs LibMain LibParts.
Import ListNotations.
Open Scope Z_scope.

(* ------------------------------------------------------------------- C41 *)

(** A hash map: any history of operations gives the answers a dictionary gives;
    resizing is part of put.  [P] are the keys used, [same] their equality, [hash]
    the value the hasher computes. *)
Theorem C41_hash_map_is_a_dictionary :
  forall (K V : Type) (same : K -> K -> bool) (P : K -> Prop)
    (hash : K -> Z) (hasher : K -> res Z) (matcher : K -> K -> res bool),
  (forall a, P a -> same a a = true) ->
  (forall a b, P a -> P b -> same a b = same b a) ->
  (forall a b c, P a -> P b -> P c -> same a b = true -> same b c = true -> same a c = true) ->
  (forall k, P k -> hasher k = Val (hash k)) ->
  (forall k, P k -> 0 <= hash k) ->
  (forall k, P k -> is_int (hash k)) ->
  (forall a b, P a -> P b -> same a b = true -> hash a = hash b) ->
  (forall a b, P a -> P b -> matcher a b = Val (same a b)) ->
  forall os : list (op K V), Forall (op_key P) os -> 2 * (16 + 4 * len os) <= int_max ->
  exists m, m_run (new_hash_map hasher matcher) os = Val (fst (d_run same [] os), m) /\
    (forall k, P k -> d_get same (snd (d_run same [] os)) k = last_value same (rev os) k) /\
    (forall k, P k -> get m k = Val (last_value same (rev os) k)) /\
    m_size m = len (snd (d_run same [] os)) /\
    (forall (S : Type) (f : K -> V -> S -> S) (s : S), exists es,
       Permutation es (snd (d_run same [] os)) /\
       map_foreach m f s = fold_left (fun s e => f (fst e) (snd e) s) es s).
Proof. exact map_correct. Qed.
Print Assumptions C41_hash_map_is_a_dictionary.

Example C41_hypotheses :
  let same := fun a b => Z.eqb (a mod 100) (b mod 100) in
  let hash := fun k => (k mod 100) * 16 in
  m_run (new_hash_map (fun k => Val (hash k)) (fun a b => Val (same a b)))
    (map (fun k => Put (Z.of_nat k) (Z.of_nat k)) (seq 0 40) ++
     [Get 7; Put 107 1; Get 7; Remove 7; Contains 7; Size; OrElse 7 55]) =
  Val (map (fun _ => AVal None) (seq 0 40) ++
     [AVal (Some 7); AVal (Some 7); AVal (Some 1); AVal (Some 1); ABool false; AInt 39; AElem 55],
     match m_run (new_hash_map (fun k => Val (hash k)) (fun a b => Val (same a b)))
    (map (fun k => Put (Z.of_nat k) (Z.of_nat k)) (seq 0 40) ++
     [Get 7; Put 107 1; Get 7; Remove 7; Contains 7; Size; OrElse 7 55]) with Val (_, m) => m | _ => new_hash_map (fun k => Val (hash k)) (fun a b => Val (same a b)) end).
Proof. vm_compute. reflexivity. Qed.

(** Without the condition on hashes it fails: a hash function with a negative result
    stops the program. *)
Theorem C41_negative_hash_refuted :
  exists hasher matcher,
    (forall k, hasher k = Val (-1)) /\ (forall a b, matcher a b = Val (a =? b)) /\
    @put Z Z (new_hash_map hasher matcher) 5 6 = Panic.
Proof.
  exists (fun _ => Val (-1)), (fun a b => Val (a =? b)). repeat split.
Qed.
Print Assumptions C41_negative_hash_refuted.

(* ------------------------------------------------------------------- C42 *)

Theorem C42_list_functions :
  (forall T (a : list T), to_list a = Val a) /\
  (forall T (l : list T) v, list_append l v = v :: l) /\
  (forall T (l : list T), reverse l = rev l) /\
  (forall S T R (f : T -> S -> R * S) l s,
     exists ys s', list_map l f s = (ys, s') /\ calls f l s ys s') /\
  (forall S T (pred : T -> S -> bool * S) l s,
     (exists s', all_false pred l s s' /\ list_remove l pred s = ((l, None), s')) \/
     (exists pre v post s1 s2 bs s', l = pre ++ v :: post /\ all_false pred pre s s1 /\
        pred v s1 = (true, s2) /\ calls pred post s2 bs s' /\
        list_remove l pred s = ((pre ++ post, Some v), s'))) /\
  (forall S T (pred : T -> S -> bool * S) l s,
     (exists s', list_find l pred s = (None, s') /\ all_false pred l s s') \/
     (exists pre v post s1 s', l = pre ++ v :: post /\ all_false pred pre s s1 /\
        pred v s1 = (true, s') /\ list_find l pred s = (Some v, s'))) /\
  (forall S T (f : T -> S -> S) l s, list_foreach l f s = fold_left (fun s v => f v s) l s) /\
  (forall S T (f : T -> T -> S -> T * S) l a s,
     exists a' s', list_reduce l a f s = (a', s') /\ folds f l a s a' s').
Proof. exact lists_correct. Qed.
Print Assumptions C42_list_functions.

(** The predicate logs its arguments. *)
Example C42_cases :
  let even := fun v log => (Z.even v, log ++ [v]) in
  list_remove [1; 4; 3; 6; 5] even [] = (([1; 3; 6; 5], Some 4), [1; 4; 3; 6; 5]) /\
  list_find [1; 4; 3; 6; 5] even [] = (Some 4, [1; 4]) /\
  list_map [1; 2; 3] (fun v log => (v * v, log ++ [v])) [] = ([1; 4; 9], [1; 2; 3]) /\
  list_reduce [1; 2; 3] 10 (fun a v log => (a - v, log ++ [v])) [] = (4, [1; 2; 3]) /\
  list_foreach [1; 2; 3] (fun v log => log ++ [v]) [] = [1; 2; 3] /\
  to_list [7; 8; 9] = Val [7; 8; 9] /\ reverse [7; 8; 9] = [9; 8; 7].
Proof. repeat split. Qed.

(* ------------------------------------------------------------------- C43 *)

(** Missing: searching for the empty string from a later position, where the claim
    is false ([C43_empty_substring_refuted]). *)
Theorem C43_strings_partial :
  (forall s1 s2, byte_list s1 -> byte_list s2 -> is_int (len s1) ->
     exists r, equals s1 s2 = Val r /\ (r = true <-> s1 = s2)) /\
  (forall s sub from, byte_list s -> byte_list sub -> sub <> [] ->
     is_int (len s) -> is_int (len sub) -> is_int from -> 0 <= from ->
     exists r, index_of_from s sub from = Val r /\
       ((r = -1 /\ forall i, from <= i -> ~ occurs_at sub s i) \/
        (from <= r /\ occurs_at sub s r /\ forall i, from <= i < r -> ~ occurs_at sub s i))) /\
  (forall s start end_, byte_list s -> is_int (len s) -> 0 <= start <= end_ -> end_ <= len s ->
     exists r, substring s start end_ = Val r /\ slice_of s start end_ r) /\
  (forall s1 s2, byte_list s1 -> byte_list s2 -> is_int (len s1 + len s2) ->
     str_append s1 s2 = Val (s1 ++ s2)).
Proof. exact strings_correct. Qed.
Print Assumptions C43_strings_partial.

Example C43_cases :
  index_of_from [97; 97; 98; 97; 97; 97; 98] [97; 97; 98] 1 = Val 4 /\
  index_of_from [97; 97; 98; 97; 97; 97; 98] [97; 97; 98] 5 = Val (-1) /\
  equals [200; 1] [200; 1] = Val true /\ equals [200; 1] [200; 2] = Val false /\
  substring [1; 2; 3; 4] 1 3 = Val [2; 3] /\ str_append [1] [2; 3] = Val [1; 2; 3].
Proof. repeat split. Qed.

(** The empty string is found at 0 even when the search starts later. *)
Theorem C43_empty_substring_refuted :
  exists s from r, 0 <= from /\ index_of_from s [] from = Val r /\ r <> -1 /\ ~ from <= r.
Proof. exists [97; 98], 1, 0. repeat split; lia. Qed.
Print Assumptions C43_empty_substring_refuted.

(* ------------------------------------------------------------------- C44 *)

(** Missing: capacity 0, where the claim is false ([C44_capacity_zero_refuted]). *)
Theorem C44_buffers_concatenate_partial :
  forall cap ps, 0 < cap <= 2305843009213693952 -> Forall piece_ok ps ->
  2 * fold_right Z.add 0 (map piece_len ps) <= 2305843009213693952 ->
  exists b b', new_buffer cap = Val b /\ buf_pieces b ps = Val b' /\ buf_to_string b' = Val (contents ps).
Proof. exact buffer_spec. Qed.
Print Assumptions C44_buffers_concatenate_partial.

Example C44_case :
  (b <- new_buffer 2 ;; b' <- buf_pieces b [PStr [1; 2; 3; 4; 5]; PByte 300; PStr []; PStr [255]] ;; buf_to_string b')
  = Val [1; 2; 3; 4; 5; 44; 255].
Proof. reflexivity. Qed.

(** Parts of a buffer: those inside what has been appended are given back, all others are
    refused.  Missing: capacity 0; positions and lengths whose sum is no int. *)
Theorem C44_parts_of_buffers_partial :
  forall cap ps, 0 < cap <= 2305843009213693952 -> Forall piece_ok ps ->
  2 * fold_right Z.add 0 (map piece_len ps) <= 2305843009213693952 ->
  exists b b', new_buffer cap = Val b /\ buf_pieces b ps = Val b' /\
    (forall pre r post, contents ps = pre ++ r ++ post -> buf_substring b' (len pre) (len r) = Val r) /\
    (forall pos n, is_int (pos + n) -> ~ (0 <= pos /\ 0 <= n /\ pos + n <= len (contents ps)) -> buf_substring b' pos n = Panic).
Proof. exact buffer_parts. Qed.
Print Assumptions C44_parts_of_buffers_partial.
Example C44_parts_case :
  (b <- new_buffer 2 ;; b' <- buf_pieces b [PStr [1; 2; 3; 4; 5]; PByte 300] ;; buf_substring b' 4 2) = Val [5; 44] /\
  (b <- new_buffer 2 ;; b' <- buf_pieces b [PStr [1; 2; 3; 4; 5]; PByte 300] ;; buf_substring b' 4 3) = Panic.
Proof. split; reflexivity. Qed.

(** A buffer of capacity 0: the first append never returns, whatever the number of
    steps allowed. *)
Theorem C44_capacity_zero_refuted :
  exists b, new_buffer 0 = Val b /\ forall fuel (s : list Z), 0 < len s -> is_int (len s) ->
    grow fuel b (iadd (buf_size b) (len s)) = NoFuel.
Proof. exact grow_zero. Qed.
Print Assumptions C44_capacity_zero_refuted.

(* ------------------------------------------------------------------- C45 *)

(** Missing: negative indexes, where the claim is false
    ([C45_negative_index_refuted]). *)
Theorem C45_byte_arrays_partial :
  (forall b i, len b <= i -> bytes_get b i = Panic /\ (forall v, bytes_set b i v = Panic) /\ str_byte b i = Panic) /\
  (forall b i v, 0 <= i < len b -> exists b', bytes_set b i v = Val b' /\ len b' = len b /\
     (exists r, bytes_get b' i = Val r /\ -128 <= r < 128 /\ exists k, r = v + k * 256) /\
     (forall j, 0 <= j -> j <> i -> bytes_get b' j = bytes_get b j)).
Proof. exact bytes_correct. Qed.
Print Assumptions C45_byte_arrays_partial.

Example C45_case : (b <- bytes_set [1; 2; 3] 1 200 ;; bytes_get b 1) = Val (-56).
Proof. reflexivity. Qed.

(** A negative index is not stopped: memory before the object is accessed. *)
Theorem C45_negative_index_refuted :
  exists b i v, ~ 0 <= i < len b /\ bytes_get b i = Wild /\ bytes_set b i v = Wild /\ str_byte b i = Wild.
Proof. exists [1; 2; 3], (-1), 0. repeat split. vm_compute. intros [H _]. exact (H eq_refl). Qed.
Print Assumptions C45_negative_index_refuted.

(* ------------------------------------------------------------------- C46 *)

Theorem C46_fnv1a : forall s, byte_list s -> is_int (len s) ->
  fnv1a s = Val (fnv1a_32 s) /\ 0 <= fnv1a_32 s < 4294967296.
Proof. exact fnv1a_spec. Qed.
Print Assumptions C46_fnv1a.

(** "foobar": published FNV-1a test vector 0xbf9cf968. *)
Example C46_case : fnv1a [102; 111; 111; 98; 97; 114] = Val 3214735720.
Proof. reflexivity. Qed.

(* ------------------------------------------------------------------- C47 *)

Theorem C47_to_string_is_decimal : forall v, is_int v -> exists ds, decimal (Z.abs v) ds /\
  to_string v = Val ((if v <? 0 then [45] else []) ++ ascii_digits ds).
Proof. exact to_string_spec. Qed.
Print Assumptions C47_to_string_is_decimal.

Example C47_case : to_string int_min =
  Val [45; 52; 54; 49; 49; 54; 56; 54; 48; 49; 56; 52; 50; 55; 51; 56; 55; 57; 48; 52].
Proof. reflexivity. Qed.

(* ------------------------------------------------------------------- C48 *)

Theorem C48_mod_and_binary :
  (forall i m, is_int i -> is_int m -> m <> 0 -> mod_ i m = Val (Z.rem i m)) /\
  (forall i, mod_ i 0 = Trap) /\
  (forall i, is_int i -> to_binary i = Val (binary_text i)).
Proof. exact mod_binary. Qed.
Print Assumptions C48_mod_and_binary.

Example C48_cases : mod_ (-7) 3 = Val (-1) /\ mod_ int_min (-1) = Val 0 /\
  exists t, to_binary (-2) = Val t /\ length t = 77%nat /\ hd 0 t = 49 /\ last t 0 = 48.
Proof. split; [reflexivity|]. split; [reflexivity|]. eexists. split; [vm_compute; reflexivity|]. repeat split. Qed.

(* ------------------------------------------------------------------- C49 *)

(** [f] threads a state [s], so how often and in which order it is called shows. *)
Theorem C49_options_and_results :
  (forall T (v : T), is_none (Some v) = false /\ is_some (Some v) = true /\
     is_none (@None T) = true /\ is_some (@None T) = false /\
     (forall x, opt_or_else (Some v) x = v) /\ (forall x, opt_or_else (@None T) x = x)) /\
  (forall S T (p : T -> S -> bool * S) v s,
     opt_filter (Some v) p s = ((if fst (p v s) then Some v else None), snd (p v s)) /\
     opt_filter None p s = (None, s)) /\
  (forall S T R (f : T -> S -> R * S) v s,
     opt_map (Some v) f s = (Some (fst (f v s)), snd (f v s)) /\ opt_map None f s = (None, s)) /\
  (forall S T (f : T -> S -> S) v s,
     opt_peek (Some v) f s = (Some v, f v s) /\ opt_peek None f s = (None, s)) /\
  (forall S T E R (f : T -> S -> R * S) v (e : E) s,
     res_map (@Ok T E v) f s = (Ok (fst (f v s)), snd (f v s)) /\ res_map (Err e) f s = (Err e, s)) /\
  (forall S T E R (f : T -> S -> result R E * S) v e s,
     res_then (Ok v) f s = f v s /\ res_then (Err e) f s = (Err e, s)) /\
  (forall S T E (f : T -> S -> option E * S) v e s,
     res_peek (Ok v) f s = ((match fst (f v s) with Some x => Err x | None => Ok v end), snd (f v s)) /\
     res_peek (Err e) f s = (Err e, s)).
Proof. exact combinators. Qed.
Print Assumptions C49_options_and_results.

Example C49_case : opt_filter (Some 3) (fun v n => (v <? 2, n + 1)) 0 = (None, 1) /\
  @res_then Z Z Z Z (Ok 3) (fun v n => (Err (v + 1), n + 1)) 0 = (Err 4, 1).
Proof. split; reflexivity. Qed.

(* ------------------------------------------------------------------- C50 *)

Theorem C50_arguments_and_environment :
  forall m, (forall a, 0 <= m a < 256) ->
  (forall fuel argv ss, c_strings m argv ss -> fits fuel ss -> parse_args fuel m (len ss) argv = Val ss) /\
  (forall fuel n envp ss kvs, env_block m envp ss -> fits fuel ss -> (length ss < n)%nat ->
     2 * (16 + 4 * len ss) <= int_max ->
     Forall2 (fun s kv => env_entry s (fst kv) (snd kv)) ss kvs ->
     exists env, parse_env fuel n m envp = Val env /\ m_size env = len (env_dict kvs) /\
       forall k, byte_list k -> is_int (len k) -> get env k = Val (d_get text_eqb (env_dict kvs) k)).
Proof. exact args_env. Qed.
Print Assumptions C50_arguments_and_environment.

(** Memory with the strings "A=b=c", "D" and "A=e" and arrays of pointers to them. *)
Definition c50_mem : cmem := fun a =>
  nth (Z.to_nat a)
    (repeat 0 8 ++ [65; 61; 98; 61; 99; 0; 68; 0; 65; 61; 101; 0; 0; 0; 0; 0] ++
     [8; 0; 0; 0; 0; 0; 0; 0; 14; 0; 0; 0; 0; 0; 0; 0; 16; 0; 0; 0; 0; 0; 0; 0] ++ repeat 0 8) 0.
Example C50_cases :
  parse_args 10 c50_mem 3 24 = Val [[65; 61; 98; 61; 99]; [68]; [65; 61; 101]] /\
  (e <- parse_env 10 10 c50_mem 24 ;; get e [65]) = Val (Some [101]) /\
  (e <- parse_env 10 10 c50_mem 24 ;; get e [68]) = Val (Some []).
Proof. repeat split. Qed.
