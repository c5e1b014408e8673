(** The library lemmas in the form the property theorems use. *)
From Coq Require Import ZArith List Bool Permutation Lia.
From Verif Require Import Ints LibModel LibSpec LibProofs LibProofs2 LibLists LibMap LibArgs.
Import ListNotations.
Open Scope Z_scope.

Lemma map_correct :
  forall (K V : Type) (same : K -> K -> bool) (P : K -> Prop)
    (hash : K -> Z) (hasher : K -> res Z) (matcher : K -> K -> res bool),
  (forall a, P a -> same a a = true) ->
  (forall a b, P a -> P b -> same a b = same b a) ->
  (forall a b c, P a -> P b -> P c -> same a b = true -> same b c = true -> same a c = true) ->
  (forall k, P k -> hasher k = Val (hash k)) ->
  (forall k, P k -> 0 <= hash k) ->
  (forall k, P k -> is_int (hash k)) ->
  (forall a b, P a -> P b -> same a b = true -> hash a = hash b) ->
  (forall a b, P a -> P b -> matcher a b = Val (same a b)) ->
  forall os : list (op K V), Forall (op_key P) os -> 2 * (16 + 4 * len os) <= int_max ->
  exists m, m_run (new_hash_map hasher matcher) os = Val (fst (d_run same [] os), m) /\
    (forall k, P k -> d_get same (snd (d_run same [] os)) k = last_value same (rev os) k) /\
    (forall k, P k -> get m k = Val (last_value same (rev os) k)) /\
    m_size m = len (snd (d_run same [] os)) /\
    (forall (S : Type) (f : K -> V -> S -> S) (s : S), exists es,
       Permutation es (snd (d_run same [] os)) /\
       map_foreach m f s = fold_left (fun s e => f (fst e) (snd e) s) es s).
Proof.
  intros K V same P hash hasher matcher R1 R2 R3 H1 H2 H3 H4 H5 os Hos Hb.
  destruct (run_spec same P R1 R2 R3 hash hasher matcher H1 H2 H3 H4 H5 os (new_hash_map hasher matcher) [] 0)
    as (m & E & Hm & Hi); auto.
  - apply new_map_inv.
  - change (len (@nil (K * V))) with 0. lia.
  - unfold new_hash_map, create_buckets. cbn [m_buckets]. rewrite len_repeat. lia.
  - assert (Hlast := last_value_spec same P R2 R3 os Hos).
    exists m. split; auto. split; auto. split; [|split].
    + intros k Pk. rewrite <- Hlast by auto.
      exact (get_spec same P R1 R2 R3 hash hasher matcher H1 H2 H3 H4 H5 m _ k Hm Pk Hi).
    + apply (mi_size _ _ _ _ _ _ _ Hm).
    + intros S f s. exists (concat (m_buckets m)). split; [apply (mi_perm _ _ _ _ _ _ _ Hm)|].
      apply foreach_visits.
Qed.

Lemma lists_correct :
  (forall T (a : list T), to_list a = Val a) /\
  (forall T (l : list T) v, list_append l v = v :: l) /\
  (forall T (l : list T), reverse l = rev l) /\
  (forall S T R (f : T -> S -> R * S) l s,
     exists ys s', list_map l f s = (ys, s') /\ calls f l s ys s') /\
  (forall S T (pred : T -> S -> bool * S) l s,
     (exists s', all_false pred l s s' /\ list_remove l pred s = ((l, None), s')) \/
     (exists pre v post s1 s2 bs s', l = pre ++ v :: post /\ all_false pred pre s s1 /\
        pred v s1 = (true, s2) /\ calls pred post s2 bs s' /\
        list_remove l pred s = ((pre ++ post, Some v), s'))) /\
  (forall S T (pred : T -> S -> bool * S) l s,
     (exists s', list_find l pred s = (None, s') /\ all_false pred l s s') \/
     (exists pre v post s1 s', l = pre ++ v :: post /\ all_false pred pre s s1 /\
        pred v s1 = (true, s') /\ list_find l pred s = (Some v, s'))) /\
  (forall S T (f : T -> S -> S) l s, list_foreach l f s = fold_left (fun s v => f v s) l s) /\
  (forall S T (f : T -> T -> S -> T * S) l a s,
     exists a' s', list_reduce l a f s = (a', s') /\ folds f l a s a' s').
Proof.
  split; [intros; apply to_list_spec|]. split; [reflexivity|]. split; [intros; apply reverse_spec|].
  split; [intros; apply map_spec|]. split; [intros; apply remove_spec|]. split; [intros; apply find_spec|].
  split; [intros; apply foreach_spec|]. intros; apply reduce_spec.
Qed.

Lemma strings_correct :
  (forall s1 s2, byte_list s1 -> byte_list s2 -> is_int (len s1) ->
     exists r, equals s1 s2 = Val r /\ (r = true <-> s1 = s2)) /\
  (forall s sub from, byte_list s -> byte_list sub -> sub <> [] ->
     is_int (len s) -> is_int (len sub) -> is_int from -> 0 <= from ->
     exists r, index_of_from s sub from = Val r /\
       ((r = -1 /\ forall i, from <= i -> ~ occurs_at sub s i) \/
        (from <= r /\ occurs_at sub s r /\ forall i, from <= i < r -> ~ occurs_at sub s i))) /\
  (forall s start end_, byte_list s -> is_int (len s) -> 0 <= start <= end_ -> end_ <= len s ->
     exists r, substring s start end_ = Val r /\ slice_of s start end_ r) /\
  (forall s1 s2, byte_list s1 -> byte_list s2 -> is_int (len s1 + len s2) ->
     str_append s1 s2 = Val (s1 ++ s2)).
Proof.
  split; [exact equals_spec|]. split; [exact index_of_spec|]. split; [exact substring_spec|exact append_spec].
Qed.

Lemma grow_zero :
  exists b, new_buffer 0 = Val b /\ forall fuel (s : list Z), 0 < len s -> is_int (len s) ->
    grow fuel b (iadd (buf_size b) (len s)) = NoFuel.
Proof.
  exists (Buffer [] 0). split; [reflexivity|]. intros fuel s H Hi. unfold grow. cbn [buf_data buf_size].
  rewrite iadd_id by (unfold is_int, int_min, int_max in *; lia). change (imul (len []) 2) with 0.
  rewrite grow_loop_zero by lia. reflexivity.
Qed.

Lemma bytes_correct :
  (forall b i, len b <= i -> bytes_get b i = Panic /\ (forall v, bytes_set b i v = Panic) /\ str_byte b i = Panic) /\
  (forall b i v, 0 <= i < len b -> exists b', bytes_set b i v = Val b' /\ len b' = len b /\
     (exists r, bytes_get b' i = Val r /\ -128 <= r < 128 /\ exists k, r = v + k * 256) /\
     (forall j, 0 <= j -> j <> i -> bytes_get b' j = bytes_get b j)).
Proof.
  split; [|exact bytes_get_set]. intros b i H. unfold bytes_get, bytes_set, str_byte, assert_.
  destruct (Z.ltb_spec i (len b)); [lia|]. auto.
Qed.

Lemma mod_binary :
  (forall i m, is_int i -> is_int m -> m <> 0 -> mod_ i m = Val (Z.rem i m)) /\
  (forall i, mod_ i 0 = Trap) /\
  (forall i, is_int i -> to_binary i = Val (binary_text i)).
Proof. split; [exact mod_spec|]. split; [exact mod_zero|exact to_binary_spec]. Qed.

Lemma combinators :
  (forall T (v : T), is_none (Some v) = false /\ is_some (Some v) = true /\
     is_none (@None T) = true /\ is_some (@None T) = false /\
     (forall x, opt_or_else (Some v) x = v) /\ (forall x, opt_or_else (@None T) x = x)) /\
  (forall S T (p : T -> S -> bool * S) v s,
     opt_filter (Some v) p s = ((if fst (p v s) then Some v else None), snd (p v s)) /\
     opt_filter None p s = (None, s)) /\
  (forall S T R (f : T -> S -> R * S) v s,
     opt_map (Some v) f s = (Some (fst (f v s)), snd (f v s)) /\ opt_map None f s = (None, s)) /\
  (forall S T (f : T -> S -> S) v s,
     opt_peek (Some v) f s = (Some v, f v s) /\ opt_peek None f s = (None, s)) /\
  (forall S T E R (f : T -> S -> R * S) v (e : E) s,
     res_map (@Ok T E v) f s = (Ok (fst (f v s)), snd (f v s)) /\ res_map (Err e) f s = (Err e, s)) /\
  (forall S T E R (f : T -> S -> result R E * S) v e s,
     res_then (Ok v) f s = f v s /\ res_then (Err e) f s = (Err e, s)) /\
  (forall S T E (f : T -> S -> option E * S) v e s,
     res_peek (Ok v) f s = ((match fst (f v s) with Some x => Err x | None => Ok v end), snd (f v s)) /\
     res_peek (Err e) f s = (Err e, s)).
Proof.
  split; [intros; repeat split|]. split; [|split; [|split; [|split; [|split]]]]; intros; split; auto.
  - simpl. destruct (p v s). reflexivity.
  - simpl. destruct (f v s). reflexivity.
  - simpl. destruct (f v s). reflexivity.
  - simpl. destruct (f v s) as [[x|] s']; reflexivity.
Qed.

Lemma args_env :
  forall m, (forall a, 0 <= m a < 256) ->
  (forall fuel argv ss, c_strings m argv ss -> fits fuel ss -> parse_args fuel m (len ss) argv = Val ss) /\
  (forall fuel n envp ss kvs, env_block m envp ss -> fits fuel ss -> (length ss < n)%nat ->
     2 * (16 + 4 * len ss) <= int_max ->
     Forall2 (fun s kv => env_entry s (fst kv) (snd kv)) ss kvs ->
     exists env, parse_env fuel n m envp = Val env /\ m_size env = len (env_dict kvs) /\
       forall k, byte_list k -> is_int (len k) -> get env k = Val (d_get text_eqb (env_dict kvs) k)).
Proof.
  intros m Hm. split; [intros; apply parse_args_spec; auto|].
  intros fuel n envp ss kvs H1 H2 H3 H4 H5. exact (parse_env_spec m Hm fuel n envp ss kvs H1 H2 H3 H4 H5).
Qed.
