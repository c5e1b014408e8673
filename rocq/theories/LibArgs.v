(** Proofs about the reading of program arguments and the environment. *)
From Coq Require Import ZArith List Bool Lia Permutation.
From Verif Require Import Ints LibModel LibSpec LibProofs LibProofs2 LibLists LibMap.
Import ListNotations.
Open Scope Z_scope.
Ltac Zify.zify_post_hook ::= Z.div_mod_to_equations.
Local Arguments Z.mul : simpl never.
Local Arguments Z.add : simpl never.

Section Args.
Variable m : cmem.
Hypothesis m_bytes : forall a, 0 <= m a < 256.

Lemma low_byte a : iand (wrap (load64 m a)) 255 = m a.
Proof.
  unfold iand. rewrite land_255. destruct (wrap_cong (load64 m a)) as [k ->].
  unfold load64. pose proof (m_bytes a).
  set (x := m (a + 1) + _). clearbody x. lia.
Qed.

Lemma parse_c_string_spec arg s : forall fuel pre off buf c,
  c_string m arg (pre ++ s) -> off = len pre -> (length s < fuel)%nat ->
  holds buf c -> 0 < len (buf_data buf) <= big -> len (pre ++ s) <= big -> 2 * (len c + len s) <= big ->
  exists buf', parse_c_string fuel m arg off buf = Val buf' /\ holds buf' (c ++ s) /\
    0 < len (buf_data buf') <= big.
Proof.
  induction s as [|x s IH]; intros fuel pre off buf c Hc Eo Hf Hh Hl Hb Hb2;
    (destruct fuel as [|fuel]; [simpl in Hf; lia|]); cbn [parse_c_string]; rewrite low_byte;
    destruct Hc as (Hby & Hnz & Hm & Hend).
  - rewrite app_nil_r in *. subst off. unfold len. rewrite Hend. exists buf. auto.
  - assert (Ex : m (arg + off) = x).
    { subst off. unfold len. rewrite Hm by (rewrite app_length; simpl; lia).
      rewrite app_nth2, Nat.sub_diag by lia. reflexivity. }
    rewrite Ex. destruct (Z.eqb_spec x 0) as [->|Hx].
    { exfalso. apply Hnz. apply in_or_app. right. left. reflexivity. }
    pose proof (len_nonneg pre). pose proof (len_nonneg s). pose proof (len_nonneg c).
    assert (Hb' := Hb). rewrite len_app, len_cons in Hb'. rewrite len_cons in Hb2.
    destruct (buf_append_byte_spec buf c x) as (b1 & E1 & Hh1 & L1); auto; [lia|].
    rewrite E1. cbn [bind]. rewrite iadd_id by (unfold big in *; int).
    assert (Hxb : 0 <= x < 256) by (rewrite <- Ex; auto). rewrite Z.mod_small in Hh1 by auto.
    destruct (IH fuel (pre ++ [x]) (off + 1) b1 (c ++ [x])) as (b2 & E2 & Hh2 & L2); auto.
    + rewrite <- snoc_cons. repeat split; auto.
    + rewrite len_snoc. lia.
    + simpl in Hf. lia.
    + lia.
    + rewrite <- snoc_cons. auto.
    + rewrite len_snoc. lia.
    + exists b2. split; auto. split; auto. rewrite snoc_cons. auto.
Qed.

Lemma read_string arg s fuel buf : c_string m arg s -> (length s < fuel)%nat ->
  holds buf [] -> 0 < len (buf_data buf) <= big -> 2 * len s <= big ->
  exists buf', parse_c_string fuel m arg 0 buf = Val buf' /\ holds buf' s /\ 0 < len (buf_data buf') <= big.
Proof.
  intros Hc Hf Hh Hl Hb. pose proof (len_nonneg s).
  apply (parse_c_string_spec arg s fuel [] 0 buf []); auto; simpl app; rewrite ?len_nil; lia.
Qed.

Lemma holds_reset b c : holds b c -> holds (buf_reset b) [].
Proof. intros [H1 H2 H3]. constructor; auto. exists (buf_data b). reflexivity. Qed.

Lemma parse_args_loop_spec fuel argv : forall todo done i buf,
  c_strings m argv (done ++ todo) -> i = len done -> fits fuel todo ->
  holds buf [] -> 0 < len (buf_data buf) <= big ->
  parse_args_loop fuel (length todo) m argv i buf (done ++ repeat [] (length todo)) = Val (done ++ todo).
Proof.
  induction todo as [|s todo IH]; intros done i buf Hc Ei Hf Hh Hl.
  - reflexivity.
  - inversion Hf as [|? ? [Hf1 Hf2] Hf']; subst. cbn [length parse_args_loop repeat].
    destruct (Hc (length done) s) as (q & Eq & Hs).
    { rewrite nth_error_app2, Nat.sub_diag by lia. reflexivity. }
    unfold len at 1. rewrite Eq.
    destruct (read_string q s fuel buf) as (b1 & E1 & Hh1 & L1); auto.
    rewrite E1. cbn [bind]. rewrite (buf_to_string_spec _ _ Hh1) by lia. cbn [bind].
    pose proof (len_nonneg done). pose proof (len_nonneg (repeat (@nil Z) (length todo))).
    destruct (Z.ltb_spec (len done) 0); [lia|].
    destruct (Z.leb_spec (len (done ++ [] :: repeat [] (length todo))) (len done)) as [L|L];
      [rewrite len_app, len_cons in L; lia|]. cbn [orb bind].
    unfold len at 2. rewrite Nat2Z.id, upd_app.
    rewrite (snoc_cons done s todo), (snoc_cons done s (repeat [] (length todo))). apply IH; auto.
    + rewrite <- snoc_cons. auto.
    + rewrite len_snoc. reflexivity.
    + eapply holds_reset; eauto.
Qed.

Lemma parse_args_spec fuel argv ss : c_strings m argv ss -> fits fuel ss ->
  parse_args fuel m (len ss) argv = Val ss.
Proof.
  intros Hc Hf. unfold parse_args. destruct (new_buffer_spec 16) as (b & -> & Hh & L); [lia|]. cbn [bind].
  unfold len. rewrite Nat2Z.id. apply (parse_args_loop_spec fuel argv ss [] 0); auto.
  unfold big. lia.
Qed.

(** Keys of the environment map. *)
Definition key_ok (k : list Z) : Prop := byte_list k /\ is_int (len k).

Notation env_inv := (map_inv text_eqb key_ok fnv1a_32 fnv1a equals).

Lemma text_eqb_eq a b : text_eqb a b = true <-> a = b.
Proof. unfold text_eqb. destruct (list_eq_dec Z.eq_dec a b); split; congruence. Qed.

Lemma te_refl a : key_ok a -> text_eqb a a = true.
Proof. intros _. apply text_eqb_eq. auto. Qed.
Lemma te_sym a b : key_ok a -> key_ok b -> text_eqb a b = text_eqb b a.
Proof.
  intros _ _. destruct (text_eqb a b) eqn:E1, (text_eqb b a) eqn:E2; auto.
  - apply text_eqb_eq in E1. rewrite <- E2. symmetry. apply text_eqb_eq. auto.
  - apply text_eqb_eq in E2. rewrite <- E1. apply text_eqb_eq. auto.
Qed.
Lemma te_trans a b c : key_ok a -> key_ok b -> key_ok c ->
  text_eqb a b = true -> text_eqb b c = true -> text_eqb a c = true.
Proof. intros _ _ _. rewrite !text_eqb_eq. congruence. Qed.
Lemma fh_ok k : key_ok k -> fnv1a k = Val (fnv1a_32 k).
Proof. intros [H1 H2]. apply fnv1a_spec; auto. Qed.
Lemma fh_nonneg k : key_ok k -> 0 <= fnv1a_32 k.
Proof. intros [H1 H2]. apply fnv1a_spec; auto. Qed.
Lemma fh_int k : key_ok k -> is_int (fnv1a_32 k).
Proof. intros [H1 H2]. destruct (fnv1a_spec k H1 H2) as [_ ?]. int. Qed.
Lemma fh_same a b : key_ok a -> key_ok b -> text_eqb a b = true -> fnv1a_32 a = fnv1a_32 b.
Proof. intros _ _ E. apply text_eqb_eq in E. congruence. Qed.
Lemma eq_ok a b : key_ok a -> key_ok b -> equals a b = Val (text_eqb a b).
Proof.
  intros [H1 H2] [H3 H4]. destruct (equals_spec a b) as (r & -> & Hr); auto. f_equal.
  destruct r, (text_eqb a b) eqn:E; auto.
  - rewrite <- E. symmetry. apply text_eqb_eq. apply Hr. auto.
  - apply text_eqb_eq in E. apply Hr in E. auto.
Qed.

Lemma put_env (env : hmap (list Z) (list Z)) d k v : env_inv env d -> key_ok k -> is_int (2 * len (m_buckets env)) ->
  exists env', put env k v = Val (d_get text_eqb d k, env') /\ env_inv env' (d_put text_eqb d k v) /\
    (len (m_buckets env') = len (m_buckets env) \/ len (m_buckets env') <= 4 * (len d + 1)).
Proof.
  intros Hm Hk Hi.
  destruct (put_spec text_eqb key_ok te_refl te_sym te_trans fnv1a_32 fnv1a equals fh_ok fh_nonneg fh_int
    fh_same eq_ok env d k v Hm Hk Hi) as (env' & E & Hm' & L).
  exists env'. split; auto. split; auto. destruct L as [L|[L1 L2]]; auto. right. lia.
Qed.

Lemma get_env (env : hmap (list Z) (list Z)) d k : env_inv env d -> key_ok k -> is_int (len (m_buckets env)) ->
  get env k = Val (d_get text_eqb d k).
Proof.
  intros Hm Hk Hi.
  exact (get_spec text_eqb key_ok te_refl te_sym te_trans fnv1a_32 fnv1a equals fh_ok fh_nonneg fh_int
    fh_same eq_ok env d k Hm Hk Hi).
Qed.

Lemma buf_substring_spec b c pre r post pos n : holds b c -> len (buf_data b) <= big ->
  c = pre ++ r ++ post -> pos = len pre -> n = len r -> buf_substring b pos n = Val r.
Proof.
  intros [Hb [rest E] Hs] Hl Ec -> ->. unfold buf_substring.
  pose proof (len_nonneg pre). pose proof (len_nonneg r). pose proof (len_nonneg post). pose proof (len_nonneg rest).
  destruct (Z.ltb_spec (len pre) 0); [lia|]. destruct (Z.ltb_spec (len r) 0); [lia|]. cbn [orb].
  assert (Hlc : len c = len pre + (len r + len post)) by (rewrite Ec, !len_app; auto).
  assert (Hld : len (buf_data b) = len c + len rest) by (rewrite E, len_app; auto).
  rewrite iadd_id by (unfold big in *; int). rewrite Hs.
  destruct (len pre + len r >? len c) eqn:G; [apply Z.gtb_lt in G; lia|].
  destruct (Z.eqb_spec (len r) 0) as [Z0|N0].
  - destruct r; [reflexivity|]. rewrite len_cons in Z0. pose proof (len_nonneg r). lia.
  - rewrite E, Ec. rewrite <- !app_assoc. apply to_string_slice; auto.
    + rewrite E, Ec in Hb. rewrite <- !app_assoc in Hb. apply byte_app in Hb. destruct Hb as [_ Hb].
      apply byte_app in Hb. apply Hb.
    + rewrite !len_app. unfold big in *. int.
Qed.

Lemma occurs_char c s i : occurs_at [c] s i -> exists pre post, s = pre ++ c :: post /\ len pre = i.
Proof. intros (_ & pre & post & -> & E). exists pre, post. auto. Qed.

Lemma char_occurs c pre post : occurs_at [c] (pre ++ c :: post) (len pre).
Proof. split; [apply len_nonneg|]. exists pre, post. auto. Qed.

(** How one entry is split. *)
Lemma split_entry s : byte_list s -> is_int (len s) -> exists i, index_of s [61] = Val i /\
  ((i = -1 /\ ~ In 61 s) \/ (exists k v, s = k ++ 61 :: v /\ ~ In 61 k /\ i = len k)).
Proof.
  intros Hb Hi. unfold index_of.
  destruct (index_of_spec s [61] 0) as (i & E & Hf); auto; try (int; fail); try lia.
  - repeat constructor; lia.
  - discriminate.
  - change (len [61]) with 1. int.
  - exists i. split; auto. destruct Hf as [[-> Hn]|(Hle & Ho & Hn)].
    + left. split; auto. intros Hin. apply in_split in Hin. destruct Hin as (k & v & ->).
      apply (Hn (len k)); [apply len_nonneg|]. apply char_occurs.
    + right. destruct (occurs_char _ _ _ Ho) as (k & v & -> & L). exists k, v. split; auto. split; auto.
      intros Hin. apply in_split in Hin. destruct Hin as (k1 & k2 & ->).
      apply (Hn (len k1)).
      * rewrite len_app, len_cons in L. pose proof (len_nonneg k1). pose proof (len_nonneg k2). lia.
      * rewrite <- app_assoc. apply char_occurs.
Qed.

Lemma first_eq (k k' v v' : list Z) : ~ In 61 k -> ~ In 61 k' -> k ++ 61 :: v = k' ++ 61 :: v' -> k = k' /\ v = v'.
Proof.
  revert k'. induction k as [|x k IH]; intros [|y k'] H1 H2 E; simpl in *; inversion E; subst; auto; try tauto.
  destruct (IH k') as [-> ->]; auto.
Qed.

Lemma entry_pair k v k' v' : ~ In 61 k -> env_entry (k ++ 61 :: v) k' v' -> k' = k /\ v' = v.
Proof.
  intros Hn H. remember (k ++ 61 :: v) as s eqn:E. destruct H as [k' v' Hn'|s Hn'].
  - apply first_eq; auto.
  - exfalso. apply Hn'. subst. apply in_or_app. right. left. auto.
Qed.

Lemma entry_name s k' v' : ~ In 61 s -> env_entry s k' v' -> k' = s /\ v' = [].
Proof.
  intros Hn H. destruct H as [k' v' Hn'|s Hn']; auto.
  exfalso. apply Hn. apply in_or_app. right. left. auto.
Qed.

Lemma parse_env_loop_spec fuel envp : forall todo done kvs n idx buf env d N,
  env_block m envp (done ++ todo) -> idx = envp + len done * 8 -> fits fuel todo -> (length todo < n)%nat ->
  Forall2 (fun s kv => env_entry s (fst kv) (snd kv)) todo kvs ->
  holds buf [] -> 0 < len (buf_data buf) <= big ->
  env_inv env d -> len d <= N -> len (m_buckets env) <= 16 + 4 * N -> 2 * (16 + 4 * (N + len todo)) <= int_max ->
  exists env', parse_env_loop fuel n m idx buf env = Val env' /\
    env_inv env' (fold_left (fun d kv => d_put text_eqb d (fst kv) (snd kv)) kvs d) /\
    is_int (len (m_buckets env')).
Proof.
  induction todo as [|s todo IH]; intros done kvs n idx buf env d N Hblk Ei Hf Hn Hkv Hh Hl Hm Hd Hbk Hbd;
    pose proof (mi_count _ _ _ _ _ _ _ Hm) as Hc.
  - destruct n as [|n]; [lia|]. inversion Hkv; subst. cbn [parse_env_loop].
    destruct Hblk as [_ Hz]. rewrite app_nil_r in Hz. rewrite Hz. exists env. split; auto. split; auto.
    rewrite len_nil in Hbd. int.
  - destruct n as [|n]; [simpl in Hn; lia|]. destruct kvs as [|[k v] kvs]; [inversion Hkv|].
    inversion Hkv as [|? ? ? ? He Hkv']; subst. inversion Hf as [|? ? [Hf1 Hf2] Hf']; subst. cbn [fst snd] in He.
    cbn [parse_env_loop]. destruct (proj1 Hblk (length done) s) as (q & Eq & Hq & Hs).
    { rewrite nth_error_app2, Nat.sub_diag by lia. reflexivity. }
    change (Z.of_nat (length done)) with (len done) in Eq. rewrite Eq.
    destruct (Z.eqb_spec (wrap q) 0) as [E0|_].
    { destruct (wrap_cong q) as [j Ej]. lia. }
    destruct (read_string q s fuel buf) as (b1 & E1 & Hh1 & L1); auto.
    rewrite E1. cbn [bind]. rewrite (buf_to_string_spec _ _ Hh1) by lia. cbn [bind].
    pose proof (len_nonneg s) as Hsn. pose proof (len_nonneg todo) as Htn.
    assert (Hsi : is_int (len s)) by (unfold big in *; int).
    destruct Hs as (Hby & _).
    destruct (split_entry s) as (i & -> & Hi); auto. cbn [bind].
    rewrite len_cons in Hbd.
    assert (Hput : exists env1, (if i =? -1 then r <- put env s [] ;; Val (snd r)
               else k <- buf_substring b1 0 i ;;
                    v <- buf_substring b1 (iadd i 1) (isub (isub (buf_size b1) i) 1) ;;
                    r <- put env k v ;; Val (snd r)) = Val env1 /\ env_inv env1 (d_put text_eqb d k v) /\
               (len (m_buckets env1) = len (m_buckets env) \/ len (m_buckets env1) <= 4 * (len d + 1))).
    { destruct Hi as [[-> Hno]|(k1 & v1 & Es & Hno & ->)].
      - apply entry_name in He; auto. destruct He as [-> ->]. cbn [Z.eqb].
        destruct (put_env env d s []) as (env1 & -> & Hm1 & Lb); auto; [split; auto|int|].
        cbn [bind snd]. exists env1. auto.
      - rewrite Es in He. apply entry_pair in He; auto. destruct He as [-> ->].
        pose proof (len_nonneg k1) as Hk1. pose proof (len_nonneg v1) as Hv1.
        assert (Hls : len s = len k1 + (len v1 + 1)) by (rewrite Es, len_app, len_cons; auto).
        destruct (Z.eqb_spec (len k1) (-1)); [lia|].
        rewrite (buf_substring_spec b1 s [] k1 (61 :: v1)) by (auto; lia). cbn [bind].
        rewrite (h_size _ _ Hh1). rewrite iadd_id by (unfold big in *; int).
        rewrite (isub_id (len s)) by (unfold big in *; int). rewrite isub_id by (unfold big in *; int).
        rewrite (buf_substring_spec b1 s (k1 ++ [61]) v1 []); auto.
        + cbn [bind]. destruct (put_env env d k1 v1) as (env1 & -> & Hm1 & Lb); auto.
          * split; [|unfold big in *; int]. rewrite Es in Hby. apply byte_app in Hby. apply Hby.
          * int.
          * cbn [bind snd]. exists env1. auto.
        + lia.
        + rewrite app_nil_r, <- app_assoc. auto.
        + rewrite len_snoc. reflexivity.
        + lia. }
    destruct Hput as (env1 & -> & Hm1 & Lb). cbn [bind].
    apply (IH (done ++ [s]) kvs n _ _ env1 (d_put text_eqb d k v) (N + 1)); auto.
    + rewrite <- snoc_cons. auto.
    + rewrite len_snoc. lia.
    + simpl in Hn. lia.
    + eapply holds_reset; eauto.
    + unfold len in *. rewrite (put_length text_eqb key_ok te_refl te_sym te_trans). destruct (d_get text_eqb d k); lia.
    + lia.
    + lia.
Qed.

Lemma parse_env_spec fuel n envp ss kvs : env_block m envp ss -> fits fuel ss -> (length ss < n)%nat ->
  2 * (16 + 4 * len ss) <= int_max ->
  Forall2 (fun s kv => env_entry s (fst kv) (snd kv)) ss kvs ->
  exists env, parse_env fuel n m envp = Val env /\ m_size env = len (env_dict kvs) /\
    forall k, byte_list k -> is_int (len k) -> get env k = Val (d_get text_eqb (env_dict kvs) k).
Proof.
  intros Hblk Hf Hn Hb Hkv. unfold parse_env.
  destruct (new_buffer_spec 16) as (b & -> & Hh & L); [lia|]. cbn [bind].
  destruct (parse_env_loop_spec fuel envp ss [] kvs n envp b (new_hash_map fnv1a equals) [] 0) as (env & E & Hm & Hi); auto.
  - change (len (@nil (list Z))) with 0. lia.
  - unfold big. lia.
  - apply new_map_inv.
  - change (len (@nil (list Z * list Z))) with 0. lia.
  - unfold new_hash_map, create_buckets. cbn [m_buckets]. rewrite len_repeat. lia.
  - exists env. split; auto. split; [apply (mi_size _ _ _ _ _ _ _ Hm)|].
    intros k H1 H2. apply get_env; auto. split; auto.
Qed.
End Args.
