(** Proofs about searching, buffers, hashing and number rendering. *)
From Coq Require Import ZArith List Bool Lia.
From Verif Require Import Ints LibModel LibSpec LibProofs.
Import ListNotations.
Open Scope Z_scope.
Ltac Zify.zify_post_hook ::= Z.div_mod_to_equations.
Local Arguments Z.mul : simpl never.
Local Arguments Z.add : simpl never.

(* ------------------------------------------------------------ IndexOf *)

Fixpoint prefixb (a b : list Z) : bool :=
  match a, b with
  | [], _ => true
  | x :: a', y :: b' => (x =? y) && prefixb a' b'
  | _, [] => false
  end.

Lemma prefixb_spec a : forall b, prefixb a b = true <-> exists post, b = a ++ post.
Proof.
  induction a as [|x a IH]; intros b; simpl.
  - split; eauto.
  - destruct b as [|y b].
    + split; [discriminate|]. intros [post E]. discriminate.
    + rewrite andb_true_iff, IH, Z.eqb_eq. split.
      * intros [-> [post ->]]. exists post. reflexivity.
      * intros [post E]. inversion E. eauto.
Qed.

Lemma sign8_eqb x y : 0 <= x < 256 -> 0 <= y < 256 -> (sign8 x =? sign8 y) = (x =? y).
Proof.
  intros Hx Hy. destruct (Z.eqb_spec x y) as [->|N].
  - apply Z.eqb_refl.
  - apply Z.eqb_neq. intros E. apply N. apply sign8_inj; auto.
Qed.

Lemma snoc_cons {A} (pre : list A) x post : pre ++ x :: post = (pre ++ [x]) ++ post.
Proof. rewrite <- app_assoc. reflexivity. Qed.

Lemma len_snoc {A} (pre : list A) x : len (pre ++ [x]) = len pre + 1.
Proof. rewrite len_app, len_cons, len_nil. lia. Qed.

Lemma match_run_spec : forall fuel spre srest tpre trest pos i,
  byte_list srest -> byte_list trest -> (length trest < fuel)%nat ->
  pos = len spre -> i = len tpre ->
  is_int (len (spre ++ srest)) -> is_int (len (tpre ++ trest)) ->
  match_run_f fuel (spre ++ srest) (tpre ++ trest) pos i = Val (prefixb trest srest).
Proof.
  induction fuel as [|f IH]; intros spre srest tpre trest pos i Hs Ht Hf Ep Ei H1 H2; [lia|].
  cbn [match_run_f]. pose proof (len_nonneg spre). pose proof (len_nonneg tpre).
  pose proof (len_nonneg srest). pose proof (len_nonneg trest).
  rewrite !len_app in *.
  destruct srest as [|x srest], trest as [|y trest]; rewrite ?len_nil, ?len_cons in *.
  - destruct (Z.ltb_spec pos (len spre + 0)); [lia|]. simpl. destruct (Z.eqb_spec i (len tpre + 0)); [reflexivity|lia].
  - destruct (Z.ltb_spec pos (len spre + 0)); [lia|]. simpl.
    pose proof (len_nonneg trest).
    destruct (Z.eqb_spec i (len tpre + (len trest + 1))); [lia|reflexivity].
  - destruct (Z.ltb_spec i (len tpre + 0)); [lia|]. rewrite andb_false_r.
    destruct (Z.eqb_spec i (len tpre + 0)); [reflexivity|lia].
  - pose proof (len_nonneg srest). pose proof (len_nonneg trest).
    destruct (Z.ltb_spec pos (len spre + (len srest + 1))); [|lia].
    destruct (Z.ltb_spec i (len tpre + (len trest + 1))); [|lia]. cbn [andb].
    rewrite !byte_pre by auto. cbn [bind].
    inversion Hs; inversion Ht; subst. rewrite sign8_eqb by auto. cbn [prefixb].
    rewrite (Z.eqb_sym y x). destruct (Z.eqb_spec x y) as [->|N]; [|reflexivity]. cbn [andb].
    rewrite !iadd_id by int. rewrite (snoc_cons spre), (snoc_cons tpre).
    simpl in Hf. apply IH; auto; rewrite ?len_app, ?len_cons, ?len_nil; try lia; int.
Qed.

Lemma occurs_prefix sub pre rest : occurs_at sub (pre ++ rest) (len pre) <-> prefixb sub rest = true.
Proof.
  rewrite prefixb_spec. unfold occurs_at. split.
  - intros (_ & p & q & E & L).
    assert (E2 : p = pre /\ sub ++ q = rest).
    { assert (Lp : length p = length pre) by (unfold len in L; lia).
      clear L. revert p Lp E. induction pre as [|x pre IH]; intros [|y p] Lp E; try discriminate; auto.
      inversion E. destruct (IH p) as [-> ->]; auto. }
    destruct E2 as [-> <-]. eauto.
  - intros [post ->]. split; [apply len_nonneg|]. exists pre, post. auto.
Qed.

Lemma occurs_bound sub s i : occurs_at sub s i -> i + len sub <= len s.
Proof.
  intros (_ & p & q & -> & E). change (len p = i) in E. rewrite !len_app. pose proof (len_nonneg q). lia.
Qed.

Definition found (s sub : list Z) (from r : Z) : Prop :=
  (r = -1 /\ forall i, from <= i -> ~ occurs_at sub s i) \/
  (from <= r /\ occurs_at sub s r /\ forall i, from <= i < r -> ~ occurs_at sub s i).

Lemma index_loop_spec c t : byte_list (c :: t) -> is_int (len (c :: t)) ->
  forall rest pre pos, byte_list rest -> pos = len pre -> is_int (len (pre ++ rest)) ->
  exists r, index_loop (length rest) (pre ++ rest) (c :: t) pos = Val r /\
    found (pre ++ rest) (c :: t) pos r.
Proof.
  intros Hsub Hl. induction rest as [|x rest IH]; intros pre pos Hb Ep Hi.
  - exists (-1). split; [reflexivity|]. left. split; auto. intros i Hle Ho.
    apply occurs_bound in Ho. rewrite app_nil_r, len_cons in Ho. pose proof (len_nonneg t). lia.
  - cbn [length index_loop]. rewrite byte_pre by auto. cbn [bind].
    rewrite (byte_pre [] c t) by reflexivity. cbn [bind].
    pose proof (len_nonneg pre). pose proof (len_nonneg rest).
    assert (Hi' := Hi). rewrite len_app, len_cons in Hi'.
    rewrite iadd_id by int.
    inversion Hsub; subst. inversion Hb; subst.
    assert (Em : match_run (pre ++ x :: rest) (c :: t) (len pre + 1) = Val (prefixb t rest)).
    { unfold match_run. rewrite snoc_cons.
      apply (match_run_spec (S (length (c :: t))) (pre ++ [x]) rest [c] t); auto.
      - rewrite len_snoc. reflexivity.
      - rewrite <- snoc_cons. auto. }
    rewrite Em.
    cbn [bind]. rewrite sign8_eqb by auto.
    pose proof (occurs_prefix (c :: t) pre (x :: rest)) as Ho.
    cbn [prefixb] in Ho. rewrite (Z.eqb_sym c x) in Ho.
    destruct ((x =? c) && prefixb t rest) eqn:E.
    + exists (len pre). split; auto. right. split; [lia|]. split; [apply Ho; auto|]. intros; lia.
    + rewrite snoc_cons in *.
      destruct (IH (pre ++ [x]) (len pre + 1)) as (r & Er & Hr); auto.
      { rewrite len_snoc. lia. }
      exists r. split; auto.
      assert (Hno : ~ occurs_at (c :: t) ((pre ++ [x]) ++ rest) (len pre)) by (rewrite Ho; discriminate).
      destruct Hr as [[-> Hr]|(Hle & Hoc & Hr)].
      * left. split; auto. intros i Hi2 Hoi. destruct (Z.eq_dec i (len pre)) as [->|]; [auto|].
        apply (Hr i); auto. lia.
      * right. split; [lia|]. split; auto. intros i Hi2 Hoi.
        destruct (Z.eq_dec i (len pre)) as [->|]; [auto|]. apply (Hr i); auto. lia.
Qed.

Lemma index_of_spec s sub from : byte_list s -> byte_list sub -> sub <> [] ->
  is_int (len s) -> is_int (len sub) -> is_int from -> 0 <= from ->
  exists r, index_of_from s sub from = Val r /\ found s sub from r.
Proof.
  intros Hs Hsub Hne Hi Hi2 Hif Hf. destruct sub as [|c t]; [congruence|]. unfold index_of_from.
  pose proof (len_nonneg t). pose proof (len_nonneg s).
  assert (Hnone : len s < from + len (c :: t) -> found s (c :: t) from (-1)).
  { intros X. left. split; auto. intros i Hle Ho. apply occurs_bound in Ho. lia. }
  destruct (Z.eqb_spec (len (c :: t)) 0) as [E|E]; [rewrite len_cons in E; lia|].
  destruct (Z.eqb_spec (len s) 0) as [E2|E2].
  { exists (-1). split; auto. apply Hnone. rewrite len_cons. lia. }
  destruct (Z_le_dec from (len s)) as [L|L].
  - destruct (iadd (len (c :: t)) from >? len s) eqn:E3.
    + exists (-1). split; auto. apply Hnone.
      destruct (Z_le_dec (len (c :: t) + from) int_max) as [L2|L2].
      * rewrite iadd_id in E3 by int. apply Z.gtb_lt in E3. lia.
      * int.
    + set (n := Z.to_nat from).
      destruct (index_loop_spec c t Hsub Hi2 (skipn n s) (firstn n s) from) as (r & Er & Hr).
      * rewrite <- (firstn_skipn n s) in Hs. apply Forall_app in Hs. apply Hs.
      * unfold len in *. rewrite firstn_length. lia.
      * rewrite firstn_skipn. auto.
      * rewrite firstn_skipn in *. exists r. split; auto.
        rewrite skipn_length in Er. rewrite <- Er. f_equal. unfold len, n. lia.
  - exists (-1). split; [|apply Hnone; rewrite len_cons; lia].
    destruct (iadd _ _ >? _); auto. replace (Z.to_nat (len s - from)) with 0%nat by lia. reflexivity.
Qed.

(* ------------------------------------------------------------ buffers *)

Lemma grow_loop_spec required : 0 < required -> is_int (2 * required) ->
  forall f n, 0 < n -> required <= n * 2 ^ Z.of_nat f ->
  exists n', grow_loop (S f) n required = Val n' /\ required <= n' /\ (n' = n \/ n' < 2 * required) /\ n <= n'.
Proof.
  intros Hr Hi. induction f as [|f IH]; intros n Hn Hle.
  - cbn [grow_loop]. change (2 ^ Z.of_nat 0) with 1 in Hle.
    destruct (Z.ltb_spec n required); [lia|]. exists n. repeat split; auto; lia.
  - change (grow_loop (S (S f)) n required) with
      (if n <? required then grow_loop (S f) (imul n 2) required else Val n).
    destruct (Z.ltb_spec n required) as [L|L].
    + rewrite imul_id by int. destruct (IH (n * 2)) as (n' & E & H1 & H2 & H3).
      * lia.
      * rewrite Nat2Z.inj_succ, Z.pow_succ_r in Hle by lia. lia.
      * exists n'. repeat split; auto; lia.
    + exists n. repeat split; auto; lia.
Qed.

Lemma split_len {A} (l : list A) n : (n <= length l)%nat -> exists a b, l = a ++ b /\ length a = n.
Proof. intros H. exists (firstn n l), (skipn n l). rewrite firstn_skipn, firstn_length_le by auto. auto. Qed.

Record holds (b : buffer) (c : list Z) : Prop := Holds {
  h_bytes : byte_list (buf_data b);
  h_data : exists rest, buf_data b = c ++ rest;
  h_size : buf_size b = len c
}.

Definition big : Z := 2305843009213693952.

Lemma byte_repeat n : byte_list (repeat 0 n).
Proof. apply Forall_forall. intros x H. apply repeat_spec in H. subst. lia. Qed.

Lemma byte_app a b : byte_list (a ++ b) <-> byte_list a /\ byte_list b.
Proof. apply Forall_app. Qed.

(** Growing keeps the contents and makes enough room. *)
Lemma grow_spec b c required : holds b c -> 0 < len (buf_data b) < required -> 2 * required <= big ->
  exists b', grow grow_fuel b required = Val b' /\ holds b' c /\ required <= len (buf_data b') < 2 * required.
Proof.
  intros [Hb [rest E] Hs] Hl Hbig. unfold grow.
  assert (Hbig' : is_int (2 * required)) by (unfold big in *; int).
  rewrite imul_id by (unfold big in *; int).
  destruct (grow_loop_spec required ltac:(lia) Hbig' 63%nat (len (buf_data b) * 2)) as (n & En & H1 & H2 & H3); [lia| |].
  { unfold big in *. change (2 ^ Z.of_nat 63) with 9223372036854775808. nia. }
  unfold grow_fuel. rewrite En. cbn [bind]. rewrite new_bytes_ok by lia. cbn [bind].
  set (d := buf_data b) in *.
  rewrite (repeat_split _ 0 (length d)) by (unfold len in *; lia).
  unfold copy_array.
  pose proof (copy_array_spec (S (length (repeat 0 (length d) ++ repeat 0 (Z.to_nat n - length d))))
     [] d [] [] (repeat 0 (length d)) (repeat 0 (Z.to_nat n - length d)) 0 0) as X.
  simpl app in X. rewrite !app_nil_r in X. rewrite X; clear X; auto.
  - cbn [bind]. eexists. split; [reflexivity|]. split; [constructor; simpl|].
    + apply byte_app. split; auto. apply byte_repeat.
    + rewrite E. eexists. rewrite <- app_assoc. reflexivity.
    + auto.
    + cbn [buf_data]. rewrite len_app, len_repeat. unfold len in *. lia.
  - rewrite repeat_length. auto.
  - rewrite app_length, !repeat_length. lia.
  - unfold big in *. int.
  - rewrite len_app, !len_repeat. unfold len, big in *. int.
Qed.

Lemma make_room b c n : holds b c -> 0 < len (buf_data b) <= big -> 0 < n -> 2 * n <= big ->
  exists b', (if n >? len (buf_data b) then grow grow_fuel b n else Val b) = Val b' /\
    holds b' c /\ n <= len (buf_data b') /\ len (buf_data b') <= Z.max (len (buf_data b)) (2 * n).
Proof.
  intros Hh Hl Hn Hb. destruct (n >? len (buf_data b)) eqn:E.
  - apply Z.gtb_lt in E. destruct (grow_spec b c n) as (b' & Eb & Hh' & L); auto; try lia.
    exists b'. split; auto. split; auto. lia.
  - rewrite Z.gtb_ltb, Z.ltb_ge in E. exists b. split; auto. split; auto. lia.
Qed.

Lemma holds_len b c : holds b c -> len c <= len (buf_data b).
Proof. intros [_ [r E] _]. rewrite E, len_app. pose proof (len_nonneg r). lia. Qed.

Lemma buf_append_spec b c s : holds b c -> byte_list s -> 0 < len (buf_data b) <= big ->
  2 * (len c + len s) <= big ->
  exists b', buf_append b s = Val b' /\ holds b' (c ++ s) /\
    0 < len (buf_data b') <= Z.max (len (buf_data b)) (2 * (len c + len s)).
Proof.
  intros Hh Hs Hl Hb. unfold buf_append. pose proof (len_nonneg c). pose proof (len_nonneg s).
  rewrite (h_size _ _ Hh). rewrite iadd_id by (unfold big in *; int).
  assert (Hroom : exists b', (if len c + len s >? len (buf_data b) then grow grow_fuel b (len c + len s) else Val b) = Val b' /\
    holds b' c /\ len c + len s <= len (buf_data b') /\ 0 < len (buf_data b') <= Z.max (len (buf_data b)) (2 * (len c + len s))).
  { destruct (Z.eq_dec (len c + len s) 0) as [E|E].
    - rewrite E. exists b. rewrite Z.gtb_ltb. destruct (Z.ltb_spec (len (buf_data b)) 0); [lia|].
      split; auto. split; auto. lia.
    - destruct (make_room b c (len c + len s)) as (b' & E1 & E2 & E3 & E4); auto; try lia.
      exists b'. split; auto. split; auto. lia. }
  destruct Hroom as (b' & -> & Hh' & L1 & L2). cbn [bind].
  destruct Hh' as [Hby [rest Er] Hsz]. rewrite Er in *. rewrite Hsz. rewrite len_app in *.
  assert (Hrl : len s <= len rest) by lia.
  destruct (split_len rest (length s)) as (mid & post & -> & Lm); [unfold len in *; lia|].
  unfold copy_string.
  pose proof (copy_string_spec (S (length s)) [] s c mid post 0 (len c)) as X. simpl app in X.
  rewrite X; clear X; auto; try lia.
  - cbn [bind]. eexists. split; [reflexivity|]. apply byte_app in Hby. destruct Hby as [Hc Hby].
    apply byte_app in Hby. destruct Hby as [_ Hpost].
    split; [constructor; simpl|].
    + apply byte_app; split; auto. apply byte_app; auto.
    + exists post. rewrite app_assoc. reflexivity.
    + rewrite len_app. reflexivity.
    + cbn [buf_data]. rewrite !len_app in *. unfold len in *. lia.
  - unfold big in *; int.
  - rewrite !len_app in *. unfold big in *. int.
Qed.

Lemma buf_append_byte_spec b c v : holds b c -> 0 < len (buf_data b) <= big -> 2 * (len c + 1) <= big ->
  exists b', buf_append_byte b v = Val b' /\ holds b' (c ++ [v mod 256]) /\
    0 < len (buf_data b') <= Z.max (len (buf_data b)) (2 * (len c + 1)).
Proof.
  intros Hh Hl Hb. unfold buf_append_byte. pose proof (len_nonneg c).
  rewrite (h_size _ _ Hh). rewrite iadd_id by (unfold big in *; int).
  destruct (make_room b c (len c + 1)) as (b' & -> & Hh' & L1 & L2); auto; try lia. cbn [bind].
  destruct Hh' as [Hby [rest Er] Hsz]. rewrite Er in *. rewrite Hsz. rewrite len_app in *.
  destruct rest as [|x rest]; [rewrite len_nil in *; lia|].
  rewrite set_pre by auto. cbn [bind]. eexists. split; [reflexivity|].
  apply byte_app in Hby. destruct Hby as [Hc Hby]. inversion Hby; subst.
  split; [constructor; simpl|].
  - apply byte_app; split; auto. constructor; auto. lia.
  - exists rest. rewrite <- app_assoc. reflexivity.
  - rewrite len_snoc. lia.
  - cbn [buf_data]. rewrite len_app, len_cons in *. pose proof (len_nonneg rest). lia.
Qed.

Lemma buf_to_string_spec b c : holds b c -> len (buf_data b) <= big -> buf_to_string b = Val c.
Proof.
  intros [Hb [rest E] Hs] Hl. unfold buf_to_string, bytes_prefix_to_string. rewrite Hs, E in *.
  apply (to_string_slice [] c rest); auto.
  - apply byte_app in Hb. apply Hb.
  - simpl. pose proof (len_nonneg (c ++ rest)). unfold big in *. int.
Qed.

Lemma buf_pieces_spec : forall ps b c, holds b c -> 0 < len (buf_data b) <= big ->
  Forall piece_ok ps -> 2 * (len c + fold_right Z.add 0 (map piece_len ps)) <= big ->
  exists b', buf_pieces b ps = Val b' /\ holds b' (fold_left add_piece ps c) /\ 0 < len (buf_data b') <= big.
Proof.
  induction ps as [|p ps IH]; intros b c Hh Hl Hok Hb; simpl.
  - eauto.
  - inversion Hok as [|? ? Hp Hps]; subst. simpl in Hb. pose proof (len_nonneg c).
    assert (Hsum : 0 <= fold_right Z.add 0 (map piece_len ps)).
    { clear. induction ps as [|[] ps IH]; cbn [map fold_right piece_len]; lia. }
    destruct p as [s|v|]; cbn [piece_len piece_ok buf_piece add_piece] in *.
    + change (Z.of_nat (length s)) with (len s) in Hb. pose proof (len_nonneg s).
      destruct (buf_append_spec b c s) as (b' & -> & Hh' & L); auto; try lia. cbn [bind].
      apply IH; auto; try lia. rewrite len_app. lia.
    + destruct (buf_append_byte_spec b c v) as (b' & -> & Hh' & L); auto; try lia. cbn [bind].
      apply IH; auto; try lia. rewrite len_snoc. lia.
    + apply IH; auto; try lia.
      destruct Hh as [H1 [r E] H2]. constructor; simpl; auto. exists (buf_data b). reflexivity.
      rewrite len_nil. lia.
Qed.

Lemma new_buffer_spec cap : 0 < cap -> exists b, new_buffer cap = Val b /\ holds b [] /\ len (buf_data b) = cap.
Proof.
  intros H. unfold new_buffer. rewrite new_bytes_ok by lia. cbn [bind]. eexists. split; [reflexivity|].
  split; [constructor; simpl; auto|simpl].
  - apply byte_repeat.
  - exists (repeat 0 (Z.to_nat cap)). reflexivity.
  - rewrite len_repeat. lia.
Qed.

Lemma buffer_spec cap ps : 0 < cap <= big -> Forall piece_ok ps ->
  2 * fold_right Z.add 0 (map piece_len ps) <= big ->
  exists b b', new_buffer cap = Val b /\ buf_pieces b ps = Val b' /\ buf_to_string b' = Val (contents ps).
Proof.
  intros Hc Hok Hb. destruct (new_buffer_spec cap) as (b & E & Hh & L); [lia|].
  destruct (buf_pieces_spec ps b []) as (b' & E' & Hh' & L'); auto; try lia; rewrite ?len_nil; auto.
  exists b, b'. split; auto. split; auto. apply buf_to_string_spec; auto. lia.
Qed.

Lemma grow_loop_zero required : 0 < required -> forall fuel, grow_loop fuel 0 required = NoFuel.
Proof.
  intros H. induction fuel as [|f IH]; simpl; auto. destruct (Z.ltb_spec 0 required); [|lia].
  change (imul 0 2) with 0. auto.
Qed.

(* ------------------------------------------------------------ bits *)

Lemma land_255 x : Z.land x 255 = x mod 256.
Proof. change 255 with (Z.ones 8). rewrite Z.land_ones by lia. reflexivity. Qed.

Lemma land_32 x : Z.land x 4294967295 = x mod 4294967296.
Proof. change 4294967295 with (Z.ones 32). rewrite Z.land_ones by lia. reflexivity. Qed.

Lemma lxor_bound n a b : 0 <= n -> 0 <= a < 2 ^ n -> 0 <= b < 2 ^ n -> 0 <= Z.lxor a b < 2 ^ n.
Proof.
  intros Hn Ha Hb.
  assert (E : Z.lxor a b = Z.lxor a b mod 2 ^ n).
  { apply Z.bits_inj'. intros k Hk. destruct (Z.lt_ge_cases k n) as [L|L].
    - rewrite Z.mod_pow2_bits_low by lia. reflexivity.
    - rewrite Z.mod_pow2_bits_high by lia.
      rewrite Z.lxor_spec. rewrite <- (Z.mod_small a (2 ^ n)), <- (Z.mod_small b (2 ^ n)) by auto.
      rewrite !Z.mod_pow2_bits_high by lia. reflexivity. }
  rewrite E. apply Z.mod_pos_bound. lia.
Qed.

(* ------------------------------------------------------------ fnv1a *)

Lemma fnv1a_loop_spec : forall s pre i h, byte_list s -> i = len pre -> is_int (len (pre ++ s)) ->
  0 <= h < 4294967296 ->
  fnv1a_loop (length s) i (pre ++ s) h =
  Val (fold_left (fun h b => (Z.lxor h b * 16777619) mod 4294967296) s h).
Proof.
  induction s as [|x s IH]; intros pre i h Hb Ei Hi Hh; [reflexivity|].
  cbn [length fnv1a_loop]. rewrite byte_pre by auto. cbn [bind].
  inversion Hb as [|? ? Hx Hb']; subst.
  unfold iand at 2. rewrite land_255, sign8_mod by auto. unfold ixor.
  pose proof (lxor_bound 32 h x) as Hl. change (2 ^ 32) with 4294967296 in Hl.
  specialize (Hl ltac:(lia) Hh ltac:(lia)).
  rewrite imul_id by int. unfold iand. rewrite land_32.
  rewrite iadd_id by (rewrite len_app, len_cons in Hi; pose proof (len_nonneg pre); pose proof (len_nonneg s); int).
  rewrite snoc_cons in *. rewrite IH; auto.
  - rewrite len_snoc. reflexivity.
  - lia.
Qed.

Lemma fnv1a_spec s : byte_list s -> is_int (len s) ->
  fnv1a s = Val (fnv1a_32 s) /\ 0 <= fnv1a_32 s < 4294967296.
Proof.
  intros Hb Hi. split.
  - unfold fnv1a. apply (fnv1a_loop_spec s []); auto. lia.
  - unfold fnv1a_32. assert (H : 0 <= 2166136261 < 4294967296) by lia. revert H.
    generalize 2166136261. clear. induction s as [|x s IH]; intros h Hh; simpl; auto.
    apply IH. lia.
Qed.

(* ------------------------------------------------------------ mod *)

Lemma div_spec a b : b <> 0 -> is_int a -> is_int b -> (b <> -1 \/ a <> int_min) ->
  div_ a b = Val (Z.quot a b).
Proof.
  intros Hb Ha Hib Hm. unfold div_, idiv. destruct (Z.eqb_spec b 0); [contradiction|].
  f_equal. apply wrap_id. int. assert (Z.abs (Z.quot a b) <= Z.abs a).
  { rewrite <- Z.quot_abs by auto. apply Z.quot_le_upper_bound; nia. }
  destruct (Z.eq_dec b (-1)) as [->|N].
  - change (-1) with (- (1)). rewrite Z.quot_opp_r, Z.quot_1_r by lia. lia.
  - destruct (Z.eq_dec a (-4611686018427387904)) as [->|]; [|lia].
    destruct (Z.eq_dec b 1) as [->|]; [rewrite Z.quot_1_r; lia|].
    assert (Z.abs (Z.quot (-4611686018427387904) b) < 4611686018427387904); [|lia].
    rewrite <- Z.quot_abs by auto. apply Z.quot_lt; lia.
Qed.

Lemma mod_spec i m : is_int i -> is_int m -> m <> 0 -> mod_ i m = Val (Z.rem i m).
Proof.
  intros Hi Hm Hz. unfold mod_, div_, idiv. destruct (Z.eqb_spec m 0); [contradiction|]. cbn [bind]. f_equal.
  destruct (wrap_cong (Z.quot i m)) as [k Ek]. unfold isub, imul. rewrite Ek.
  destruct (wrap_cong ((Z.quot i m + k * 9223372036854775808) * m)) as [k2 E2]. rewrite E2.
  apply wrap_unique.
  - pose proof (Z.rem_bound_abs i m Hz). int.
  - exists (k * m + k2). pose proof (Z.quot_rem i m Hz) as Q. revert Q.
    generalize (Z.quot i m) (Z.rem i m). intros q r Q. rewrite Q. ring.
Qed.

Lemma mod_zero i : mod_ i 0 = Trap.
Proof. reflexivity. Qed.

(* ------------------------------------------------------------ toString *)

Lemma value_snoc ds d : value_of_digits (ds ++ [d]) = 10 * value_of_digits ds + d.
Proof. unfold value_of_digits. rewrite fold_left_app. reflexivity. Qed.

Lemma digit_char d : 0 <= d <= 9 -> str_byte digits10 d = Val (48 + d).
Proof.
  intros H. assert (C : d = 0 \/ d = 1 \/ d = 2 \/ d = 3 \/ d = 4 \/ d = 5 \/ d = 6 \/ d = 7 \/ d = 8 \/ d = 9) by lia.
  repeat (destruct C as [->|C]; [reflexivity|]). subst. reflexivity.
Qed.

Lemma to_string_loop_spec val : forall (m : nat) fuel n pre suf,
  is_int n -> (n <= 0 /\ val < 0 \/ 0 <= n /\ 0 <= val) -> Z.abs n < 10 ^ Z.of_nat m ->
  (m < fuel)%nat -> (m <= length pre)%nat -> len pre <= 1000 ->
  exists ds pre' mid, to_string_loop fuel val n (len pre - 1) (pre ++ suf) =
    Val (len pre' - 1, pre' ++ ascii_digits ds ++ suf) /\
    pre = pre' ++ mid /\ length mid = length ds /\ (length ds <= m)%nat /\
    Forall (fun d => 0 <= d <= 9) ds /\ value_of_digits ds = Z.abs n /\ (ds <> [] -> hd 0 ds <> 0).
Proof.
  induction m as [|m IH]; intros fuel n pre suf Hi Hs Ha Hf Hl Hk.
  - change (10 ^ Z.of_nat 0) with 1 in Ha. assert (n = 0) by lia. subst. destruct fuel; [lia|].
    exists [], pre, []. rewrite app_nil_r. cbn [to_string_loop]. repeat split; auto; congruence.
  - destruct fuel as [|fuel]; [lia|]. cbn [to_string_loop].
    destruct (Z.eqb_spec n 0) as [->|Hn].
    + exists [], pre, []. rewrite app_nil_r. repeat split; auto; try congruence; simpl; lia || constructor.
    + rewrite div_spec by (int; lia). cbn [bind].
      set (q := Z.quot n 10).
      assert (Hq : n = 10 * q + Z.rem n 10) by (apply Z.quot_rem; lia).
      pose proof (Z.rem_bound_abs n 10 ltac:(lia)) as Hrb.
      assert (Hrs : n < 0 -> Z.rem n 10 <= 0) by (intros; apply Z.rem_nonpos; lia).
      assert (Hrs2 : 0 <= n -> 0 <= Z.rem n 10) by (intros; apply Z.rem_nonneg; lia).
      set (r := Z.rem n 10) in *.
      assert (Ed : (if val <? 0 then isub (imul 10 q) n else isub n (imul 10 q)) = Z.abs r).
      { destruct (Z.ltb_spec val 0); rewrite imul_id by int; rewrite isub_id by int; lia. }
      rewrite Ed. rewrite digit_char by lia. cbn [bind].
      destruct (exists_last (l := pre)) as (pre1 & x & Epre); [destruct pre; simpl in *; [lia|congruence]|].
      subst pre. rewrite len_snoc in *. rewrite <- app_assoc. cbn [app].
      rewrite set_pre by lia. cbn [bind].
      pose proof (len_nonneg pre1). rewrite isub_id by int.
      rewrite app_length in Hl. cbn [length] in Hl.
      destruct (IH fuel q pre1 ((48 + Z.abs r) mod 256 :: suf)) as (ds & pre' & mid & E & H1 & H2 & H3 & H4 & H5 & H6).
      * int.
      * lia.
      * rewrite Nat2Z.inj_succ, Z.pow_succ_r in Ha by lia. lia.
      * lia.
      * lia.
      * lia.
      * exists (ds ++ [Z.abs r]), pre', (mid ++ [x]).
        replace (len pre1 + 1 - 1 - 1) with (len pre1 - 1) by lia. rewrite E.
        rewrite Z.mod_small by lia. unfold ascii_digits. rewrite map_app, <- app_assoc. split; [reflexivity|].
        subst pre1. rewrite !app_length, app_assoc. cbn [length]. rewrite value_snoc, H5.
        split; auto. split; [lia|]. split; [lia|]. split; [apply Forall_app; auto; split; auto; repeat constructor; lia|].
        split; [lia|]. intros _. destruct ds as [|d ds]; [|apply H6; discriminate].
        simpl. change (value_of_digits []) with 0 in H5. lia.
Qed.

Lemma byte_digits ds : Forall (fun d => 0 <= d <= 9) ds -> byte_list (ascii_digits ds).
Proof. intros H. apply Forall_map. eapply Forall_impl; [|exact H]. simpl. intros. lia. Qed.

Lemma decimal_of ds n : 0 < n -> Forall (fun d => 0 <= d <= 9) ds -> value_of_digits ds = n ->
  (ds <> [] -> hd 0 ds <> 0) -> decimal n ds.
Proof.
  intros Hn H1 H2 H3. assert (ds <> []).
  { intros ->. change (value_of_digits []) with 0 in H2. lia. }
  split; auto. split; auto. split; auto. intros E. exfalso. apply H3; auto.
Qed.

Lemma to_string_spec v : is_int v -> exists ds, decimal (Z.abs v) ds /\
  to_string v = Val ((if v <? 0 then [45] else []) ++ ascii_digits ds).
Proof.
  intros Hi. unfold to_string. destruct (Z.eqb_spec v 0) as [->|Hv].
  { exists [0]. split; [|reflexivity]. repeat split; try discriminate; auto. constructor; auto. lia. }
  rewrite new_bytes_ok by lia. cbn [bind]. change (Z.to_nat 20) with 20%nat.
  destruct (to_string_loop_spec v 19 64 v (repeat 0 20) []) as (ds & pre' & mid & E & H1 & H2 & H3 & H4 & H5 & H6); auto.
  - lia.
  - change (10 ^ Z.of_nat 19) with 10000000000000000000. int.
  - lia.
  - simpl. lia.
  - change (len (repeat 0 20)) with 20. lia.
  - rewrite app_nil_r in E. change (isub (len (repeat 0 20)) 1) with 19. change (len (repeat 0 20) - 1) with 19 in E.
    rewrite E. cbn [bind]. rewrite app_nil_r.
    assert (Lp : len pre' + len ds = 20).
    { assert (L : length (repeat 0 20) = length (pre' ++ mid)) by (rewrite <- H1; auto).
      rewrite app_length in L. cbn [repeat length] in L. unfold len. lia. }
    assert (Hp : 1 <= len pre') by (unfold len in *; lia).
    assert (Lad : len (ascii_digits ds) = len ds) by (unfold len, ascii_digits; rewrite map_length; auto).
    pose proof (len_nonneg ds).
    exists ds. split; [apply decimal_of; auto; lia|].
    pose proof (byte_digits ds H4) as Hbd.
    destruct (Z.ltb_spec v 0) as [L|L].
    + destruct (exists_last (l := pre')) as (p1 & x & Ep); [intros ->; rewrite len_nil in Hp; lia|].
      subst pre'. rewrite len_snoc in *. rewrite <- app_assoc. cbn [app].
      rewrite set_pre by lia. cbn [bind]. change (45 mod 256) with 45.
      pose proof (len_nonneg p1).
      rewrite !len_app, len_cons, Lad.
      rewrite (isub_id (len p1 + 1 - 1) 1) by int. rewrite iadd_id by int.
      rewrite (isub_id _ 1) by int. rewrite isub_id by int.
      pose proof (to_string_slice p1 (45 :: ascii_digits ds) [] (len p1 + 1 - 1 - 1 + 1)
        (len p1 + (len ds + 1) - 1 - (len p1 + 1 - 1 - 1))) as X.
      rewrite app_nil_r in X. apply X.
      * constructor; auto. lia.
      * rewrite len_app, len_cons, Lad. int.
      * lia.
      * rewrite len_cons, Lad. lia.
    + cbn [bind app]. rewrite !len_app, Lad. rewrite iadd_id by int. rewrite (isub_id _ 1) by int. rewrite isub_id by int.
      pose proof (to_string_slice pre' (ascii_digits ds) [] (len pre' - 1 + 1) (len pre' + len ds - 1 - (len pre' - 1))) as X.
      rewrite app_nil_r in X. apply X; auto.
      * rewrite len_app, Lad. int.
      * lia.
      * lia.
Qed.

(* ------------------------------------------------------------ toBinary *)

Lemma land_pow2 i j : 0 <= j -> (Z.land i (2 ^ j) =? 2 ^ j) = Z.testbit i j.
Proof.
  intros Hj. destruct (Z.testbit i j) eqn:E.
  - apply Z.eqb_eq. apply Z.bits_inj'. intros k Hk. rewrite Z.land_spec.
    rewrite Z.pow2_bits_eqb by auto. destruct (Z.eqb_spec j k) as [<-|N]; [rewrite E; auto|apply andb_false_r].
  - apply Z.eqb_neq. intros X. assert (T : Z.testbit (Z.land i (2 ^ j)) j = true).
    { rewrite X. apply Z.pow2_bits_true. auto. }
    rewrite Z.land_spec, E in T. discriminate.
Qed.

Lemma top_bit i : is_int i -> Z.testbit i 62 = (i <? 0).
Proof.
  intros Hi. destruct (Z.ltb_spec i 0).
  - replace i with (Z.lnot (- i - 1)) by (unfold Z.lnot; lia). rewrite Z.lnot_spec by lia.
    apply negb_true_iff. destruct (Z.eq_dec (- i - 1) 0) as [->|]; [apply Z.bits_0|].
    apply Z.bits_above_log2; [lia|]. apply Z.log2_lt_pow2; [lia|]. int.
  - destruct (Z.eq_dec i 0) as [->|]; [apply Z.bits_0|].
    apply Z.bits_above_log2; [lia|]. apply Z.log2_lt_pow2; [lia|]. int.
Qed.

Lemma mask_test i j : is_int i -> 0 <= j <= 62 ->
  (iand i (ishl 1 j) =? ishl 1 j) = Z.testbit i j.
Proof.
  intros Hi Hj. unfold ishl, iand. rewrite Z.mod_small by lia. rewrite Z.shiftl_1_l.
  destruct (Z.eq_dec j 62) as [->|N].
  - change (wrap (2 ^ 62)) with (-(2 ^ 62)). rewrite top_bit by auto.
    assert (X : Z.land i (- 2 ^ 62) = Z.shiftl (Z.shiftr i 62) 62).
    { rewrite <- Z.ldiff_ones_r by lia.
      change (- 2 ^ 62) with (Z.lnot (Z.ones 62)). apply Z.bits_inj'. intros k Hk.
      rewrite Z.land_spec, Z.ldiff_spec, Z.lnot_spec by auto. reflexivity. }
    rewrite X, Z.shiftr_div_pow2, Z.shiftl_mul_pow2 by lia.
    destruct (Z.ltb_spec i 0).
    + replace (i / 2 ^ 62) with (-1). { reflexivity. }
      change (2 ^ 62) with 4611686018427387904. int.
    + replace (i / 2 ^ 62) with 0. { reflexivity. } change (2 ^ 62) with 4611686018427387904. int.
  - rewrite wrap_id.
    + apply land_pow2. lia.
    + assert (0 < 2 ^ j <= 2 ^ 61) by (split; [apply Z.pow_pos_nonneg; lia|apply Z.pow_le_mono_r; lia]).
      change (2 ^ 61) with 2305843009213693952 in *. int.
Qed.

Definition bin_part (i : Z) (j : nat) : list Z :=
  (if Z.testbit i (Z.of_nat j) then [49] else [48]) ++
  (if Nat.eqb (Nat.modulo j 8) 0 && Nat.ltb 0 j then [194; 183] else []).

Lemma to_binary_loop_spec i : is_int i -> forall n buf c, (n <= 63)%nat -> holds buf c ->
  0 < len (buf_data buf) <= big -> len c + 3 * Z.of_nat n <= 1000 ->
  exists buf', to_binary_loop n i buf = Val buf' /\ holds buf' (c ++ flat_map (bin_part i) (rev (seq 0 n))) /\
    0 < len (buf_data buf') <= big.
Proof.
  intros Hi. induction n as [|j IH]; intros buf c Hn Hh Hl Hc.
  - exists buf. simpl. rewrite app_nil_r. auto.
  - cbn [to_binary_loop]. rewrite mask_test by (auto; lia).
    assert (Ed : str_byte [48; 49] (if Z.testbit i (Z.of_nat j) then 1 else 0) =
                 Val (if Z.testbit i (Z.of_nat j) then 49 else 48)) by (destruct (Z.testbit i (Z.of_nat j)); reflexivity).
    rewrite Ed. cbn [bind]. clear Ed.
    pose proof (len_nonneg c).
    destruct (buf_append_byte_spec buf c (if Z.testbit i (Z.of_nat j) then 49 else 48)) as (b1 & E1 & H1 & L1);
      auto; try (unfold big; lia).
    rewrite E1. cbn [bind]. rewrite mod_spec by (try lia; int). cbn [bind].
    set (bit := (if Z.testbit i (Z.of_nat j) then [49] else [48])).
    assert (Eb : c ++ [(if Z.testbit i (Z.of_nat j) then 49 else 48) mod 256] = c ++ bit)
      by (unfold bit; destruct (Z.testbit i (Z.of_nat j)); reflexivity).
    rewrite Eb in H1. clear Eb.
    assert (Lb : len bit = 1) by (unfold bit; destruct (Z.testbit i (Z.of_nat j)); reflexivity).
    assert (Es : (Z.of_nat j >? 0) && (Z.rem (Z.of_nat j) 8 =? 0) = Nat.eqb (Nat.modulo j 8) 0 && Nat.ltb 0 j).
    { rewrite andb_comm. f_equal.
      - rewrite Z.rem_mod_nonneg by lia. change 8 with (Z.of_nat 8) at 1. rewrite <- Nat2Z.inj_mod. destruct (Nat.eqb_spec (Nat.modulo j 8) 0); [apply Z.eqb_eq|apply Z.eqb_neq]; lia.
      - rewrite Z.gtb_ltb. destruct (Nat.ltb_spec 0 j); [apply Z.ltb_lt|apply Z.ltb_ge]; lia. }
    rewrite Es. rewrite seq_S, rev_app_distr. cbn [rev app Nat.add flat_map].
    unfold bin_part at 1. fold bit.
    destruct (Nat.eqb (Nat.modulo j 8) 0 && Nat.ltb 0 j).
    + destruct (buf_append_spec b1 (c ++ bit) [194; 183]) as (b2 & E2 & H2 & L2); auto.
      * repeat constructor; lia.
      * unfold big in *; lia.
      * rewrite len_app, Lb. change (len [194; 183]) with 2. unfold big; lia.
      * rewrite E2. cbn [bind].
        destruct (IH b2 ((c ++ bit) ++ [194; 183])) as (b3 & E3 & H3 & L3); auto.
        -- lia.
        -- rewrite len_app, Lb in L2. change (len [194; 183]) with 2 in L2. unfold big in *; lia.
        -- rewrite !len_app, Lb. change (len [194; 183]) with 2. lia.
        -- exists b3. rewrite <- !app_assoc in H3. rewrite <- app_assoc. auto.
    + cbn [bind]. destruct (IH b1 (c ++ bit)) as (b3 & E3 & H3 & L3); auto.
      * lia.
      * unfold big in *; lia.
      * rewrite len_app, Lb. lia.
      * exists b3. rewrite app_nil_r. rewrite <- app_assoc in H3. auto.
Qed.

Lemma to_binary_spec i : is_int i -> to_binary i = Val (binary_text i).
Proof.
  intros Hi. unfold to_binary. destruct (new_buffer_spec 77) as (b & E & Hh & L); [lia|].
  rewrite E. cbn [bind].
  destruct (to_binary_loop_spec i Hi 63 b []) as (b' & E' & H' & L'); auto.
  - unfold big; lia.
  - rewrite len_nil. lia.
  - rewrite E'. cbn [bind]. apply buf_to_string_spec; [exact H'|lia].
Qed.
