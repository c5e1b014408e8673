(** Lemmas about words and memory of the machine model. *)
From Coq Require Import ZArith Lia Bool List.
From Verif Require Import Ints X86 GenModel GenSpec.
Import ListNotations.
Open Scope Z_scope.
Ltac Zify.zify_post_hook ::= Z.div_mod_to_equations.
Local Arguments Z.mul : simpl never. Local Arguments Z.add : simpl never.

(* --------------------------------------------------------------------------- words *)

Definition is_word (z : Z) : Prop := 0 <= z < W.

Lemma word_range z : is_word (word z).
Proof. unfold is_word, word. lia. Qed.
Lemma word_id z : is_word z -> word z = z.
Proof. unfold is_word, word. lia. Qed.
Lemma word_word z : word (word z) = word z.
Proof. unfold word. apply Z.mod_mod. lia. Qed.
Lemma word_signed z : word (signed z) = word z.
Proof. unfold signed, word. destruct (_ <? _) eqn:E; lia. Qed.
Lemma signed_word z : signed (word z) = signed z.
Proof. unfold signed. now rewrite word_word. Qed.
Lemma signed_range z : - W63 <= signed z < W63.
Proof. unfold signed, word. destruct (_ <? _) eqn:E; lia. Qed.
Lemma signed_small z : - W63 <= z < W63 -> signed z = z.
Proof. unfold signed, word. intros H. destruct (_ <? _) eqn:E; lia. Qed.
Lemma word_add_l a b : word (word a + b) = word (a + b).
Proof. unfold word. apply Zplus_mod_idemp_l. Qed.
Lemma word_add_r a b : word (a + word b) = word (a + b).
Proof. unfold word. apply Zplus_mod_idemp_r. Qed.
Lemma word_cong a b : (exists k, a = b + k * W) -> word a = word b.
Proof. intros [k ->]. unfold word. apply Z_mod_plus_full. Qed.
Lemma word_ex a : exists k, word a = a + k * W.
Proof. unfold word. exists (- (a / W)). lia. Qed.

Lemma ival_range w : - 4611686018427387904 <= ival w < 4611686018427387904.
Proof. unfold ival. pose proof (signed_range w). lia. Qed.
Lemma ival_is_int w : is_int (ival w).
Proof. unfold is_int, int_min, int_max. pose proof (ival_range w). lia. Qed.
Lemma signed_ival w : signed (word (ival w)) = ival w.
Proof. rewrite signed_word. apply signed_small. pose proof (ival_range w). lia. Qed.

Lemma sar1 a : w_sar a 1 = word (ival a).
Proof. unfold w_sar, ival. change (1 mod 64) with 1. now rewrite Z.shiftr_div_pow2 by lia. Qed.

Lemma word_ones z : word z = Z.land z (Z.ones 64).
Proof. rewrite Z.land_ones by lia. reflexivity. Qed.

Lemma lor_even_1 x : Z.lor (2 * x) 1 = 2 * x + 1.
Proof.
  apply Z.bits_inj'. intros n Hn. rewrite Z.lor_spec.
  destruct (Z.eq_dec n 0) as [->|Hn0].
  - rewrite Z.bit0_odd, Z.bit0_odd. rewrite Z.testbit_odd_0. now rewrite Z.odd_mul.
  - replace n with (Z.succ (n - 1)) by lia.
    rewrite Z.testbit_even_succ, Z.testbit_odd_succ by lia.
    change 1 with (2 * 0 + 1) at 2. rewrite Z.testbit_odd_succ by lia.
    now rewrite Z.bits_0, orb_false_r.
Qed.

(** The code of tagAs. *)
Lemma tag_spec x : word (Z.lor (w_shl x 1) (word 1)) = wint x.
Proof.
  unfold w_shl, wint. change (1 mod 64) with 1. change (word 1) with 1.
  rewrite Z.shiftl_mul_pow2 by lia. change (2 ^ 1) with 2.
  replace (word (x * 2)) with (2 * (x mod W63)) by (unfold word; lia).
  rewrite lor_even_1. apply word_cong. exists (- (x / W63)). lia.
Qed.

Lemma wint_cong a b : (exists k, a = b + k * W63) -> wint a = wint b.
Proof. intros [k ->]. unfold wint. apply word_cong. exists k. lia. Qed.
Lemma wint_range n : is_word (wint n).
Proof. apply word_range. Qed.
Lemma wint_word n : wint (word n) = wint n.
Proof. apply wint_cong. destruct (word_ex n) as [k E]. exists (2 * k). lia. Qed.
Lemma wint_wrap n : wint (wrap n) = wint n.
Proof. apply wint_cong. destruct (wrap_cong n) as [k E]. exists k. lia. Qed.

Lemma ival_wint n : ival (wint n) = wrap n.
Proof.
  unfold ival, wint. rewrite signed_word.
  symmetry. apply wrap_unique.
  - pose proof (ival_is_int (2 * n + 1)). exact H.
  - assert (exists k, signed (2 * n + 1) = 2 * n + 1 + k * W) as [k ->].
    { unfold signed, word. destruct (_ <? _); [exists (- ((2 * n + 1) / W))|exists (- ((2 * n + 1) / W) - 1)]; lia. }
    exists k. lia.
Qed.

Lemma land_word a b : Z.land (word a) (word b) = word (Z.land a b).
Proof.
  rewrite !word_ones. apply Z.bits_inj'. intros n _. rewrite !Z.land_spec.
  destruct (Z.testbit a n), (Z.testbit b n), (Z.testbit (Z.ones 64) n); reflexivity.
Qed.
Lemma lor_word a b : Z.lor (word a) (word b) = word (Z.lor a b).
Proof.
  rewrite !word_ones. apply Z.bits_inj'. intros n _. rewrite !Z.land_spec, !Z.lor_spec, !Z.land_spec.
  destruct (Z.testbit a n), (Z.testbit b n), (Z.testbit (Z.ones 64) n); reflexivity.
Qed.
Lemma lxor_word a b : Z.lxor (word a) (word b) = word (Z.lxor a b).
Proof.
  rewrite !word_ones. apply Z.bits_inj'. intros n _. rewrite !Z.land_spec, !Z.lxor_spec, !Z.land_spec.
  destruct (Z.testbit a n), (Z.testbit b n), (Z.testbit (Z.ones 64) n); reflexivity.
Qed.

(** The instruction of each arithmetic operator, on untagged operands. *)
Definition arith_fun (op : arith_op) : Z -> Z -> Z :=
  match op with
  | Add => Z.add | Sub => Z.sub | Mul => Z.mul | Div => fun _ _ => 0
  | BOr => Z.lor | BAnd => Z.land | BXor => Z.lxor
  end.
Lemma arith_spec op a b : op <> Div ->
  exists c, sem_arith op (ival a) (ival b) = Some c /\
  wint (word (arith_fun op (word (ival a)) (word (ival b)))) = wint c.
Proof.
  intros Hop. destruct op; try (now elim Hop); eexists; (split; [reflexivity|]); cbn [arith_fun];
    unfold iadd, isub, imul, ior, iand, ixor;
    rewrite ?wint_wrap, ?land_word, ?lor_word, ?lxor_word, ?wint_word; try reflexivity.
  - apply wint_cong. destruct (word_ex (ival a)) as [k ->], (word_ex (ival b)) as [j ->]. exists (2 * k + 2 * j). lia.
  - apply wint_cong. destruct (word_ex (ival a)) as [k ->], (word_ex (ival b)) as [j ->]. exists (2 * k - 2 * j). lia.
  - apply wint_cong. destruct (word_ex (ival a)) as [k ->], (word_ex (ival b)) as [j ->].
    exists (2 * (ival a * j + k * ival b + k * j * W)). lia.
Qed.

Lemma not_spec a : word (Z.lor (word (Z.lnot a)) (word 1)) = wint (inot (ival a)).
Proof.
  change (word 1) with 1. unfold inot.
  unfold ival.
  assert (Ha : exists j, signed a = a + j * W).
  { unfold signed, word. destruct (_ <? _); [exists (- (a / W))|exists (- (a / W) - 1)]; lia. }
  destruct Ha as [j Hj].
  set (q := signed a / 2). set (t := signed a mod 2).
  assert (Ht : t = 0 \/ t = 1) by (unfold t; lia).
  assert (Hs : signed a = 2 * q + t) by (unfold q, t; lia).
  assert (Hw : word (Z.lnot a) = 2 * (word (Z.lnot a) / 2) + (1 - t)).
  { pose proof (Z.lnot_spec a 0). unfold Z.lnot, word, Z.pred in *. destruct Ht as [Ht|Ht]; rewrite Ht in *; lia. }
  assert (Hq : exists k, word (Z.lnot a) / 2 = Z.lnot q + k * W63).
  { destruct (word_ex (Z.lnot a)) as [k Hk]. exists (k + j). unfold Z.lnot, Z.pred in *. destruct Ht as [Ht|Ht]; rewrite Ht in *; lia. }
  destruct Hq as [k Hq].
  assert (Hl : Z.lor (word (Z.lnot a)) 1 = 2 * (word (Z.lnot a) / 2) + 1).
  { rewrite Hw at 1. destruct Ht as [-> | ->].
    - replace (2 * (word (Z.lnot a) / 2) + (1 - 0)) with (2 * (word (Z.lnot a) / 2) + 1) by lia.
      rewrite <- lor_even_1. rewrite <- Z.lor_assoc. reflexivity.
    - replace (2 * (word (Z.lnot a) / 2) + (1 - 1)) with (2 * (word (Z.lnot a) / 2)) by lia.
      apply lor_even_1. }
  rewrite Hl, Hq. unfold wint. apply word_cong. exists k. lia.
Qed.

Lemma neg_spec a : wint (word (- word (ival a))) = wint (ineg (ival a)).
Proof.
  unfold ineg. rewrite wint_wrap, wint_word. apply wint_cong.
  destruct (word_ex (ival a)) as [k ->]. exists (-2 * k). lia.
Qed.

Lemma div_spec a b q : idiv (ival a) (ival b) = Some q ->
  forall rs, rs rax = word (ival a) -> rs rdx = (if signed (word (ival a)) <? 0 then W - 1 else 0) ->
  exists x, idiv_quot rs (word (ival b)) = Some x /\ wint (word x) = wint q.
Proof.
  intros Hd rs Ha Hx. unfold idiv in Hd. destruct (ival b =? 0) eqn:Eb; [discriminate|].
  injection Hd as <-. rewrite wint_wrap.
  unfold idiv_quot. rewrite Ha, Hx, !signed_ival, word_word.
  assert (E : signed (if ival a <? 0 then W - 1 else 0) * W + word (ival a) = ival a).
  { pose proof (ival_range a). destruct (ival a <? 0) eqn:En.
    - rewrite (proj2 (Z.eqb_eq _ _) eq_refl : (signed (W - 1) =? -1) = true) || change (signed (W - 1)) with (-1).
      unfold word. lia.
    - change (signed 0) with 0. unfold word. lia. }
  rewrite E. rewrite Eb. cbn [orb].
  assert (Hr : - W63 <= Z.quot (ival a) (ival b) < W63).
  { pose proof (ival_range a) as Hra. pose proof (Z.quot_abs (ival a) (ival b) ltac:(lia)) as H1.
    assert (Z.abs (ival a) / Z.abs (ival b) <= Z.abs (ival a)).
    { apply Z.div_le_upper_bound; [lia|]. assert (1 <= Z.abs (ival b)) by lia.
      assert (0 <= Z.abs (ival a)) by lia. nia. }
    rewrite Z.quot_div_nonneg in H1 by lia. lia. }
  exists (Z.quot (ival a) (ival b)). generalize dependent (Z.quot (ival a) (ival b)). intros q Hr.
  split; [|apply wint_word]. clear - Hr.
  destruct (q <? - W63) eqn:E1; [lia|]. destruct (W63 <=? q) eqn:E2; [lia|]. reflexivity.
Qed.

Lemma shift_spec op a b :
  wint (match op with BLeft => w_shl | BRight => w_sar end (word (ival a)) (word (word (ival b)) mod 256)) =
  wint (sem_shift op (ival a) (ival b)).
Proof.
  assert (Hm : word (word (ival b)) mod 256 mod 64 = ival b mod 64).
  { rewrite word_word. unfold word. lia. }
  destruct op; cbn [sem_shift]; unfold w_shl, w_sar, ishl, ishr; rewrite Hm, wint_word.
  - rewrite wint_wrap. rewrite !Z.shiftl_mul_pow2 by lia.
    destruct (word_ex (ival a)) as [k ->]. apply wint_cong.
    exists (2 * k * 2 ^ (ival b mod 64)). lia.
  - now rewrite signed_ival.
Qed.

Definition cmp_fun (op : cmp_op) : Z -> Z -> bool :=
  match op with
  | Gt => fun d s => signed s <? signed d
  | Gte => fun d s => signed s <=? signed d
  | Lt => fun d s => signed d <? signed s
  | Lte => fun d s => signed d <=? signed s
  | Eq => fun d s => d =? s
  end.
Lemma cmp_spec op a b : cmp_fun op (word (ival a)) (word (ival b)) = sem_cmp op (ival a) (ival b).
Proof.
  destruct op; cbn [cmp_fun sem_cmp]; rewrite ?signed_ival; try (rewrite ?Z.gtb_ltb, ?Z.geb_leb; reflexivity).
  pose proof (ival_range a). pose proof (ival_range b). unfold word. lia.
Qed.

(* -------------------------------------------------------------------------- memory *)

Lemma load_range m a : is_word (load m a).
Proof.
  unfold is_word, load.
  pose proof (Z.mod_pos_bound (m a) 256). pose proof (Z.mod_pos_bound (m (a + 1)) 256).
  pose proof (Z.mod_pos_bound (m (a + 2)) 256). pose proof (Z.mod_pos_bound (m (a + 3)) 256).
  pose proof (Z.mod_pos_bound (m (a + 4)) 256). pose proof (Z.mod_pos_bound (m (a + 5)) 256).
  pose proof (Z.mod_pos_bound (m (a + 6)) 256). pose proof (Z.mod_pos_bound (m (a + 7)) 256).
  generalize dependent (m a mod 256). generalize dependent (m (a + 1) mod 256).
  generalize dependent (m (a + 2) mod 256). generalize dependent (m (a + 3) mod 256).
  generalize dependent (m (a + 4) mod 256). generalize dependent (m (a + 5) mod 256).
  generalize dependent (m (a + 6) mod 256). generalize dependent (m (a + 7) mod 256).
  intros. lia.
Qed.

Lemma store_other m a v x : x < a \/ a + 8 <= x -> store m a v x = m x.
Proof. unfold store. intros H. destruct (_ && _) eqn:E; [lia|reflexivity]. Qed.

Lemma store_in m a v i : 0 <= i < 8 -> store m a v (a + i) = byte_of v i.
Proof.
  intros H. unfold store. destruct (_ && _) eqn:E; [|lia]. f_equal. lia.
Qed.

Lemma load_store_same m a v : load (store m a v) a = word v.
Proof.
  unfold load.
  assert (H0 : store m a v a = byte_of v 0).
  { replace a with (a + 0) at 2 by lia. apply store_in. lia. }
  rewrite H0, !store_in by lia. unfold byte_of, word.
  change (2 ^ (8 * 0)) with 1. change (2 ^ (8 * 1)) with 256. change (2 ^ (8 * 2)) with 65536.
  change (2 ^ (8 * 3)) with 16777216. change (2 ^ (8 * 4)) with 4294967296.
  change (2 ^ (8 * 5)) with 1099511627776. change (2 ^ (8 * 6)) with 281474976710656.
  change (2 ^ (8 * 7)) with 72057594037927936.
  rewrite Z.div_1_r. rewrite !Z.mod_mod by lia.
  replace (v / 65536) with (v / 256 / 256) by (rewrite Z.div_div by lia; reflexivity).
  replace (v / 16777216) with (v / 256 / 256 / 256) by (rewrite !Z.div_div by lia; reflexivity).
  replace (v / 4294967296) with (v / 256 / 256 / 256 / 256) by (rewrite !Z.div_div by lia; reflexivity).
  replace (v / 1099511627776) with (v / 256 / 256 / 256 / 256 / 256) by (rewrite !Z.div_div by lia; reflexivity).
  replace (v / 281474976710656) with (v / 256 / 256 / 256 / 256 / 256 / 256) by (rewrite !Z.div_div by lia; reflexivity).
  replace (v / 72057594037927936) with (v / 256 / 256 / 256 / 256 / 256 / 256 / 256) by (rewrite !Z.div_div by lia; reflexivity).
  set (v1 := v / 256). set (v2 := v1 / 256). set (v3 := v2 / 256). set (v4 := v3 / 256).
  set (v5 := v4 / 256). set (v6 := v5 / 256). set (v7 := v6 / 256).
  assert (E : forall x, x mod 256 = x - 256 * (x / 256)) by (intros; lia).
  rewrite !E. fold v1 v2 v3 v4 v5 v6 v7. set (v8 := v7 / 256).
  replace (v mod W) with (v - W * v8).
  2:{ assert (v8 = v / W).
      { unfold v8, v7, v6, v5, v4, v3, v2, v1. rewrite !Z.div_div by lia. reflexivity. }
      subst v8. rewrite H. lia. }
  lia.
Qed.

Lemma load_ext m m' a : (forall i, 0 <= i < 8 -> m (a + i) = m' (a + i)) -> load m a = load m' a.
Proof.
  intros H. unfold load. pose proof (H 0 ltac:(lia)) as H0. rewrite Z.add_0_r in H0.
  rewrite H0. rewrite !H by lia. reflexivity.
Qed.

Lemma load_store_other m a b v : a + 8 <= b \/ b + 8 <= a -> load (store m a v) b = load m b.
Proof. intros H. apply load_ext. intros i Hi. apply store_other. lia. Qed.

Lemma load_same_on (lo hi : Z) m m' a : (forall x, lo <= x < hi -> m' x = m x) ->
  lo <= a -> a + 8 <= hi -> load m' a = load m a.
Proof. intros H H1 H2. apply load_ext. intros i Hi. apply H. lia. Qed.
