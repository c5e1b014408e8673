(** Proofs about strings, buffers, numbers, options and lists. *)
From Coq Require Import ZArith List Bool Lia.
From Verif Require Import Ints LibModel LibSpec.
Import ListNotations.
Open Scope Z_scope.
Ltac Zify.zify_post_hook ::= Z.div_mod_to_equations.

Lemma len_nonneg {A} (l : list A) : 0 <= len l.
Proof. unfold len. lia. Qed.
Lemma len_app {A} (a b : list A) : len (a ++ b) = len a + len b.
Proof. unfold len. rewrite app_length. lia. Qed.
Lemma len_cons {A} (x : A) l : len (x :: l) = len l + 1.
Proof. unfold len. simpl. lia. Qed.
Lemma len_nil {A} : len (@nil A) = 0. Proof. reflexivity. Qed.

Ltac int := unfold is_int, int_min, int_max in *; try lia.

Lemma iadd_id a b : is_int (a + b) -> iadd a b = a + b.
Proof. apply wrap_id. Qed.
Lemma isub_id a b : is_int (a - b) -> isub a b = a - b.
Proof. apply wrap_id. Qed.
Lemma imul_id a b : is_int (a * b) -> imul a b = a * b.
Proof. apply wrap_id. Qed.

(* ------------------------------------------------------------ upd and nth *)

Lemma upd_length {A} (l : list A) : forall n v, length (upd l n v) = length l.
Proof. induction l; intros [|n] v; simpl; auto. Qed.

Lemma upd_app {A} (pre : list A) x post v : upd (pre ++ x :: post) (length pre) v = pre ++ v :: post.
Proof. induction pre; simpl; congruence. Qed.

Lemma upd_nth {A} (l : list A) : forall n m v d, (n < length l)%nat ->
  nth m (upd l n v) d = if Nat.eqb m n then v else nth m l d.
Proof.
  induction l as [|x l IH]; intros [|n] [|m] v d H; simpl in *; try lia; auto.
  apply IH. lia.
Qed.

Lemma split_at {A} (l : list A) n : (n < length l)%nat -> exists pre x post, l = pre ++ x :: post /\ length pre = n.
Proof.
  intros H. exists (firstn n l). destruct (skipn n l) as [|x post] eqn:E.
  - assert (length (skipn n l) = 0%nat) by (rewrite E; auto). rewrite skipn_length in H0. lia.
  - exists x, post. rewrite <- E, firstn_skipn. split; auto. apply firstn_length_le. lia.
Qed.

(* ------------------------------------------------------------ bytes *)

Lemma get_in b i : 0 <= i < len b -> bytes_get b i = Val (sign8 (nth (Z.to_nat i) b 0)).
Proof.
  intros H. unfold bytes_get, assert_, read_byte.
  destruct (Z.ltb_spec i (len b)); [|lia]. destruct (Z.ltb_spec i 0); [lia|]. reflexivity.
Qed.

Lemma get_pre pre x post i : i = len pre -> bytes_get (pre ++ x :: post) i = Val (sign8 x).
Proof.
  intros ->. rewrite get_in. 2:{ rewrite len_app, len_cons. pose proof (len_nonneg pre). pose proof (len_nonneg post). lia. }
  unfold len. rewrite Nat2Z.id, app_nth2, Nat.sub_diag by lia. reflexivity.
Qed.

Lemma byte_pre pre x post i : i = len pre -> str_byte (pre ++ x :: post) i = Val (sign8 x).
Proof. apply get_pre. Qed.

Lemma set_pre pre x post i v : i = len pre ->
  bytes_set (pre ++ x :: post) i v = Val (pre ++ (v mod 256) :: post).
Proof.
  intros ->. unfold bytes_set, assert_, write_byte.
  pose proof (len_nonneg pre). pose proof (len_nonneg post).
  destruct (Z.ltb_spec (len pre) (len (pre ++ x :: post))) as [_|L]; [|rewrite len_app, len_cons in L; lia].
  destruct (Z.ltb_spec (len pre) 0); [lia|]. unfold len. rewrite Nat2Z.id, upd_app. reflexivity.
Qed.

Lemma sign8_mod b : 0 <= b < 256 -> sign8 b mod 256 = b.
Proof. unfold sign8. intros H. destruct (Z.ltb_spec b 128); lia. Qed.

Lemma sign8_inj a b : 0 <= a < 256 -> 0 <= b < 256 -> sign8 a = sign8 b -> a = b.
Proof. unfold sign8. intros. destruct (Z.ltb_spec a 128), (Z.ltb_spec b 128); lia. Qed.

Lemma sign8_spec v : -128 <= sign8 (v mod 256) < 128 /\ exists k, sign8 (v mod 256) = v + k * 256.
Proof.
  unfold sign8. destruct (Z.ltb_spec (v mod 256) 128); split; try lia.
  - exists (- (v / 256)). lia.
  - exists (- (v / 256) - 1). lia.
Qed.

Lemma bytes_get_set b i v : 0 <= i < len b -> exists b', bytes_set b i v = Val b' /\
  len b' = len b /\
  (exists r, bytes_get b' i = Val r /\ -128 <= r < 128 /\ exists k, r = v + k * 256) /\
  (forall j, 0 <= j -> j <> i -> bytes_get b' j = bytes_get b j).
Proof.
  intros H. destruct (split_at b (Z.to_nat i)) as (pre & x & post & -> & Hp).
  { unfold len in H. lia. }
  assert (Ei : i = len pre) by (unfold len; lia).
  rewrite (set_pre _ _ _ _ _ Ei). eexists. split; [reflexivity|]. split; [|split].
  - rewrite !len_app, !len_cons. reflexivity.
  - rewrite get_pre by auto. eexists. split; [reflexivity|]. apply sign8_spec.
  - intros j Hj Hne. unfold bytes_get. rewrite !len_app, !len_cons. unfold assert_.
    destruct (j <? _); auto. unfold read_byte. destruct (j <? 0); auto. do 2 f_equal.
    assert (Hn : Z.to_nat j <> length pre) by (unfold len in *; lia).
    destruct (Nat.lt_ge_cases (Z.to_nat j) (length pre)).
    + rewrite !app_nth1 by auto. reflexivity.
    + rewrite !app_nth2 by auto. destruct (Z.to_nat j - length pre)%nat eqn:E; [lia|]. reflexivity.
Qed.

(* ------------------------------------------------------------ copying *)

Lemma copy_array_spec : forall fuel spre s spost dpre d dpost sp dp,
  byte_list s -> length s = length d ->
  sp = len spre -> dp = len dpre -> (length d < fuel)%nat ->
  is_int (len (spre ++ s ++ spost)) -> is_int (len (dpre ++ d ++ dpost)) ->
  (spost = [] \/ dpost = []) ->
  copy_array_f fuel (spre ++ s ++ spost) sp (dpre ++ d ++ dpost) dp = Val (dpre ++ s ++ dpost).
Proof.
  induction fuel as [|f IH]; intros spre s spost dpre d dpost sp dp Hb Hl Hs Hd Hf Hi1 Hi2 Hend; [lia|].
  simpl. destruct s as [|x s], d as [|y d]; try discriminate.
  - simpl app. rewrite !len_app.
    destruct Hend as [->| ->].
    + rewrite len_nil, Z.add_0_r. destruct (Z.eqb_spec (len spre) sp); [|lia]. reflexivity.
    + rewrite (len_nil), Z.add_0_r. destruct (Z.eqb_spec (len dpre) dp); [|lia].
      rewrite orb_true_r. reflexivity.
  - simpl app.
    assert (L1 : len (spre ++ x :: s ++ spost) = len spre + 1 + len (s ++ spost)) by (rewrite len_app, len_cons; lia).
    assert (L2 : len (dpre ++ y :: d ++ dpost) = len dpre + 1 + len (d ++ dpost)) by (rewrite len_app, len_cons; lia).
    pose proof (len_nonneg (s ++ spost)). pose proof (len_nonneg (d ++ dpost)).
    pose proof (len_nonneg spre). pose proof (len_nonneg dpre).
    destruct (Z.eqb_spec (len (spre ++ x :: s ++ spost)) sp); [lia|].
    destruct (Z.eqb_spec (len (dpre ++ y :: d ++ dpost)) dp); [lia|]. simpl orb. cbv iota.
    rewrite get_pre by auto. simpl bind. rewrite set_pre by auto. simpl bind.
    inversion Hb as [|? ? Hx Hb']; subst.
    rewrite sign8_mod by auto. simpl app in Hi1, Hi2. rewrite L1 in Hi1. rewrite L2 in Hi2.
    rewrite !iadd_id by int.
    replace (spre ++ x :: s ++ spost) with ((spre ++ [x]) ++ s ++ spost) by (rewrite <- app_assoc; reflexivity).
    replace (dpre ++ x :: d ++ dpost) with ((dpre ++ [x]) ++ d ++ dpost) by (rewrite <- app_assoc; reflexivity).
    rewrite IH; auto.
    + rewrite <- app_assoc. reflexivity.
    + rewrite len_app, len_cons, len_nil. lia.
    + rewrite len_app, len_cons, len_nil. lia.
    + simpl in Hf. lia.
    + rewrite !len_app, len_cons, len_nil in *. int.
    + rewrite !len_app, len_cons, len_nil in *. int.
Qed.

Lemma copy_string_spec : forall fuel spre s dpre d dpost sp dp,
  byte_list s -> length s = length d ->
  sp = len spre -> dp = len dpre -> (length d < fuel)%nat ->
  is_int (len (spre ++ s)) -> is_int (len (dpre ++ d ++ dpost)) ->
  copy_string_f fuel (spre ++ s) sp (dpre ++ d ++ dpost) dp = Val (dpre ++ s ++ dpost).
Proof.
  induction fuel as [|f IH]; intros spre s dpre d dpost sp dp Hb Hl Hs Hd Hf Hi1 Hi2; [lia|].
  simpl. destruct s as [|x s], d as [|y d]; try discriminate.
  - simpl app. rewrite app_nil_r. destruct (Z.ltb_spec sp (len spre)); [lia|]. reflexivity.
  - simpl app.
    assert (L1 : len (spre ++ x :: s) = len spre + 1 + len s) by (rewrite len_app, len_cons; lia).
    assert (L2 : len (dpre ++ y :: d ++ dpost) = len dpre + 1 + len (d ++ dpost)) by (rewrite len_app, len_cons; lia).
    pose proof (len_nonneg s). pose proof (len_nonneg (d ++ dpost)).
    pose proof (len_nonneg spre). pose proof (len_nonneg dpre).
    destruct (Z.ltb_spec sp (len (spre ++ x :: s))); [|lia].
    destruct (Z.ltb_spec dp (len (dpre ++ y :: d ++ dpost))); [|lia]. simpl andb. cbv iota.
    rewrite get_pre by auto. simpl bind. rewrite set_pre by auto. simpl bind.
    inversion Hb as [|? ? Hx Hb']; subst.
    rewrite sign8_mod by auto. simpl app in Hi2. rewrite L1 in Hi1. rewrite L2 in Hi2.
    rewrite !iadd_id by int.
    replace (spre ++ x :: s) with ((spre ++ [x]) ++ s) by (rewrite <- app_assoc; reflexivity).
    replace (dpre ++ x :: d ++ dpost) with ((dpre ++ [x]) ++ d ++ dpost) by (rewrite <- app_assoc; reflexivity).
    rewrite IH; auto.
    + rewrite <- app_assoc. reflexivity.
    + rewrite len_app, len_cons, len_nil. lia.
    + rewrite len_app, len_cons, len_nil. lia.
    + simpl in Hf. lia.
    + rewrite !len_app, len_cons, len_nil in *. int.
    + rewrite !len_app, len_cons, len_nil in *. int.
Qed.

Lemma repeat_split (n : nat) (z : Z) k : (k <= n)%nat -> repeat z n = repeat z k ++ repeat z (n - k).
Proof. intros H. rewrite <- repeat_app. f_equal. lia. Qed.

Lemma new_bytes_ok n : 0 <= n -> new_bytes n = Val (repeat 0 (Z.to_nat n)).
Proof. intros H. unfold new_bytes. destruct (Z.ltb_spec n 0); [lia|reflexivity]. Qed.

Lemma len_repeat {A} (x : A) n : len (repeat x n) = Z.of_nat n.
Proof. unfold len. rewrite repeat_length. reflexivity. Qed.

(** toString of a part that lies inside the byte array. *)
Lemma to_string_slice pre r post pos n : byte_list r -> is_int (len (pre ++ r ++ post)) ->
  pos = len pre -> n = len r ->
  bytes_to_string (pre ++ r ++ post) pos n = Val r.
Proof.
  intros Hb Hi -> ->. unfold bytes_to_string. pose proof (len_nonneg r).
  destruct (Z.ltb_spec (len r) 0); [lia|].
  rewrite new_bytes_ok by auto. unfold bind. unfold len at 2. rewrite Nat2Z.id.
  unfold copy_array.
  pose proof (copy_array_spec (S (length (repeat 0 (length r)))) pre r post [] (repeat 0 (length r)) [] (len pre) 0) as E.
  simpl app in E. rewrite !app_nil_r in E. apply E; auto.
  - rewrite repeat_length. reflexivity.
  - pose proof (len_nonneg pre). pose proof (len_nonneg post).
    rewrite len_repeat, !len_app in *. unfold len in *. int.
Qed.

(* ------------------------------------------------------------ strings *)

Lemma equals_loop_spec : forall n p1 s1 p2 s2 i,
  byte_list s1 -> byte_list s2 -> length s1 = n -> length s2 = n ->
  i = len p1 -> i = len p2 -> is_int (len (p1 ++ s1)) ->
  equals_loop n i (p1 ++ s1) (p2 ++ s2) = Val (if list_eq_dec Z.eq_dec s1 s2 then true else false).
Proof.
  induction n as [|n IH]; intros p1 s1 p2 s2 i H1 H2 L1 L2 E1 E2 Hi.
  - destruct s1, s2; try discriminate. reflexivity.
  - destruct s1 as [|x s1], s2 as [|y s2]; try discriminate. cbn [equals_loop].
    rewrite !byte_pre by auto. cbn [bind].
    inversion H1 as [|? ? Hx H1']; subst. inversion H2 as [|? ? Hy H2']; subst.
    destruct (Z.eqb_spec (sign8 x) (sign8 y)) as [E|E].
    + apply sign8_inj in E; auto. subst y.
      rewrite iadd_id by (rewrite len_app, len_cons in Hi; pose proof (len_nonneg p1); pose proof (len_nonneg s1); int).
      replace (p1 ++ x :: s1) with ((p1 ++ [x]) ++ s1) by (rewrite <- app_assoc; reflexivity).
      replace (p2 ++ x :: s2) with ((p2 ++ [x]) ++ s2) by (rewrite <- app_assoc; reflexivity).
      rewrite IH; auto.
      * destruct (list_eq_dec Z.eq_dec s1 s2), (list_eq_dec Z.eq_dec (x :: s1) (x :: s2)); congruence.
      * rewrite len_app, len_cons, len_nil. lia.
      * rewrite len_app, len_cons, len_nil. lia.
      * rewrite <- app_assoc. exact Hi.
    + destruct (list_eq_dec Z.eq_dec (x :: s1) (y :: s2)); [|reflexivity]. congruence.
Qed.

Lemma equals_spec s1 s2 : byte_list s1 -> byte_list s2 -> is_int (len s1) ->
  exists r, equals s1 s2 = Val r /\ (r = true <-> s1 = s2).
Proof.
  intros H1 H2 Hi. unfold equals. destruct (Z.eqb_spec (len s1) (len s2)) as [E|E]; simpl.
  - pose proof (equals_loop_spec (length s1) [] s1 [] s2 0) as X. simpl in X. rewrite X; auto.
    + eexists. split; [reflexivity|]. destruct (list_eq_dec Z.eq_dec s1 s2); split; congruence.
    + unfold len in E. lia.
  - exists false. split; auto. split; [discriminate|]. intros ->. contradiction.
Qed.

Lemma substring_spec s start end_ : byte_list s -> is_int (len s) ->
  0 <= start <= end_ -> end_ <= len s ->
  exists r, substring s start end_ = Val r /\ slice_of s start end_ r.
Proof.
  intros Hb Hi H1 H2.
  set (r := firstn (Z.to_nat (end_ - start)) (skipn (Z.to_nat start) s)).
  set (pre := firstn (Z.to_nat start) s). set (post := skipn (Z.to_nat (end_ - start)) (skipn (Z.to_nat start) s)).
  assert (E : s = pre ++ r ++ post) by (unfold pre, r, post; rewrite !firstn_skipn; reflexivity).
  assert (Lp : len pre = start) by (unfold pre, len in *; rewrite firstn_length; lia).
  assert (Lr : len r = end_ - start) by (unfold r, len in *; rewrite firstn_length, skipn_length; lia).
  exists r. split.
  - unfold substring. rewrite isub_id by int. rewrite E at 1. apply to_string_slice; auto.
    + rewrite E in Hb. apply Forall_app in Hb. destruct Hb as [_ Hb]. apply Forall_app in Hb. apply Hb.
    + rewrite <- E. auto.
  - exists pre, post. split; auto. split; auto. change (len (pre ++ r) = end_). rewrite len_app. lia.
Qed.

Lemma append_spec s1 s2 : byte_list s1 -> byte_list s2 -> is_int (len s1 + len s2) ->
  str_append s1 s2 = Val (s1 ++ s2).
Proof.
  intros H1 H2 Hi. unfold str_append. pose proof (len_nonneg s1). pose proof (len_nonneg s2).
  rewrite iadd_id, new_bytes_ok by (auto; lia). simpl bind.
  rewrite (repeat_split _ 0 (length s1)) by (unfold len; lia).
  unfold copy_string.
  pose proof (copy_string_spec (S (length s1)) [] s1 [] (repeat 0 (length s1))
    (repeat 0 (Z.to_nat (len s1 + len s2) - length s1)) 0 0) as E.
  simpl app in E. rewrite E; auto; clear E.
  - simpl bind.
    pose proof (copy_string_spec (S (length s2)) [] s2 s1 (repeat 0 (length s2)) [] 0 (len s1)) as E.
    simpl app in E. rewrite !app_nil_r in E.
    replace (Z.to_nat (len s1 + len s2) - length s1)%nat with (length s2) by (unfold len; lia).
    apply E; auto.
    + rewrite repeat_length. auto.
    + rewrite repeat_length. lia.
    + int.
    + rewrite len_app, len_repeat. unfold len in *. int.
  - rewrite repeat_length. auto.
  - rewrite repeat_length. lia.
  - int.
  - rewrite len_app, !len_repeat. unfold len in *. int.
Qed.
