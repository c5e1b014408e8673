(** Headers, and words that may be pointers. *)
From Coq Require Import ZArith List Bool Lia.
From Verif Require Import Ints X86 GenModel GenSpec GenMem GcModel GcSpec.
Import ListNotations.
Open Scope Z_scope.
Ltac Zify.zify_post_hook ::= Z.div_mod_to_equations.

Lemma land_1 v : Z.land v 1 = v mod 2.
Proof. change 1 with (Z.ones 1) at 1. rewrite Z.land_ones by lia. reflexivity. Qed.
Lemma land_2 v : Z.land v 2 = Z.land (v mod 4) 2.
Proof. change 2 with (Z.land 3 2) at 1. rewrite Z.land_assoc. change 3 with (Z.ones 2). rewrite Z.land_ones by lia. reflexivity. Qed.
Lemma land_7 v : Z.land v 7 = v mod 8.
Proof. change 7 with (Z.ones 3). rewrite Z.land_ones by lia. reflexivity. Qed.

Lemma header_split id ro m : header_of id ro m = 4 * (id * 35184372088832) + (if ro then 2 else 0) + (if m then 1 else 0).
Proof. unfold header_of. change (2 ^ 47) with 140737488355328. lia. Qed.
Lemma header_int id ro m : 0 <= id < 2 ^ 15 -> is_int (header_of id ro m).
Proof.
  change (2 ^ 15) with 32768. intros H. rewrite header_split. unfold is_int, int_min, int_max. destruct ro, m; lia.
Qed.
Lemma marked_header id ro m : marked (header_of id ro m) = m.
Proof. unfold marked, iand. rewrite land_1, header_split. destruct m; destruct ro; apply Z.eqb_eq || apply Z.eqb_neq; lia. Qed.
Lemma read_only_header_of id ro m : read_only (header_of id ro m) = ro.
Proof.
  unfold read_only, iand. rewrite land_2, header_split.
  replace ((4 * (id * 35184372088832) + (if ro then 2 else 0) + (if m then 1 else 0)) mod 4) with ((if ro then 2 else 0) + (if m then 1 else 0)) by (destruct ro, m; lia).
  destruct ro, m; reflexivity.
Qed.
Lemma type_id_shift v : type_id v = v / 140737488355328.
Proof.
  unfold type_id, iand, ishr. replace (ishl 65535 47) with (Z.lnot (Z.ones 47)) by reflexivity.
  rewrite <- Z.ldiff_land, Z.ldiff_ones_r by lia. change (47 mod 64) with 47. rewrite Z.shiftr_shiftl_l by lia.
  change (47 - 47) with 0. rewrite Z.shiftl_0_r, Z.shiftr_div_pow2 by lia. reflexivity.
Qed.
Lemma type_id_header id ro m : type_id (header_of id ro m) = id.
Proof. rewrite type_id_shift. unfold header_of. change (2 ^ 47) with 140737488355328. destruct ro, m; lia. Qed.
Lemma with_mark_header id ro : with_mark (header_of id ro false) = header_of id ro true.
Proof.
  unfold with_mark, ior. rewrite !header_split.
  replace (4 * (id * 35184372088832) + (if ro then 2 else 0) + 0) with (2 * (2 * (id * 35184372088832) + (if ro then 1 else 0))) by (destruct ro; lia).
  rewrite lor_even_1. destruct ro; lia.
Qed.
Lemma without_mark_header id ro : without_mark (header_of id ro true) = header_of id ro false.
Proof.
  unfold without_mark, iand, inot. rewrite <- Z.ldiff_land. change 1 with (Z.ones 1). rewrite Z.ldiff_ones_r by lia.
  rewrite Z.shiftr_div_pow2, Z.shiftl_mul_pow2 by lia. change (2 ^ 1) with 2. rewrite !header_split. destruct ro; lia.
Qed.
Lemma new_header_of id : 0 <= id < 2 ^ 15 -> new_header id = header_of id false false.
Proof.
  intros H. pose proof (header_int id false false H) as I. unfold new_header, ishl. change (47 mod 64) with 47.
  rewrite Z.shiftl_mul_pow2 by lia. unfold header_of in *. change (2 ^ 47) with 140737488355328 in *.
  rewrite wrap_id; [lia|]. unfold is_int in *. lia.
Qed.
Lemma read_only_header_is id : 0 <= id < 2 ^ 15 -> read_only_header id = header_of id true false.
Proof.
  intros H. unfold read_only_header. change (ishl id 47) with (new_header id). rewrite new_header_of by exact H. unfold ior.
  assert (L : Z.land (header_of id false false) 2 = 0).
  { rewrite land_2, header_split. replace ((4 * (id * 35184372088832) + 0 + 0) mod 4) with 0 by lia. reflexivity. }
  rewrite <- Z.lxor_lor by exact L. rewrite <- Z.add_nocarry_lxor by exact L. unfold header_of. lia.
Qed.

Lemma is_real_spec w : is_real w = true <-> maybe_pointer w.
Proof.
  unfold is_real, to_tagged_int, maybe_pointer. replace (w + w + 1) with (2 * w + 1) by lia. fold (wint w). rewrite ival_wint.
  unfold iand. rewrite land_7, andb_true_iff, Z.eqb_eq, Z.gtb_lt. unfold wrap. change (2 ^ 63) with 9223372036854775808. change (2 ^ 62) with 4611686018427387904. lia.
Qed.
