(** Property C22: integer literals keep their value.  Statements use LitModel (the code),
    LitSpec, and GenSpec's words and interpreter. *)
From Coq Require Import ZArith List Bool String Lia.
From Verif Require Import Ints X86 GenModel GenSpec GenMem LitModel LitSpec LitProofs.
From Verif Require LexSpec.
Import ListNotations.
Open Scope Z_scope.
Notation text := LexSpec.text.

(* ------------------------------------------------------------------------ C22 *)

(** Folding and the overflow check, for every tree: no error is reported exactly when
    every number, with its minus sign, fits into 64 bits; then the folded tree with the
    numbers that code generation loads means what the source tree means with the numbers
    that are written, whatever the other nodes do, where minus a literal is the literal
    of the opposite number (as in 63-bit arithmetic). *)
Theorem C22_folding_keeps_meaning : forall n v, stands_for n v ->
  (snd (fold n) = [] <-> fits v) /\
  forall n', fold n = (n', []) ->
  forall (D : Type) (lit : Z -> D) (neg : D -> D) (other : nat -> list D -> D),
    (forall z, neg (lit z) = lit (- z)) ->
    exists v', numbers n' = Some v' /\ meaning lit neg other v' = meaning lit neg other v.
Proof.
  intros n v H. split; [exact (fold_errors n v H)|]. intros n' E D lit neg other N. exact (fold_meaning lit neg other N n v n' H E).
Qed.
Print Assumptions C22_folding_keeps_meaning.

(** The literals of the language: what is written is what the program has at run time.
    What is missing: literals from 2^62 on, and leading zeros. *)
Theorem C22_literals_kept_partial : forall s n, written s n ->
  (n <= int_max -> exists z, literal s = Some z /\ ival (wint z) = n) /\
  (n <= - int_min -> exists z, literal (45 :: s) = Some z /\ ival (wint z) = - n) /\
  (9223372036854775808 <= n -> literal s = None) /\ (9223372036854775808 < n -> literal (45 :: s) = None).
Proof.
  intros s n H. pose proof (written_nonneg s n H). unfold literal. rewrite (parse_plain s n H), (parse_minus s n H).
  unfold int_max, int_min. repeat split; intros L;
    destruct (Z.ltb_spec n 9223372036854775808), (Z.leb_spec n 9223372036854775808); try lia; try reflexivity;
    eexists; (split; [reflexivity|]); rewrite ival_wint; apply wrap_id; unfold is_int, int_min, int_max; lia.
Qed.
Print Assumptions C22_literals_kept_partial.

Example C22_example :
  written (text "1234567890123") 1234567890123 /\ written (text "0xFf") 255 /\ written (text "0") 0 /\
  literal (text "1234567890123") = Some 1234567890123 /\ literal (text "-0xFf") = Some (-255) /\
  fold (NOther 3 [NNeg (NInt (text "7")); NNeg (NNeg (NInt (text "8")))]) =
    (NOther 3 [NInt (text "-7"); NNeg (NInt (text "-8"))], []) /\
  snd (fold (NOther 3 [NInt (text "9223372036854775808"); NNeg (NInt (text "9223372036854775808"))])) = [text "9223372036854775808"].
Proof.
  split; [|split; [|split; [|vm_compute; auto]]].
  - assert (E : 1234567890123 = value 10 [1;2;3;4;5;6;7;8;9;0;1;2;3]) by (vm_compute; reflexivity). rewrite E. clear E.
    apply (written_decimal 49 1 (text "234567890123")); [lia|repeat constructor; lia|].
    repeat constructor; unfold digit_char; vm_compute; intuition discriminate.
  - apply (written_hex 70 [102] 15 [15]). repeat constructor; unfold digit_char; lia.
  - constructor.
Qed.

(** The full statement is false: 2^62 is accepted and is -2^62 at run time. *)
Theorem C22_overflow_refuted :
  written (text "4611686018427387904") 4611686018427387904 /\
  exists z, literal (text "4611686018427387904") = Some z /\ ival (wint z) = -4611686018427387904.
Proof.
  split; [|exists 4611686018427387904; split; vm_compute; reflexivity].
  assert (E : 4611686018427387904 = value 10 [4;6;1;1;6;8;6;0;1;8;4;2;7;3;8;7;9;0;4]) by (vm_compute; reflexivity). rewrite E. clear E.
  apply (written_decimal 52 4 (text "611686018427387904")); [lia|repeat constructor; lia|].
  repeat constructor; unfold digit_char; vm_compute; intuition discriminate.
Qed.
Print Assumptions C22_overflow_refuted.

(** Leading zeros, which the lexer accepts as part of decimal literals: the rest is read
    in base 8 (010 is 8), and refused if it has a digit above 7 (08). *)
Theorem C22_leading_zero_refuted :
  (forall cs ds, Forall2 digit_char cs ds -> Forall (fun d => 0 <= d <= 7) ds -> value 8 ds < 9223372036854775808 ->
     literal (48 :: cs) = Some (value 8 ds)) /\
  literal (text "010") = Some 8 /\ literal (text "08") = None.
Proof.
  split; [|split; reflexivity]. intros cs ds H F L. unfold literal. rewrite (parse_octal cs ds H F).
  destruct (Z.ltb_spec (value 8 ds) 9223372036854775808); [reflexivity|lia].
Qed.
Print Assumptions C22_leading_zero_refuted.
