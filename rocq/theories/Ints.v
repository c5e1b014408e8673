(** Clara integers: 63-bit two's complement numbers.

    Specification of the language's integer operations; that compiled code
    computes them is C24 (PropCodegen.v), they are also the arithmetic of the
    models of the library functions. *)
From Coq Require Import ZArith Lia Bool.
Open Scope Z_scope.
Ltac Zify.zify_post_hook ::= Z.div_mod_to_equations.

Definition int_min : Z := -4611686018427387904.
Definition int_max : Z := 4611686018427387903.
Definition is_int (z : Z) : Prop := int_min <= z <= int_max.

(** The 63-bit number congruent to [z] modulo 2^63. *)
Definition wrap (z : Z) : Z := (z + 4611686018427387904) mod 9223372036854775808 - 4611686018427387904.

Definition iadd a b := wrap (a + b).
Definition isub a b := wrap (a - b).
Definition imul a b := wrap (a * b).
(** Truncating division; None for division by zero, which traps. *)
Definition idiv a b : option Z := if b =? 0 then None else Some (wrap (Z.quot a b)).
Definition ineg a := wrap (- a).
Definition iand a b := Z.land a b.
Definition ior a b := Z.lor a b.
Definition ixor a b := Z.lxor a b.
Definition inot a := Z.lnot a.
(** Shift counts are taken modulo 64. *)
Definition ishl a c := wrap (Z.shiftl a (c mod 64)).
Definition ishr a c := Z.shiftr a (c mod 64).

Lemma wrap_is_int z : is_int (wrap z).
Proof. unfold is_int, wrap, int_min, int_max. lia. Qed.

Lemma wrap_id z : is_int z -> wrap z = z.
Proof. unfold is_int, wrap, int_min, int_max. intros H. lia. Qed.

Lemma wrap_cong z : exists k, wrap z = z + k * 9223372036854775808.
Proof. unfold wrap. exists (- ((z + 4611686018427387904) / 9223372036854775808)). lia. Qed.

Lemma wrap_unique z w : is_int w -> (exists k, w = z + k * 9223372036854775808) -> wrap z = w.
Proof.
  intros Hw [k ->]. destruct (wrap_cong z) as [k' E]. pose proof (wrap_is_int z) as Hz.
  unfold is_int, int_min, int_max in *. rewrite E in *. lia.
Qed.
