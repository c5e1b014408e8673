(** What the texts of integer literals mean. *)
From Coq Require Import ZArith List Bool.
From Verif Require Import LitModel.
Import ListNotations.
Open Scope Z_scope.

(** The number with these digits. *)
Fixpoint value (base : Z) (ds : list Z) : Z :=
  match ds with [] => 0 | d :: r => d * base ^ Z.of_nat (length r) + value base r end.

(** Characters of digits: 0-9, then a-f or A-F. *)
Definition digit_char (c d : Z) : Prop :=
  (0 <= d <= 9 /\ c = 48 + d) \/ (10 <= d <= 15 /\ (c = 87 + d \/ c = 55 + d)).

(** The number a literal's text stands for: decimal without leading zeros, or
    hexadecimal after 0x. *)
Inductive written : list Z -> Z -> Prop :=
| written_zero : written [48] 0
| written_decimal : forall c d cs ds, 1 <= d <= 9 -> Forall (fun e => 0 <= e <= 9) ds -> Forall2 digit_char (c :: cs) (d :: ds) ->
    written (c :: cs) (value 10 (d :: ds))
| written_hex : forall c cs d ds, Forall2 digit_char (c :: cs) (d :: ds) ->
    written (48 :: 120 :: c :: cs) (value 16 (d :: ds)).

(** The source tree with the numbers that are written. *)
Inductive stands_for : node -> vnode -> Prop :=
| stands_int : forall s z, written s z -> stands_for (NInt s) (VInt z)
| stands_neg : forall n v, stands_for n v -> stands_for (NNeg n) (VNeg v)
| stands_other : forall op l vs, Forall2 stands_for l vs -> stands_for (NOther op l) (VOther op vs).

(** Every number fits into 64 bits, counting a minus sign in front of it. *)
Inductive fits : vnode -> Prop :=
| fits_int : forall z, z < 9223372036854775808 -> fits (VInt z)
| fits_minus : forall z, z <= 9223372036854775808 -> fits (VNeg (VInt z))
| fits_neg : forall v, (forall z, v <> VInt z) -> fits v -> fits (VNeg v)
| fits_other : forall op vs, Forall fits vs -> fits (VOther op vs).

(** The meaning of a tree, whatever the other nodes do. *)
Section Meaning.
Context {D : Type} (lit : Z -> D) (neg : D -> D) (other : nat -> list D -> D).
Fixpoint meaning (v : vnode) : D :=
  match v with
  | VInt z => lit z
  | VNeg v => neg (meaning v)
  | VOther op vs => other op (map meaning vs)
  end.
End Meaning.
