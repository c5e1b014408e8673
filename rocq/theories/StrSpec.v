(** What a string literal means, independently of the compiler. *)
From Coq Require Import Ascii String ZArith List.
From Verif Require Import LexModel LexSpec X86 GenLabels.
Import ListNotations.
Open Scope Z_scope.
Open Scope list_scope.

(** A text in UTF-8. *)
Definition encoded (rs : list rune) : list byte := concat (map utf8 rs).

(** The bytes meant by what stands between the quotes. *)
Inductive denotes : list rune -> list byte -> Prop :=
| den_end : denotes [] []
| den_char : forall r rs bs, r <> ch """" -> r <> ch "\" -> denotes rs bs -> denotes (r :: rs) (utf8 r ++ bs)
| den_newline : forall rs bs, denotes rs bs -> denotes (ch "\" :: ch "n" :: rs) (10 :: bs)
| den_return : forall rs bs, denotes rs bs -> denotes (ch "\" :: ch "r" :: rs) (13 :: bs)
| den_quote : forall rs bs, denotes rs bs -> denotes (ch "\" :: ch """" :: rs) (34 :: bs)
| den_backslash : forall rs bs, denotes rs bs -> denotes (ch "\" :: ch "\" :: rs) (92 :: bs).

(** The text of the literal with this between the quotes. *)
Definition literal (body : list rune) : list byte := encoded (ch """" :: body ++ [ch """"]).

(** In the output [P], [what] stands after the label [l], which is nowhere else. *)
Definition stands_at (P : list event) (l : label) (what : list event) : Prop :=
  exists before after, P = before ++ ELabel l :: what ++ after /\ lcount l before = O /\ lcount l (what ++ after) = O.
