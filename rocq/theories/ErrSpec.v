(** Where syntax errors are reported, for C55. *)
From Coq Require Import List Bool ZArith.
From Verif Require Import LexModel ParseModel.
Import ListNotations.

(** [picks l w]: [l] are some of the elements of [w], each at most once, in their order. *)
Inductive picks {A} : list A -> list A -> Prop :=
| picks_none : picks [] []
| picks_take x l w : picks l w -> picks (x :: l) (x :: w)
| picks_skip x l w : picks l w -> picks l (x :: w).

(** What a message says was expected: the kinds of token that would have been right.  Where an
    expression was expected the message names the token after the wrong one. *)
Definition would_do (x : expected) (k : kind) : bool :=
  match x with
  | XKind k1 => kind_eqb k k1
  | XDecl => existsb (kind_eqb k) [KFn; KStruct; KEnum]
  | XFnBody => existsb (kind_eqb k) [KLBrace; KAs]
  | XStatement => existsb (kind_eqb k) [KReturn; KWhile; KFor; KIf; KMatch;
      KIdentifier; KInteger; KString; KTrue; KFalse; KLParen; KLBrack; KFn; KNot; KMin]
  | XType => existsb (kind_eqb k) [KFn; KLBrack; KIdentifier]
  | XExpression => false
  end.
