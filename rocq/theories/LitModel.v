(** Integer literals: strconv.ParseInt, foldConstants and the literals of genExpr. *)
From Coq Require Import ZArith List Bool.
Import ListNotations.
Open Scope Z_scope.

(** Result of Go's strconv functions: a number, or one of the two errors. *)
Inductive parsed := POk (z : Z) | PSyntax | PRange.

Definition uint64 (z : Z) : Z := z mod 18446744073709551616.

(** strconv.ParseUint of the Go library (version 1.16, go.mod:3), called with base 0
    and 64 bits.  The digit loop.  Underscores, which base 0 allows between digits, are
    left out: the lexer emits none in numbers (lex.go:456-480). *)
Definition lower (c : Z) : Z := Z.lor c 32.
Definition digit_of (c : Z) : option Z :=
  if (48 <=? c) && (c <=? 57) then Some (c - 48)
  else if (97 <=? lower c) && (lower c <=? 122) then Some (lower c - 97 + 10)
  else None.
Fixpoint digits_loop (base : Z) (n : Z) (s : list Z) : parsed :=
  match s with
  | [] => POk n
  | c :: s =>
    match digit_of c with
    | None => PSyntax
    | Some d =>
      if base <=? d then PSyntax
      else if 18446744073709551615 / base + 1 <=? n then PRange
      else
        let m := uint64 (n * base) in
        let n1 := uint64 (m + d) in
        if n1 <? m then PRange else digits_loop base n1 s
    end
  end.
(** The base given by the prefix. *)
Definition parse_uint (s : list Z) : parsed :=
  match s with
  | [] => PSyntax
  | c :: s1 =>
    if c =? 48 then
      match s1 with
      | c1 :: (_ :: _) as s2 =>
        if lower c1 =? 98 then digits_loop 2 0 (tl s1)
        else if lower c1 =? 111 then digits_loop 8 0 (tl s1)
        else if lower c1 =? 120 then digits_loop 16 0 (tl s1)
        else digits_loop 8 0 s1
      | _ => digits_loop 8 0 s1
      end
    else digits_loop 10 0 s
  end.
(** strconv.ParseInt, same arguments. *)
Definition parse_int (s : list Z) : parsed :=
  match s with
  | [] => PSyntax
  | c :: s1 =>
    let neg := c =? 45 in
    let s := if (c =? 43) || neg then s1 else s in
    let checked un :=
      if negb neg && (9223372036854775808 <=? un) then PRange
      else if neg && (9223372036854775808 <? un) then PRange
      else POk (if neg then - un else un) in
    match parse_uint s with
    | POk un => checked un
    | PRange => checked 18446744073709551615
    | PSyntax => PSyntax
    end
  end.

(** ast.go:10-35: a node; here only integer literals (opLit with an Integer token of
    that text) and opNeg are told apart, the rest is [op] with its children in the order
    of Walk. *)
Inductive node :=
| NInt (s : list Z)
| NNeg (n : node)
| NOther (op : nat) (kids : list node).

(** semantic.go:450-466 (foldConstants), called for every node before its children
    (main.go:110-115, walk.go:24-27).  The list is the overflow errors, in order. *)
Definition check_overflow (s : list Z) : list (list Z) :=
  match parse_int s with POk _ => [] | _ => [s] end.
Fixpoint fold (n : node) : node * list (list Z) :=
  match n with
  | NInt s => (n, check_overflow s)
  | NNeg (NInt s) => (NInt (45 :: s), check_overflow (45 :: s))
  | NNeg m => let '(m, es) := fold m in (NNeg m, es)
  | NOther op kids =>
    let fix go (l : list node) : list node * list (list Z) :=
      match l with
      | [] => ([], [])
      | a :: r => let '(a, es) := fold a in let '(r, fs) := go r in (a :: r, es ++ fs)
      end in
    let '(kids, es) := go kids in (NOther op kids, es)
  end.
Fixpoint fold_all (l : list node) : list node * list (list Z) :=
  match l with
  | [] => ([], [])
  | a :: r => let '(a, es) := fold a in let '(r, fs) := fold_all r in (a :: r, es ++ fs)
  end.

(** codegen.go:662-674: the number genExpr loads for a literal; None is its panic.
    (GenModel's ELitInt carries this number.)  The tree with numbers for texts. *)
Inductive vnode :=
| VInt (z : Z)
| VNeg (n : vnode)
| VOther (op : nat) (kids : list vnode).
Definition literal (s : list Z) : option Z := match parse_int s with POk z => Some z | _ => None end.
Fixpoint numbers (n : node) : option vnode :=
  match n with
  | NInt s => option_map VInt (literal s)
  | NNeg m => option_map VNeg (numbers m)
  | NOther op kids =>
    let fix go (l : list node) : option (list vnode) :=
      match l with
      | [] => Some []
      | a :: r => match numbers a, go r with Some a, Some r => Some (a :: r) | _, _ => None end
      end in
    option_map (VOther op) (go kids)
  end.
Fixpoint numbers_all (l : list node) : option (list vnode) :=
  match l with
  | [] => Some []
  | a :: r => match numbers a, numbers_all r with Some a, Some r => Some (a :: r) | _, _ => None end
  end.
