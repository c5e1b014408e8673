(** Model of walk.go (Walk), of the pass with foldConstants (main.go:100-106) and of what the
    walks are called with.

    A node is known by its place: the way to it from the root, last step first.  (Go passes
    the pointer.) *)
From Coq Require Import ZArith List Bool Arith.
From Verif Require Import LexModel ParseModel LitModel.
Import ListNotations.
Open Scope nat_scope.
Notation node := ParseModel.node.
Notation Node := ParseModel.Node.

Inductive step := Left | Right | Stmt (i : nat) | Param (i : nat).
Definition place := list step.

(** A call of the function: with a node and what it gives back, or with nil. *)
Inductive event := Visit (p : place) (b : bool) | Exit.

Definition cat {A} (a b : option (list A)) : option (list A) :=
  match a, b with Some x, Some y => Some (x ++ y) | _, _ => None end.

(** walk.go:5-121; the function does not change the tree.  [go p] is what it gives back for
    the node at [p] when nodes come before their children ([pre]); after them it always gives
    true (walk.go:9-14).  None is a panic: a nil node or one of another kind. *)
Section Walk.
Variables (pre : bool) (go : place -> bool).
Fixpoint walk (p : place) (n : node) : option (list event) :=
  match n with
  | Node _ o _ l r ss ps =>
    let must (s : step) (m : option node) := match m with Some m => walk (s :: p) m | None => None end in
    let maybe (s : step) (m : option node) := match m with Some m => walk (s :: p) m | None => Some [] end in
    let fix all (s : nat -> step) (i : nat) (ms : list node) : option (list event) :=
      match ms with [] => Some [] | m :: ms' => cat (walk (s i :: p) m) (all s (S i) ms') end in
    let inside :=
      match o with
      | OpBlockFn | OpExprFn | OpExternFn | OpConsFn | OpFuncType =>
          cat (maybe Right r) (cat (all Param 0 ps) (cat (all Stmt 0 ss) (maybe Left l)))
      | OpStruct | OpEnum | OpElse => all Stmt 0 ss
      | OpTypeList => all Param 0 ps
      | OpFuncCall => cat (maybe Left l) (cat (all Param 0 ps) (all Stmt 0 ss))
      | OpWhile | OpMatch | OpTernary => cat (must Left l) (all Stmt 0 ss)
      | OpCase => cat (all Param 0 ps) (all Stmt 0 ss)
      | OpIf | OpElseIf => cat (must Left l) (cat (all Stmt 0 ss) (maybe Right r))
      | OpFor => cat (must Right r) (cat (must Left l) (all Stmt 0 ss))
      | OpLit | OpError => Some []
      | OpIdentifier | OpReturn | OpNamedType => maybe Left l
      | OpNot | OpNeg | OpBNot | OpArrayType => must Left l
      | OpAs | OpDas | OpAdd | OpSub | OpMul | OpDiv | OpAnd | OpOr | OpBAnd
      | OpBOr | OpBXor | OpEq | OpGt | OpGte | OpLt | OpLte | OpBLeft | OpBRight
      | OpDot | OpArray | OpRange => cat (must Left l) (must Right r)
      | OpArrayLit => cat (maybe Left l) (all Stmt 0 ss)
      end in
    if pre then
      if go p then cat (Some [Visit p true]) (cat inside (Some [Exit])) else Some [Visit p false]
    else cat inside (Some [Visit p true])
  end.
(** The loop over nodes, and the root (walk.go:39-42), whose statements are the nodes that the
    parser has added. *)
Fixpoint walk_all (p : place) (s : nat -> step) (i : nat) (ms : list node) : option (list event) :=
  match ms with [] => Some [] | m :: ms' => cat (walk (s i :: p) m) (walk_all p s (S i) ms') end.
Definition walk_root (roots : list node) : option (list event) :=
  let inside := walk_all [] Stmt 0 roots in
  if pre then
    if go [] then cat (Some [Visit [] true]) (cat inside (Some [Exit])) else Some [Visit [] false]
  else cat inside (Some [Visit [] true]).
End Walk.

(* ------------------------------------------------------------------------ foldConstants *)

Definition is_int (n : node) : bool := match n_op n with OpLit => kind_eqb (tk_kind (n_token n)) KInteger | _ => false end.
(** lex.go:251-253 (WithVal). *)
Definition with_val (t : token) (v : list Z) : token := Token (tk_kind t) v (tk_pos t) (tk_line t).
(** semantic.go:452-457: the node as it is afterwards; None is the panic on a nil child. *)
Definition fold_neg (n : node) : option node :=
  match n with
  | Node a OpNeg t l r ss ps =>
    match l with
    | None => None
    | Some m => if is_int m then Some (Node a OpLit (with_val (n_token m) (45%Z :: tk_val (n_token m))) None r ss ps) else Some n
    end
  | _ => Some n
  end.
Definition is_lit (n : node) : bool := match n_op n with OpLit => true | _ => false end.
(** semantic.go:459-465 *)
Definition overflow (n : node) : list (list Z) := if is_int n then check_overflow (tk_val (n_token n)) else [].
(** main.go:100-106 with walk.go: nodes before their children, which are those of the node as
    it is then; the tree with the changes and the texts of the literals reported, in order. *)
Definition cat2 {A B} (f : A -> B) (a : option (A * list (list Z))) : option (B * list (list Z)) :=
  match a with Some (x, e) => Some (f x, e) | None => None end.
Fixpoint fold_walk (n : node) : option (node * list (list Z)) :=
  match n with
  | Node a o t l r ss ps =>
    let must (m : option node) := match m with Some m => cat2 Some (fold_walk m) | None => None end in
    let maybe (m : option node) := match m with Some m => cat2 Some (fold_walk m) | None => Some (None, []) end in
    let fix all (ms : list node) : option (list node * list (list Z)) :=
      match ms with
      | [] => Some ([], [])
      | m :: ms' => match fold_walk m, all ms' with Some (x, e), Some (xs, es) => Some (x :: xs, e ++ es) | _, _ => None end
      end in
    match fold_neg n with
    | None => None
    | Some n1 =>
      if is_lit n1 then Some (n1, overflow n1) else
      match o with
      | OpBlockFn | OpExprFn | OpExternFn | OpConsFn | OpFuncType =>
          match maybe r, all ps, all ss, maybe l with
          | Some (r1, e1), Some (ps1, e2), Some (ss1, e3), Some (l1, e4) => Some (Node a o t l1 r1 ss1 ps1, e1 ++ e2 ++ e3 ++ e4)
          | _, _, _, _ => None
          end
      | OpStruct | OpEnum | OpElse => match all ss with Some (ss1, e) => Some (Node a o t l r ss1 ps, e) | None => None end
      | OpTypeList => match all ps with Some (ps1, e) => Some (Node a o t l r ss ps1, e) | None => None end
      | OpFuncCall =>
          match maybe l, all ps, all ss with
          | Some (l1, e1), Some (ps1, e2), Some (ss1, e3) => Some (Node a o t l1 r ss1 ps1, e1 ++ e2 ++ e3)
          | _, _, _ => None
          end
      | OpWhile | OpMatch | OpTernary =>
          match must l, all ss with Some (l1, e1), Some (ss1, e2) => Some (Node a o t l1 r ss1 ps, e1 ++ e2) | _, _ => None end
      | OpCase => match all ps, all ss with Some (ps1, e1), Some (ss1, e2) => Some (Node a o t l r ss1 ps1, e1 ++ e2) | _, _ => None end
      | OpIf | OpElseIf =>
          match must l, all ss, maybe r with
          | Some (l1, e1), Some (ss1, e2), Some (r1, e3) => Some (Node a o t l1 r1 ss1 ps, e1 ++ e2 ++ e3)
          | _, _, _ => None
          end
      | OpFor =>
          match must r, must l, all ss with
          | Some (r1, e1), Some (l1, e2), Some (ss1, e3) => Some (Node a o t l1 r1 ss1 ps, e1 ++ e2 ++ e3)
          | _, _, _ => None
          end
      | OpLit | OpError => Some (n, [])
      | OpIdentifier | OpReturn | OpNamedType => match maybe l with Some (l1, e) => Some (Node a o t l1 r ss ps, e) | None => None end
      | OpNot | OpNeg | OpBNot | OpArrayType => match must l with Some (l1, e) => Some (Node a o t l1 r ss ps, e) | None => None end
      | OpAs | OpDas | OpAdd | OpSub | OpMul | OpDiv | OpAnd | OpOr | OpBAnd
      | OpBOr | OpBXor | OpEq | OpGt | OpGte | OpLt | OpLte | OpBLeft | OpBRight
      | OpDot | OpArray | OpRange =>
          match must l, must r with Some (l1, e1), Some (r1, e2) => Some (Node a o t l1 r1 ss ps, e1 ++ e2) | _, _ => None end
      | OpArrayLit => match maybe l, all ss with Some (l1, e1), Some (ss1, e2) => Some (Node a o t l1 r ss1 ps, e1 ++ e2) | _, _ => None end
      end
    end
  end.
Fixpoint fold_walk_all (ms : list node) : option (list node * list (list Z)) :=
  match ms with
  | [] => Some ([], [])
  | m :: ms' => match fold_walk m, fold_walk_all ms' with Some (x, e), Some (xs, es) => Some (x :: xs, e ++ es) | _, _ => None end
  end.
