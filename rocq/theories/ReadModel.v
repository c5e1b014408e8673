(** Model of how the passes after the parser read its nodes (ast.go 137-152): which of token,
    left, right, stmts and params they take for what.  The passes themselves are DeclModel
    (semantic.go), CheckModel (typecheck.go) and WalkModel (foldConstants).

    Function literals with type parameters are left out.  An expression with a type that is
    not known is taken for a name that is not known; both are errors.  foldConstants comes
    before the declarations here; it changes only literals (main.go 93-109). *)
From Coq Require Import String Ascii ZArith List Bool.
From Verif Require Import TypeModel TypeGraph CheckModel DeclModel LitModel LexModel StrModel ParseModel WalkModel.
Import ListNotations.
Open Scope list_scope.

(** Go strings are bytes. *)
Fixpoint str (l : list Z) : string := match l with [] => EmptyString | c :: r => String (ascii_of_nat (Z.to_nat c)) (str r) end.
(** Names: the parser lets only identifiers stand for them. *)
Definition val (n : node) : string := match tk_kind (n_token n) with KIdentifier => str (tk_val (n_token n)) | _ => EmptyString end.

Definition all {A B} (f : A -> option B) (l : list A) : option (list B) := all_some (map f l).
Definition both {A B C} (f : A -> B -> C) (a : option A) (b : option B) : option C :=
  match a, b with Some x, Some y => Some (f x y) | _, _ => None end.
Definition within {A B} (f : A -> option B) (o : option A) : option B := match o with Some a => f a | None => None end.
Definition if_any {A B} (f : A -> option B) (o : option A) : option (option B) :=
  match o with Some a => option_map Some (f a) | None => Some None end.

(** semantic.go 246-333, 401-448. *)
Fixpoint texp_of (n : node) : option texp :=
  match n with
  | Node _ OpNamedType _ None _ _ _ => Some (XNamed (val n) None)
  | Node _ OpNamedType _ (Some (Node _ _ _ _ _ _ ps)) _ _ _ => option_map (fun l => XNamed (val n) (Some l)) (all texp_of ps)
  | Node _ OpFuncType _ l _ ss _ => both XFun (all texp_of ss) (if_any texp_of l)
  | Node _ OpArrayType _ l _ _ _ => option_map XArr (within texp_of l)
  | _ => None
  end.
(** semantic.go 177-180, 224-243, 369-370 *)
Definition param_of (n : node) : option (string * texp) := option_map (pair (val n)) (within texp_of (n_left n)).
(** semantic.go 91-101, 107-117, 357-366: only the token of a type parameter is looked at. *)
Definition tparam_of (n : node) : option string := match n_op n with OpNamedType => Some (val n) | _ => None end.

(** Trees of CheckModel with types as they are written. *)
Inductive rexpr :=
| RLit (l : lit)
| RId (x : string)
| RArith (o : aop) (l r : rexpr)
| RLogic (o : lop) (l r : rexpr)
| RCmp (o : cop) (l r : rexpr)
| RNot (e : rexpr)
| RBNot (e : rexpr)
| RNeg (e : rexpr)
| RCall (f : rexpr) (ts : list texp) (args : list rexpr)
| RDot (l r : rexpr)
| RIndex (l r : rexpr)
| RArrLit (es : list rexpr)
| RTern (c a b : rexpr)
| RFn (ps : list (string * texp)) (ret : option texp) (body : list rstmt)
| RFnExpr (ps : list (string * texp)) (ret : option texp) (e : rexpr)
| RType (t : texp)
with rstmt :=
| RDo (e : rexpr)
| RDas (l r : rexpr)
| RAs (l r : rexpr)
| RWhile (c : rexpr) (body : list rstmt)
| RForIn (x : string) (e : rexpr) (body : list rstmt)
| RForRange (x : string) (a b : rexpr) (body : list rstmt)
| RIf (c : rexpr) (body : list rstmt) (rest : option rstmt)
| RElse (body : list rstmt)
| RReturn (e : option rexpr)
| RMatch (e : rexpr) (cases : list (string * list string * list rstmt)).

Definition lit_of (t : token) : option lit :=
  match tk_kind t with
  | KInteger => option_map LInt (literal (tk_val t))
  | KString => option_map (fun s => LStr (str s)) (StrModel.unquote (tk_val t))
  | KTrue => Some (LBool true)
  | KFalse => Some (LBool false)
  | _ => None
  end.
Definition arith_of (o : op) : option aop :=
  match o with
  | OpAdd => Some OAdd | OpSub => Some OSub | OpMul => Some OMul | OpDiv => Some ODiv | OpBAnd => Some OBAnd | OpBOr => Some OBOr
  | OpBXor => Some OBXor | OpBLeft => Some OBLeft | OpBRight => Some OBRight | _ => None
  end.
Definition logic_of (o : op) : option lop := match o with OpAnd => Some OAnd | OpOr => Some OOr | _ => None end.
Definition cmp_of (o : op) : option cop :=
  match o with OpGt => Some OGt | OpGte => Some OGte | OpLt => Some OLt | OpLte => Some OLte | OpEq => Some OEq | _ => None end.

(** typecheck.go 14-690: a node is an expression, a statement, a case or a range. *)
Inductive part := PExpr (e : rexpr) | PRange (a b : rexpr) | PStmt (s : rstmt) | PCase (c : string * list string * list rstmt).
Definition as_expr (p : option part) : option rexpr := match p with Some (PExpr e) => Some e | _ => None end.
Definition as_stmt (p : option part) : option rstmt := match p with Some (PExpr e) => Some (RDo e) | Some (PStmt s) => Some s | _ => None end.
Definition as_case (p : option part) : option (string * list string * list rstmt) := match p with Some (PCase c) => Some c | _ => None end.
Definition name_of (n : node) : option string := match n_op n with OpIdentifier => Some (val n) | _ => None end.
Fixpoint part_of (n : node) : option part :=
  match n with
  | Node _ o t l r ss ps =>
    let expr (m : option node) := match m with Some m => as_expr (part_of m) | None => None end in
    let two f := option_map PExpr (both f (expr l) (expr r)) in
    let block := all_some (map (fun m => as_stmt (part_of m)) ss) in
    let exprs := all_some (map (fun m => as_expr (part_of m)) ss) in
    match o with
    | OpLit => option_map (fun l => PExpr (RLit l)) (lit_of t)
    | OpIdentifier => Some (PExpr (RId (val n)))
    | OpNot => option_map (fun e => PExpr (RNot e)) (expr l)
    | OpBNot => option_map (fun e => PExpr (RBNot e)) (expr l)
    | OpNeg => option_map (fun e => PExpr (RNeg e)) (expr l)
    | OpFuncCall => match expr l, all texp_of ps, exprs with Some f, Some ts, Some es => Some (PExpr (RCall f ts es)) | _, _, _ => None end
    | OpDot => two RDot
    | OpArray => two RIndex
    | OpArrayLit => option_map (fun es => PExpr (RArrLit es)) exprs
    | OpTernary => match expr l, exprs with Some c, Some [a; b] => Some (PExpr (RTern c a b)) | _, _ => None end
    | OpBlockFn =>
        match r, all param_of ps, if_any texp_of l, block with
        | None, Some q, Some u, Some b => Some (PExpr (RFn q u b))
        | _, _, _, _ => None
        end
    | OpExprFn =>
        match r, all param_of ps, if_any texp_of l, exprs with
        | None, Some q, Some u, Some [e] => Some (PExpr (RFnExpr q u e))
        | _, _, _, _ => None
        end
    | OpNamedType | OpFuncType | OpArrayType => option_map (fun t => PExpr (RType t)) (texp_of n)
    | OpDas => option_map PStmt (both RDas (expr l) (expr r))
    | OpAs => option_map PStmt (both RAs (expr l) (expr r))
    | OpWhile => option_map PStmt (both RWhile (expr l) block)
    | OpFor =>
        match within name_of l, match r with Some m => part_of m | None => None end, block with
        | Some x, Some (PRange a b), Some s => Some (PStmt (RForRange x a b s))
        | Some x, Some (PExpr e), Some s => Some (PStmt (RForIn x e s))
        | _, _, _ => None
        end
    | OpRange => both PRange (expr l) (expr r)
    | OpIf | OpElseIf =>
        match expr l, block, match r with Some m => option_map Some (as_stmt (part_of m)) | None => Some None end with
        | Some c, Some s, Some r => Some (PStmt (RIf c s r))
        | _, _, _ => None
        end
    | OpElse => option_map (fun s => PStmt (RElse s)) block
    | OpReturn => option_map (fun e => PStmt (RReturn e)) (match l with Some m => option_map Some (as_expr (part_of m)) | None => Some None end)
    | OpMatch => option_map PStmt (both RMatch (expr l) (all_some (map (fun m => as_case (part_of m)) ss)))
    | OpCase => option_map PCase (both (fun xs s => (val n, xs, s)) (all name_of ps) block)
    | _ =>
        match arith_of o, logic_of o, cmp_of o with
        | Some o, _, _ => two (RArith o)
        | _, Some o, _ => two (RLogic o)
        | _, _, Some o => two (RCmp o)
        | _, _, _ => None
        end
    end
  end.

(** The types in a body, with what their names stand for (semantic.go 246-333). *)
Section Types.
Variable env : tenv.
Definition known (t : texp) : option ty := match instantiate env t with ([], Some u) => Some u | _ => None end.
Definition known_result (t : option texp) : option ty := match t with Some t => known t | None => Some TNothing end.
Definition known_param (p : string * texp) : option (string * ty) := option_map (pair (fst p)) (known (snd p)).
Definition unknown : expr := EId EmptyString.
Fixpoint typed (e : rexpr) : expr :=
  match e with
  | RLit l => ELit l
  | RId x => EId x
  | RArith o l r => EArith o (typed l) (typed r)
  | RLogic o l r => ELogic o (typed l) (typed r)
  | RCmp o l r => ECmp o (typed l) (typed r)
  | RNot e => ENot (typed e)
  | RBNot e => EBNot (typed e)
  | RNeg e => ENeg (typed e)
  | RCall f ts args => match all known ts with Some us => ECall (typed f) us (map typed args) | None => unknown end
  | RDot l r => EDot (typed l) (typed r)
  | RIndex l r => EIndex (typed l) (typed r)
  | RArrLit es => EArrLit (map typed es)
  | RTern c a b => ETern (typed c) (typed a) (typed b)
  | RFn ps u b => match all known_param ps, known_result u with Some qs, Some v => EFn [] qs v (map typed_stmt b) | _, _ => unknown end
  | RFnExpr ps u e => match all known_param ps, known_result u with Some qs, Some v => EFnExpr [] qs v (typed e) | _, _ => unknown end
  | RType t => match known t with Some u => EType u | None => unknown end
  end
with typed_stmt (s : rstmt) : stmt :=
  match s with
  | RDo e => SExpr (typed e)
  | RDas l r => SDas (typed l) (typed r)
  | RAs l r => SAs (typed l) (typed r)
  | RWhile c b => SWhile (typed c) (map typed_stmt b)
  | RForIn x e b => SForIn x (typed e) (map typed_stmt b)
  | RForRange x a c b => SForRange x (typed a) (typed c) (map typed_stmt b)
  | RIf c b r => SIf (typed c) (map typed_stmt b) (match r with Some r => Some (typed_stmt r) | None => None end)
  | RElse b => SElse (map typed_stmt b)
  | RReturn e => SReturn (match e with Some e => Some (typed e) | None => None end)
  | RMatch e cs => SMatch (typed e) (map (fun c => (fst c, map typed_stmt (snd c))) cs)
  end.
End Types.

(** semantic.go 85-222: a node of the root. *)
Definition fn_of (n : node) (b : dbody) : option decl :=
  match within (fun r => all tparam_of (n_params r)) (match n_right n with None => Some (Node no_attrs OpTypeList (n_token n) None None [] []) | r => r end),
        all param_of (n_params n), if_any texp_of (n_left n) with
  | Some ts, Some ps, Some u => Some (DFn (val n) ts ps u b)
  | _, _, _ => None
  end.
Definition member_of (n : node) : option (string * list (string * texp)) := option_map (pair (val n)) (all param_of (n_params n)).
Definition decl_of (n : node) : option decl :=
  match n_op n with
  | OpStruct => both (DStruct (val n)) (all tparam_of (n_params n)) (all param_of (n_stmts n))
  | OpEnum => both (DEnum (val n)) (all tparam_of (n_params n)) (all member_of (n_stmts n))
  | OpExternFn => fn_of n DExtern
  | OpBlockFn => within (fun b => fn_of n (DBlock (fun env => map (typed_stmt env) b))) (all (fun m => as_stmt (part_of m)) (n_stmts n))
  | OpExprFn => match all (fun m => as_expr (part_of m)) (n_stmts n) with Some [e] => fn_of n (DExpr (fun env => typed env e)) | _ => None end
  | _ => None
  end.
(** main.go 87-109: the tree given to the type checker, unless a literal is too big; None if
    a node is left out here or makes the compiler panic. *)
Definition decls_of (roots : list node) : option (list decl + list (list Z)) :=
  match fold_walk_all roots with
  | None => None
  | Some (ns, []) => option_map inl (all decl_of ns)
  | Some (_, es) => Some (inr es)
  end.
