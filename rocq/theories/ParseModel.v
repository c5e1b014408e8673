(** Model of parse.go: the parser, function by function.

    The position in the token sequence is modelled by the tokens from there on
    (tokens[pos:]), so that indexing outside the sequence is looking at an empty list.
    The panic of next is the result [Stop]; any other panic would be [Crash].  Functions
    that loop or recurse take fuel and say when they run out of it.  Error messages are
    kept as the token they are about and what was expected instead of strings. *)
From Coq Require Import ZArith List Bool Arith.
From Verif Require Import LexModel.
Import ListNotations.
Open Scope nat_scope.

(* -------------------------------------------------------------------- trees (ast.go) *)

(** ast.go:360-411; the numbers of the nodes, those the parser uses.  The first one is the
    number zero, which is the one of a node not given any. *)
Inductive op :=
| OpBlockFn | OpExprFn | OpExternFn | OpConsFn | OpFuncCall | OpTypeList | OpLit
| OpAdd | OpSub | OpMul | OpDiv | OpEq | OpNot | OpNeg | OpDot | OpAnd | OpBNot | OpBAnd | OpBOr | OpBXor | OpBLeft | OpBRight
| OpIdentifier | OpNamedType | OpFuncType | OpArray | OpArrayType | OpReturn | OpIf | OpWhile | OpDas | OpAs | OpElseIf | OpElse
| OpGt | OpGte | OpLt | OpLte | OpOr | OpError | OpStruct | OpEnum | OpMatch | OpCase | OpTernary | OpRange | OpFor | OpArrayLit.

(** parse.go:25-36 (attributes): ExtRet, RawValues. *)
Definition attributes := (bool * bool)%type.
Definition no_attrs : attributes := (false, false).

(** ast.go:14-25 (Node), without what later passes add (sym, typ, symtab). *)
Inductive node := Node {
  n_attrs : attributes;
  n_op : op;
  n_token : token;
  n_left : option node;
  n_right : option node;
  n_stmts : list node;
  n_params : list node
}.
Definition leaf (o : op) (t : token) : node := Node no_attrs o t None None [] [].

(* ------------------------------------------------------------------------- the state *)

Inductive expected := XKind (k : kind) | XDecl | XFnBody | XStatement | XExpression | XType.

(** parse.go:12-17 (Parser): the tokens left, the errors, newest first, and whether in
    discard mode. *)
Record state := State { rest : list token; errs : list (token * expected); discard : bool }.

Inductive result (A : Type) :=
| Ok (a : A) (s : state)
| Stop (s : state)     (* panic(errUnexpectedEof), parse.go:576 *)
| Crash                (* any other panic *)
| NoFuel.
Arguments Ok {A}. Arguments Stop {A}. Arguments Crash {A}. Arguments NoFuel {A}.
Definition parser (A : Type) := state -> result A.
Definition ret {A} (a : A) : parser A := fun s => Ok a s.
Definition no_fuel {A} : parser A := fun _ => NoFuel.
Definition bind {A B} (p : parser A) (q : A -> parser B) : parser B :=
  fun s => match p s with Ok a s1 => q a s1 | Stop s1 => Stop s1 | Crash => Crash | NoFuel => NoFuel end.
Notation "x <- p ;; q" := (bind p (fun x => q)) (at level 61, p at next level, right associativity).
Notation "p ;; q" := (bind p (fun _ => q)) (at level 61, right associativity).

(* --------------------------------------------------------- matching (parse.go:530-598) *)

(** parse.go:560-562 (Kind). *)
Definition cur_kind : parser kind :=
  fun s => match rest s with t :: _ => Ok (tk_kind t) s | [] => Crash end.
(** parse.go:551-558 (is), 542-549 (isNot); [isNot] is the negation of [is]. *)
Definition is (ks : list kind) : parser bool :=
  k <- cur_kind ;; ret (existsb (kind_eqb k) ks).
(** parse.go:573-581 (next). *)
Definition next : parser token :=
  fun s => match rest s with
  | t :: ((_ :: _) as r) => Ok t (State r (errs s) (discard s))
  | _ => Stop s
  end.
(** parse.go:583-598 (syntaxError). *)
Definition syntax_error (x : expected) : parser unit :=
  fun s => if discard s then Ok tt s else
  match rest s with t :: _ => Ok tt (State (rest s) ((t, x) :: errs s) true) | [] => Crash end.
(** parse.go:533-540 (need): tokens are skipped up to one of the kind. *)
Fixpoint skip_to (k : kind) (ts : list token) (es : list (token * expected)) (d : bool) : result token :=
  match ts with
  | [] => Crash
  | t :: r =>
    if kind_eqb (tk_kind t) k then match r with [] => Stop (State ts es false) | _ => Ok t (State r es false) end
    else
      let es1 := if d then es else (t, XKind k) :: es in
      match r with [] => Stop (State ts es1 true) | _ => skip_to k r es1 true end
  end.
Definition need (k : kind) : parser token := fun s => skip_to k (rest s) (errs s) (discard s).
(** parse.go:564-571 (match). *)
Definition matches (k : kind) : parser bool :=
  b <- is [k] ;;
  if b : bool then t <- next ;; fun s => Ok true (State (rest s) (errs s) false) else ret false.

(** The loop [for ok := true; ok; ok = p.match(lex.Comma)] (e.g. parse.go:481). *)
Fixpoint comma_sep {A} (n : nat) (p : parser A) : parser (list A) :=
  match n with
  | O => no_fuel
  | S n => x <- p ;; c <- matches KComma ;; if c : bool then l <- comma_sep n p ;; ret (x :: l) else ret [x]
  end.
(** The same after a check that the closing token does not come at once. *)
Definition list_until {A} (n : nat) (close : kind) (p : parser A) : parser (list A) :=
  b <- is [close] ;; l <- (if b : bool then ret [] else comma_sep n p) ;; t <- need close ;; ret l.
(** The loop [for p.isNot(kinds) { append(p()) }] (e.g. parse.go:168). *)
Fixpoint many {A} (n : nat) (stop : list kind) (p : parser A) : parser (list A) :=
  match n with
  | O => no_fuel
  | S n => b <- is stop ;; if b : bool then ret [] else x <- p ;; l <- many n stop p ;; ret (x :: l)
  end.

(* --------------------------------------------------------------- types and parameters *)

(** parse.go:457-466 (parseTypeList), given parseType. *)
Definition type_list (n : nat) (pt : parser node) : parser (list node * token) :=
  start <- need KLGmet ;; l <- list_until n KRGmet pt ;; ret (l, start).

(** parse.go:495-527 (parseType). *)
Fixpoint parse_type (n : nat) : parser node :=
  match n with
  | O => no_fuel
  | S n =>
    k <- cur_kind ;;
    match k with
    | KFn =>
        t <- next ;; need KLParen ;; l <- list_until n KRParen (parse_type n) ;;
        b <- is [KFn; KIdentifier; KLBrack] ;;
        r <- (if b : bool then x <- parse_type n ;; ret (Some x) else ret None) ;;
        ret (Node no_attrs OpFuncType t r None l [])
    | KLBrack =>
        t <- next ;; need KRBrack ;; x <- parse_type n ;;
        ret (Node no_attrs OpArrayType t (Some x) None [] [])
    | KIdentifier =>
        t <- next ;; b <- is [KLGmet] ;;
        r <- (if b : bool then x <- type_list n (parse_type n) ;;
                ret (Some (Node no_attrs OpTypeList (snd x) None None [] (fst x))) else ret None) ;;
        ret (Node no_attrs OpNamedType t r None [] [])
    | _ => syntax_error XType ;; t <- next ;; ret (leaf OpError t)
    end
  end.

(** parse.go:489-493 (parseParameter). *)
Definition parse_parameter (n : nat) : parser node :=
  name <- need KIdentifier ;; need KColon ;; x <- parse_type n ;;
  ret (Node no_attrs OpIdentifier name (Some x) None [] []).
(** parse.go:478-487 (parseParenList). *)
Definition paren_list (n : nat) (p : parser node) : parser (list node) :=
  need KLParen ;; list_until n KRParen p.
(** parse.go:474-476 (parseParameters), 468-472 (parseIdentifiers). *)
Definition parse_parameters (n : nat) : parser (list node) := paren_list n (parse_parameter n).
Definition parse_identifiers (n : nat) : parser (list node) :=
  paren_list n (t <- need KIdentifier ;; ret (leaf OpIdentifier t)).
(** The optional type list of parse.go:103-106, 120-123. *)
Definition type_params (n : nat) : parser (list node) :=
  b <- is [KLGmet] ;; if b : bool then x <- type_list n (parse_type n) ;; ret (fst x) else ret [].

(* ------------------------------------------------------------------------ expressions *)

(** parse.go:371-389 (infixKindToOp); a missing kind gives zero. *)
Definition infix_op (k : kind) : op :=
  match k with
  | KPlus => OpAdd | KMin => OpSub | KMul => OpMul | KDiv => OpDiv | KBLeft => OpBLeft | KBRight => OpBRight
  | KBAnd => OpBAnd | KBOr => OpBOr | KBXor => OpBXor | KGt => OpGt | KGte => OpGte | KLt => OpLt | KLte => OpLte
  | KEq => OpEq | KDot => OpDot | KOr => OpOr | KAnd => OpAnd
  | _ => OpBlockFn
  end.
(** parse.go:365-370 (prefixKindToOp). *)
Definition prefix_op (k : kind) : op :=
  match k with KNot => OpNot | KBNot => OpBNot | KMin => OpNeg | _ => OpBlockFn end.
(** parse.go:411-414, 418-422 (binaryOperators), the kinds with parseBinaryOperator. *)
Definition is_binary (k : kind) : bool :=
  match k with
  | KDot | KPlus | KMin | KMul | KDiv | KBLeft | KBRight | KBAnd | KBOr | KBXor | KGt | KGte | KLt | KLte | KEq | KOr | KAnd => true
  | _ => false
  end.
(** The kinds in infixParsers, parse.go:406-414. *)
Definition is_infix (k : kind) : bool :=
  is_binary k || match k with KLParen | KLGmet | KLBrack | KQuestion => true | _ => false end.
(** parse.go:440-445 (nextPrecedence). *)
Definition next_precedence (k : kind) : nat := if is_infix k then precedence k else 0.
(** lex.go:151-162 (Associativity), whether it is Right. *)
Definition right_assoc (k : kind) : bool := match k with KNot | KBNot => true | _ => false end.

Section Names.
(** The text of the attribute names. *)
Variable attr_name : list Z -> option bool.

(** parse.go:38-47 (Add); [attr_name] says whether the name is ExtRet ([Some true]),
    RawValues ([Some false]) or another one. *)
Definition attr_add (a : attributes) (v : list Z) : attributes :=
  match attr_name v with Some true => (true, snd a) | Some false => (fst a, true) | None => a end.

(** parse.go:304-313 (parseCall), given parseExpr(0). *)
Definition parse_call (n : nat) (pe : parser node) (left : node) (t : token) (types : list node) : parser node :=
  l <- list_until n KRParen pe ;; ret (Node no_attrs OpFuncCall t (Some left) None l types).

Fixpoint parse_expr (n : nat) (prec : nat) : parser node :=
  (* parse.go:430-453 (parseExpr) *)
  match n with
  | O => no_fuel
  | S n =>
    t <- next ;;
    let prefix : option (parser node) :=
      match tk_kind t with
      | KIdentifier => Some (ret (leaf OpIdentifier t))                          (* parseIdentifier, 329 *)
      | KLParen => Some (e <- parse_expr n 0 ;; need KRParen ;; ret e)           (* parseGroup, 337 *)
      | KInteger | KString | KTrue | KFalse => Some (ret (leaf OpLit t))         (* parseLiteral, 333 *)
      | KFn => Some (parse_fn n no_attrs t true)                                 (* parseFunction, 300 *)
      | KType => Some (need KLParen ;; x <- parse_type n ;; need KRParen ;; ret x) (* parseType, 347 *)
      | KLBrack => Some (l <- list_until n KRBrack (parse_expr n 0) ;;
          ret (Node no_attrs OpArrayLit t None None l []))                       (* parseArrayLiteral, 354 *)
      | KNot | KBNot | KMin => Some (e <- parse_expr n (precedence (tk_kind t)) ;;
          ret (Node no_attrs (prefix_op (tk_kind t)) t (Some e) None [] []))     (* parsePrefixOperator, 343 *)
      | _ => None
      end in
    match prefix with
    | None => syntax_error XExpression ;; t1 <- next ;; ret (leaf OpError t1)
    | Some p => left <- p ;; infix_loop n prec left
    end
  end
with infix_loop (n : nat) (prec : nat) (left : node) : parser node :=
  (* parse.go:448-452 *)
  match n with
  | O => no_fuel
  | S n =>
    k <- cur_kind ;;
    if negb (prec <? next_precedence k) then ret left else
    t <- next ;; left1 <- parse_infix n left t ;; infix_loop n prec left1
  end
with parse_infix (n : nat) (left : node) (t : token) : parser node :=
  match n with
  | O => no_fuel
  | S n =>
    match tk_kind t with
    | KLParen => parse_call n (parse_expr n 0) left t []
    | KLGmet =>                                                                  (* parseTypedCall, 315 *)
        types <- list_until n KRGmet (parse_type n) ;; need KLParen ;; parse_call n (parse_expr n 0) left t types
    | KLBrack => i <- parse_expr n 0 ;; need KRBrack ;;                          (* parseArray, 294 *)
        ret (Node no_attrs OpArray t (Some left) (Some i) [] [])
    | KQuestion => a <- parse_expr n 0 ;; need KColon ;;                         (* parseTernaryOperator, 288 *)
        b <- parse_expr n (precedence (tk_kind t) - 1) ;; ret (Node no_attrs OpTernary t (Some left) None [a; b] [])
    | k =>
        if is_binary k then                                                      (* parseBinaryOperator, 280 *)
          r <- parse_expr n (precedence k - if right_assoc k then 1 else 0) ;;
          ret (Node no_attrs (infix_op k) t (Some left) (Some r) [] [])
        else fun _ => Crash                                                      (* a nil function *)
    end
  end
with parse_fn (n : nat) (attrs : attributes) (id : token) (anon : bool) : parser node :=
  (* parse.go:132-163 (parseFn) *)
  match n with
  | O => no_fuel
  | S n =>
    id <- (if anon then ret id else need KIdentifier) ;;
    k <- cur_kind ;;
    tl <- (if kind_eqb k KLGmet then x <- type_list n (parse_type n) ;;
             ret (Some (Node no_attrs OpTypeList (snd x) None None [] (fst x))) else ret None) ;;
    ps <- parse_parameters n ;;
    b <- is [KFn; KLBrack; KIdentifier] ;;
    r <- (if b : bool then x <- parse_type n ;; ret (Some x) else ret None) ;;
    k <- cur_kind ;;
    match k with
    | KLBrace => l <- parse_block n ;; ret (Node attrs OpBlockFn id r tl l ps)
    | KAs => next ;; e <- parse_expr n 0 ;; ret (Node attrs OpExprFn id r tl [e] ps)
    | _ =>
      if anon then syntax_error XFnBody ;; next ;; ret (Node attrs OpBlockFn id r tl [] ps)
      else ret (Node attrs OpExternFn id r tl [] ps)
    end
  end
with parse_block (n : nat) : parser (list node) :=
  (* parse.go:165-172 (parseBlock) *)
  match n with
  | O => no_fuel
  | S n => need KLBrace ;; l <- many n [KRBrace] (parse_statement n) ;; need KRBrace ;; ret l
  end
with parse_statement (n : nat) : parser node :=
  (* parse.go:174-207 (parseStatement) *)
  match n with
  | O => no_fuel
  | S n =>
    k <- cur_kind ;;
    match k with
    | KReturn =>                                                                 (* parseReturn, 209 *)
        t <- need KReturn ;; k1 <- cur_kind ;;
        e <- (if is_expr_start k1 then x <- parse_expr n 0 ;; ret (Some x) else ret None) ;;
        ret (Node no_attrs OpReturn t e None [] [])
    | KWhile =>                                                                  (* parseWhile, 217 *)
        t <- need KWhile ;; c <- parse_expr n 0 ;; l <- parse_block n ;; ret (Node no_attrs OpWhile t (Some c) None l [])
    | KFor =>                                                                    (* parseFor, 221 *)
        t <- need KFor ;; v <- need KIdentifier ;; need KIn ;; e <- parse_expr n 0 ;; b <- is [KDotDot] ;;
        r <- (if b : bool then d <- next ;; e2 <- parse_expr n 0 ;; ret (Node no_attrs OpRange d (Some e) (Some e2) [] []) else ret e) ;;
        l <- parse_block n ;; ret (Node no_attrs OpFor t (Some (leaf OpIdentifier v)) (Some r) l [])
    | KIf =>                                                                     (* parseIf, 232 *)
        t <- need KIf ;; c <- parse_expr n 0 ;; l <- parse_block n ;; r <- parse_else n ;;
        ret (Node no_attrs OpIf t (Some c) r l [])
    | KMatch =>                                                                  (* parseMatch, 244 *)
        t <- need KMatch ;; e <- parse_expr n 0 ;; need KLBrace ;;
        l <- many n [KRBrace] (parse_case n) ;; need KRBrace ;; ret (Node no_attrs OpMatch t (Some e) None l [])
    | _ =>
      if is_expr_start k then
        e <- parse_expr n 0 ;; k1 <- cur_kind ;;
        match k1 with
        | KAs => t <- need KAs ;; r <- parse_expr n 0 ;; ret (Node no_attrs OpAs t (Some e) (Some r) [] [])
        | KDas => t <- need KDas ;; r <- parse_expr n 0 ;; ret (Node no_attrs OpDas t (Some e) (Some r) [] [])
        | _ => ret e
        end
      else syntax_error XStatement ;; t <- next ;; ret (leaf OpError t)
    end
  end
with parse_else (n : nat) : parser (option node) :=
  (* parse.go:234-240, the loop that links the other branches from right to left *)
  match n with
  | O => no_fuel
  | S n =>
    b <- is [KElseIf] ;;
    if b : bool then
      t <- need KElseIf ;; c <- parse_expr n 0 ;; l <- parse_block n ;; r <- parse_else n ;;
      ret (Some (Node no_attrs OpElseIf t (Some c) r l []))
    else
      b <- is [KElse] ;;
      if b : bool then t <- need KElse ;; l <- parse_block n ;; ret (Some (Node no_attrs OpElse t None None l []))
      else ret None
  end
with parse_case (n : nat) : parser node :=
  (* parse.go:252-260 *)
  match n with
  | O => no_fuel
  | S n =>
    need KCase ;; t <- need KIdentifier ;; ps <- parse_identifiers n ;; need KColon ;;
    l <- many n [KCase; KRBrace] (parse_statement n) ;; ret (Node no_attrs OpCase t None None l ps)
  end.

(* ----------------------------------------------------------------------- declarations *)

(** parse.go:84-97 (parseAttributes); the check is for the opening bracket. *)
Definition parse_attributes (n : nat) : parser attributes :=
  b <- is [KHash] ;;
  if b : bool then
    need KHash ;; need KLBrack ;; b <- is [KLBrack] ;;
    l <- (if b : bool then ret [] else comma_sep n (need KIdentifier)) ;; need KRBrack ;;
    ret (fold_left (fun a t => attr_add a (tk_val t)) l no_attrs)
  else ret no_attrs.
(** parse.go:99-115 (parseEnum). *)
Definition parse_cons (n : nat) (id : token) : parser node :=
  t <- need KIdentifier ;; ps <- parse_parameters n ;;
  ret (Node no_attrs OpConsFn t (Some (leaf OpNamedType id)) None [] ps).
Definition parse_enum (n : nat) (attrs : attributes) : parser node :=
  need KEnum ;; id <- need KIdentifier ;; tps <- type_params n ;;
  need KLBrace ;; l <- many n [KRBrace] (parse_cons n id) ;; need KRBrace ;;
  ret (Node attrs OpEnum id None None l tps).
(** parse.go:117-130 (parseStruct). *)
Definition parse_struct (n : nat) (attrs : attributes) : parser node :=
  need KStruct ;; id <- need KIdentifier ;; tps <- type_params n ;;
  need KLBrace ;; l <- many n [KRBrace] (parse_parameter n) ;; need KRBrace ;;
  ret (Node attrs OpStruct id None None l tps).
(** One round of the loop in Parse, parse.go:61-80; what is added to the root, if any. *)
Definition parse_decl (n : nat) : parser (option node) :=
  attrs <- parse_attributes n ;; k <- cur_kind ;;
  match k with
  | KFn => t <- need KFn ;; x <- parse_fn n attrs t false ;; ret (Some x)
  | KStruct => x <- parse_struct n attrs ;; ret (Some x)
  | KEnum => x <- parse_enum n attrs ;; ret (Some x)
  | _ => syntax_error XDecl ;; next ;; ret None
  end.

(** parse.go:49-82 (Parse).  [root] are the nodes already in the tree.  The result is the
    tree's nodes and the errors, oldest first, or none if the parser does not end by a
    return or the panic that onUnexpectedEof (600-607) recovers from. *)
Fixpoint parse_loop (n : nat) (fuel : nat) (root : list node) (s : state) : option (list node * list (token * expected)) :=
  match n with
  | O => None
  | S n =>
    match is [KEOF] s with
    | Ok true s1 => match need KEOF s1 with Ok _ s2 | Stop s2 => Some (root, rev (errs s2)) | _ => None end
    | Ok false s1 =>
      match parse_decl fuel s1 with
      | Ok (Some x) s2 => parse_loop n fuel (root ++ [x]) s2
      | Ok None s2 => parse_loop n fuel root s2
      | Stop s2 => Some (root, rev (errs s2))
      | _ => None
      end
    | _ => None
    end
  end.
Definition parse (fuel : nat) (ts : list token) (root : list node) : option (list node * list (token * expected)) :=
  parse_loop fuel fuel root (State ts [] false).
End Names.
