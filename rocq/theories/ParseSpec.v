(** The language that the parser should accept: program trees, how they are written, and
    where parentheses are needed.  Independent of the parser, but for the form of the
    trees that it returns. *)
From Coq Require Import ZArith List Bool Arith.
From Verif Require Import LexModel ParseModel.
Import ListNotations.
Open Scope nat_scope.

(* ------------------------------------------------------------------- program trees *)

Definition name := list Z.
Inductive ty :=
| TyName (x : name) (args : option (list ty))      (* int, list«int» *)
| TyFn (ps : list ty) (r : option ty)              (* fn(int, int) int *)
| TyArr (t : ty).                                  (* []int *)
Inductive literal := LInt (v : list Z) | LStr (v : list Z) | LTrue | LFalse.
Inductive unary := UNot | UBNot | UNeg.
Inductive binary := BDot | BMul | BDiv | BAdd | BSub | BShl | BShr | BGt | BGte | BLt | BLte | BEq | BAnd | BXor | BOr | BLand | BLor.
Inductive expr :=
| Id (x : name)
| Lit (l : literal)
| Paren (e : expr)
| Pre (u : unary) (e : expr)
| Bin (o : binary) (a b : expr)
| Cond (c a b : expr)                              (* c ? a : b *)
| Index (a i : expr)
| Call (f : expr) (args : list expr)
| TCall (f : expr) (ts : list ty) (args : list expr) (* f«int»(x) *)
| Arr (es : list expr)
| TypeOf (t : ty)                                  (* type(int) *)
| Fn (tps : option (list ty)) (ps : list (name * ty)) (r : option ty) (b : body)
with body :=
| Block (l : list stmt)
| Expr (e : expr)                                  (* = e *)
with stmt :=
| Return (e : option expr)
| While (c : expr) (l : list stmt)
| For (x : name) (e : expr) (to : option expr) (l : list stmt)
| If (c : expr) (l : list stmt) (r : branch)
| Match (e : expr) (cs : list (name * list name * list stmt))
| Assign (a e : expr)
| Declare (a e : expr)
| Do (e : expr)
with branch :=
| NoElse
| ElseIf (c : expr) (l : list stmt) (r : branch)
| Else (l : list stmt).
Inductive decl :=
| DFn (attrs : list name) (x : name) (tps : option (list ty)) (ps : list (name * ty)) (r : option ty) (b : option body)
| DStruct (attrs : list name) (x : name) (tps : option (list ty)) (fields : list (name * ty))
| DEnum (attrs : list name) (x : name) (tps : option (list ty)) (cs : list (name * list (name * ty))).

(* -------------------------------------------------------------------- how it is written *)

(** A token without its position; only identifiers and literals have a text. *)
Definition word := (kind * list Z)%type.
Definition sym (k : kind) : word := (k, []).
Definition look (t : token) : word :=
  (tk_kind t, match tk_kind t with KIdentifier | KString | KInteger => tk_val t | _ => [] end).

Fixpoint commas (l : list (list word)) : list word :=
  match l with [] => [] | [x] => x | x :: r => x ++ sym KComma :: commas r end.
Definition opt {A} (f : A -> list word) (o : option A) : list word := match o with Some x => f x | None => [] end.
Fixpoint show_ty (t : ty) : list word :=
  match t with
  | TyName x None => [(KIdentifier, x)]
  | TyName x (Some l) => (KIdentifier, x) :: sym KLGmet :: commas (map show_ty l) ++ [sym KRGmet]
  | TyFn ps r => sym KFn :: sym KLParen :: commas (map show_ty ps) ++ sym KRParen :: match r with Some t => show_ty t | None => [] end
  | TyArr t => sym KLBrack :: sym KRBrack :: show_ty t
  end.
Definition show_tys (l : list ty) : list word := sym KLGmet :: commas (map show_ty l) ++ [sym KRGmet].
Definition show_param (p : name * ty) : list word := (KIdentifier, fst p) :: sym KColon :: show_ty (snd p).
Definition show_params (ps : list (name * ty)) : list word := sym KLParen :: commas (map show_param ps) ++ [sym KRParen].
Definition show_lit (l : literal) : word :=
  match l with LInt v => (KInteger, v) | LStr v => (KString, v) | LTrue => sym KTrue | LFalse => sym KFalse end.
Definition un_kind (u : unary) : kind := match u with UNot => KNot | UBNot => KBNot | UNeg => KMin end.
Definition bin_kind (o : binary) : kind :=
  match o with
  | BDot => KDot | BMul => KMul | BDiv => KDiv | BAdd => KPlus | BSub => KMin | BShl => KBLeft | BShr => KBRight
  | BGt => KGt | BGte => KGte | BLt => KLt | BLte => KLte | BEq => KEq | BAnd => KBAnd | BXor => KBXor | BOr => KBOr | BLand => KAnd | BLor => KOr
  end.
Definition show_case_head (x : name) (ids : list name) : list word :=
  sym KCase :: (KIdentifier, x) :: sym KLParen :: commas (map (fun i => [(KIdentifier, i)]) ids) ++ [sym KRParen; sym KColon].
Fixpoint show (e : expr) : list word :=
  match e with
  | Id x => [(KIdentifier, x)]
  | Lit l => [show_lit l]
  | Paren e => sym KLParen :: show e ++ [sym KRParen]
  | Pre u e => sym (un_kind u) :: show e
  | Bin o a b => show a ++ sym (bin_kind o) :: show b
  | Cond c a b => show c ++ sym KQuestion :: show a ++ sym KColon :: show b
  | Index a i => show a ++ sym KLBrack :: show i ++ [sym KRBrack]
  | Call f args => show f ++ sym KLParen :: commas (map show args) ++ [sym KRParen]
  | TCall f ts args => show f ++ show_tys ts ++ sym KLParen :: commas (map show args) ++ [sym KRParen]
  | Arr es => sym KLBrack :: commas (map show es) ++ [sym KRBrack]
  | TypeOf t => sym KType :: sym KLParen :: show_ty t ++ [sym KRParen]
  | Fn tps ps r b => sym KFn :: opt show_tys tps ++ show_params ps ++ opt show_ty r ++ show_body b
  end
with show_body (b : body) : list word :=
  match b with
  | Block l => sym KLBrace :: flat_map show_stmt l ++ [sym KRBrace]
  | Expr e => sym KAs :: show e
  end
with show_stmt (s : stmt) : list word :=
  match s with
  | Return None => [sym KReturn]
  | Return (Some e) => sym KReturn :: show e
  | While c l => sym KWhile :: show c ++ sym KLBrace :: flat_map show_stmt l ++ [sym KRBrace]
  | For x e to l => sym KFor :: (KIdentifier, x) :: sym KIn :: show e ++
      match to with Some e2 => sym KDotDot :: show e2 | None => [] end ++ sym KLBrace :: flat_map show_stmt l ++ [sym KRBrace]
  | If c l r => sym KIf :: show c ++ sym KLBrace :: flat_map show_stmt l ++ sym KRBrace :: show_branch r
  | Match e cs => sym KMatch :: show e ++ sym KLBrace ::
      flat_map (fun c => show_case_head (fst (fst c)) (snd (fst c)) ++ flat_map show_stmt (snd c)) cs ++ [sym KRBrace]
  | Assign a e => show a ++ sym KAs :: show e
  | Declare a e => show a ++ sym KDas :: show e
  | Do e => show e
  end
with show_branch (r : branch) : list word :=
  match r with
  | NoElse => []
  | ElseIf c l r => sym KElseIf :: show c ++ sym KLBrace :: flat_map show_stmt l ++ sym KRBrace :: show_branch r
  | Else l => sym KElse :: sym KLBrace :: flat_map show_stmt l ++ [sym KRBrace]
  end.
Definition show_block (l : list stmt) : list word := sym KLBrace :: flat_map show_stmt l ++ [sym KRBrace].
Definition show_case (c : name * list name * list stmt) : list word :=
  show_case_head (fst (fst c)) (snd (fst c)) ++ flat_map show_stmt (snd c).
Definition show_attrs (l : list name) : list word :=
  match l with [] => [] | _ => sym KHash :: sym KLBrack :: commas (map (fun x => [(KIdentifier, x)]) l) ++ [sym KRBrack] end.
Definition show_decl (d : decl) : list word :=
  match d with
  | DFn attrs x tps ps r b => show_attrs attrs ++ sym KFn :: (KIdentifier, x) :: opt show_tys tps ++ show_params ps ++ opt show_ty r ++ opt show_body b
  | DStruct attrs x tps fs => show_attrs attrs ++ sym KStruct :: (KIdentifier, x) :: opt show_tys tps ++
      sym KLBrace :: flat_map show_param fs ++ [sym KRBrace]
  | DEnum attrs x tps cs => show_attrs attrs ++ sym KEnum :: (KIdentifier, x) :: opt show_tys tps ++
      sym KLBrace :: flat_map (fun c => (KIdentifier, fst c) :: show_params (snd c)) cs ++ [sym KRBrace]
  end.
Definition show_program (p : list decl) : list word := flat_map show_decl p ++ [sym KEOF].

(* --------------------------------------------------------- the trees the parser returns *)

(** Tokens and nodes without positions. *)
Definition bare (w : word) : token := Token (fst w) (snd w) 0 0.
Definition strip (t : token) : token := bare (look t).
Fixpoint erase (n : node) : node :=
  match n with
  | Node a o t l r ss ps => Node a o (strip t) (option_map erase l) (option_map erase r) (map erase ss) (map erase ps)
  end.

Definition mk (o : op) (w : word) : node := leaf o (bare w).
Fixpoint node_ty (t : ty) : node :=
  match t with
  | TyName x args => Node no_attrs OpNamedType (bare (KIdentifier, x))
      (match args with Some l => Some (Node no_attrs OpTypeList (bare (sym KLGmet)) None None [] (map node_ty l)) | None => None end) None [] []
  | TyFn ps r => Node no_attrs OpFuncType (bare (sym KFn)) (match r with Some t => Some (node_ty t) | None => None end) None (map node_ty ps) []
  | TyArr t => Node no_attrs OpArrayType (bare (sym KLBrack)) (Some (node_ty t)) None [] []
  end.
Definition node_tys (l : list ty) : node := Node no_attrs OpTypeList (bare (sym KLGmet)) None None [] (map node_ty l).
Definition node_param (p : name * ty) : node :=
  Node no_attrs OpIdentifier (bare (KIdentifier, fst p)) (Some (node_ty (snd p))) None [] [].
Definition un_op (u : unary) : op := match u with UNot => OpNot | UBNot => OpBNot | UNeg => OpNeg end.
Definition bin_op (o : binary) : op :=
  match o with
  | BDot => OpDot | BMul => OpMul | BDiv => OpDiv | BAdd => OpAdd | BSub => OpSub | BShl => OpBLeft | BShr => OpBRight
  | BGt => OpGt | BGte => OpGte | BLt => OpLt | BLte => OpLte | BEq => OpEq | BAnd => OpBAnd | BXor => OpBXor | BOr => OpBOr | BLand => OpAnd | BLor => OpOr
  end.
Definition fn_node (attrs : attributes) (o : op) (w : word) tps ps r (l : list node) : node :=
  Node attrs o (bare w) (option_map node_ty r) (option_map node_tys tps) l (map node_param ps).
Definition block_op (b : body) : op := match b with Block _ => OpBlockFn | Expr _ => OpExprFn end.
Fixpoint node_of (e : expr) : node :=
  match e with
  | Id x => mk OpIdentifier (KIdentifier, x)
  | Lit l => mk OpLit (show_lit l)
  | Paren e => node_of e
  | Pre u e => Node no_attrs (un_op u) (bare (sym (un_kind u))) (Some (node_of e)) None [] []
  | Bin o a b => Node no_attrs (bin_op o) (bare (sym (bin_kind o))) (Some (node_of a)) (Some (node_of b)) [] []
  | Cond c a b => Node no_attrs OpTernary (bare (sym KQuestion)) (Some (node_of c)) None [node_of a; node_of b] []
  | Index a i => Node no_attrs OpArray (bare (sym KLBrack)) (Some (node_of a)) (Some (node_of i)) [] []
  | Call f args => Node no_attrs OpFuncCall (bare (sym KLParen)) (Some (node_of f)) None (map node_of args) []
  | TCall f ts args => Node no_attrs OpFuncCall (bare (sym KLGmet)) (Some (node_of f)) None (map node_of args) (map node_ty ts)
  | Arr es => Node no_attrs OpArrayLit (bare (sym KLBrack)) None None (map node_of es) []
  | TypeOf t => node_ty t
  | Fn tps ps r b => fn_node no_attrs (block_op b) (sym KFn) tps ps r (nodes_body b)
  end
with nodes_body (b : body) : list node :=
  match b with Block l => map node_stmt l | Expr e => [node_of e] end
with node_stmt (s : stmt) : node :=
  match s with
  | Return e => Node no_attrs OpReturn (bare (sym KReturn)) (match e with Some e => Some (node_of e) | None => None end) None [] []
  | While c l => Node no_attrs OpWhile (bare (sym KWhile)) (Some (node_of c)) None (map node_stmt l) []
  | For x e to l => Node no_attrs OpFor (bare (sym KFor)) (Some (mk OpIdentifier (KIdentifier, x)))
      (Some (match to with Some e2 => Node no_attrs OpRange (bare (sym KDotDot)) (Some (node_of e)) (Some (node_of e2)) [] [] | None => node_of e end))
      (map node_stmt l) []
  | If c l r => Node no_attrs OpIf (bare (sym KIf)) (Some (node_of c)) (node_branch r) (map node_stmt l) []
  | Match e cs => Node no_attrs OpMatch (bare (sym KMatch)) (Some (node_of e)) None
      (map (fun c => Node no_attrs OpCase (bare (KIdentifier, fst (fst c))) None None (map node_stmt (snd c))
              (map (fun i => mk OpIdentifier (KIdentifier, i)) (snd (fst c)))) cs) []
  | Assign a e => Node no_attrs OpAs (bare (sym KAs)) (Some (node_of a)) (Some (node_of e)) [] []
  | Declare a e => Node no_attrs OpDas (bare (sym KDas)) (Some (node_of a)) (Some (node_of e)) [] []
  | Do e => node_of e
  end
with node_branch (r : branch) : option node :=
  match r with
  | NoElse => None
  | ElseIf c l r => Some (Node no_attrs OpElseIf (bare (sym KElseIf)) (Some (node_of c)) (node_branch r) (map node_stmt l) [])
  | Else l => Some (Node no_attrs OpElse (bare (sym KElse)) None None (map node_stmt l) [])
  end.
Definition node_case (c : name * list name * list stmt) : node :=
  Node no_attrs OpCase (bare (KIdentifier, fst (fst c))) None None (map node_stmt (snd c))
    (map (fun i => mk OpIdentifier (KIdentifier, i)) (snd (fst c))).
Definition tys (o : option (list ty)) : list node := match o with Some l => map node_ty l | None => [] end.
Section Names.
Variable attr_name : list Z -> option bool.
Definition attrs_of (l : list name) : attributes :=
  (existsb (fun x => match attr_name x with Some true => true | _ => false end) l,
   existsb (fun x => match attr_name x with Some false => true | _ => false end) l).
Definition node_decl (d : decl) : node :=
  match d with
  | DFn attrs x tps ps r None => fn_node (attrs_of attrs) OpExternFn (KIdentifier, x) tps ps r []
  | DFn attrs x tps ps r (Some b) => fn_node (attrs_of attrs) (block_op b) (KIdentifier, x) tps ps r (nodes_body b)
  | DStruct attrs x tps fs => Node (attrs_of attrs) OpStruct (bare (KIdentifier, x)) None None (map node_param fs) (tys tps)
  | DEnum attrs x tps cs => Node (attrs_of attrs) OpEnum (bare (KIdentifier, x)) None None
      (map (fun c => Node no_attrs OpConsFn (bare (KIdentifier, fst c)) (Some (mk OpNamedType (KIdentifier, x))) None [] (map node_param (snd c))) cs) (tys tps)
  end.
End Names.

(* ----------------------------------------------------------------- where brackets go *)

(** How tightly operators bind, lex.go:109-142, but for unary minus, which binds like the
    binary one. *)
Definition bin_prec (o : binary) : nat :=
  match o with
  | BDot => 12 | BMul | BDiv => 10 | BAdd | BSub => 9 | BShl | BShr => 8 | BGt | BGte | BLt | BLte => 7 | BEq => 6
  | BAnd => 5 | BXor => 4 | BOr => 3 | BLand => 2 | BLor => 1
  end.
Definition un_prec (neg : nat) (u : unary) : nat := match u with UNot | UBNot => 11 | UNeg => neg end.

(** The binding of the outermost operator; [neg] is that of unary minus. *)
Definition level (neg : nat) (e : expr) : nat :=
  match e with
  | Pre u _ => un_prec neg u
  | Bin o _ _ => bin_prec o
  | Cond _ _ _ => 1
  | Index _ _ => 12
  | Call _ _ | TCall _ _ _ => 13
  | Fn _ _ _ (Expr _) => 0
  | _ => 14
  end.
Definition is_cond (e : expr) : bool := match e with Cond _ _ _ => true | _ => false end.
Definition is_pre (e : expr) : bool := match e with Pre _ _ => true | _ => false end.
Definition wrap (b : bool) (e : expr) : expr := if b then Paren e else e.
(** A tree with brackets around the operands that bind less tightly than their operator,
    or equally tightly on the wrong side; binary operators associate to the left, the
    conditional one to the right, prefix operators to the right. *)
Section Bracket.
Variable neg : nat.
Fixpoint bracket (e : expr) : expr :=
  match e with
  | Id _ | Lit _ | TypeOf _ => e
  | Paren e => Paren (bracket e)
  | Pre u a => Pre u (wrap ((level neg a <? un_prec neg u) || ((level neg a =? un_prec neg u) && negb (is_pre a))) (bracket a))
  | Bin o a b => Bin o (wrap ((level neg a <? bin_prec o) || ((level neg a =? bin_prec o) && is_cond a)) (bracket a))
      (wrap (level neg b <=? bin_prec o) (bracket b))
  | Cond c a b => Cond (wrap (level neg c <=? 1) (bracket c)) (bracket a) (bracket b)
  | Index a i => Index (wrap (level neg a <? 12) (bracket a)) (bracket i)
  | Call f args => Call (wrap (level neg f <? 13) (bracket f)) (map bracket args)
  | TCall f ts args => TCall (wrap (level neg f <? 13) (bracket f)) ts (map bracket args)
  | Arr es => Arr (map bracket es)
  | Fn tps ps r b => Fn tps ps r (bracket_body b)
  end
with bracket_body (b : body) : body :=
  match b with Block l => Block (map bracket_stmt l) | Expr e => Expr (bracket e) end
with bracket_stmt (s : stmt) : stmt :=
  match s with
  | Return e => Return (match e with Some e => Some (bracket e) | None => None end)
  | While c l => While (bracket c) (map bracket_stmt l)
  | For x e to l => For x (bracket e) (match to with Some e2 => Some (bracket e2) | None => None end) (map bracket_stmt l)
  | If c l r => If (bracket c) (map bracket_stmt l) (bracket_branch r)
  | Match e cs => Match (bracket e) (map (fun c => (fst (fst c), snd (fst c), map bracket_stmt (snd c))) cs)
  | Assign a e => Assign (bracket a) (bracket e)
  | Declare a e => Declare (bracket a) (bracket e)
  | Do e => Do (bracket e)
  end
with bracket_branch (r : branch) : branch :=
  match r with
  | NoElse => NoElse
  | ElseIf c l r => ElseIf (bracket c) (map bracket_stmt l) (bracket_branch r)
  | Else l => Else (map bracket_stmt l)
  end.
Definition bracket_decl (d : decl) : decl :=
  match d with DFn attrs x tps ps r (Some b) => DFn attrs x tps ps r (Some (bracket_body b)) | _ => d end.
End Bracket.

(** The smallest binding of an operator whose last operand is at the end of the text: an
    operator after it that binds tighter would belong to that operand. *)
Fixpoint edge (e : expr) : nat :=
  match e with
  | Pre u a => Nat.min (un_prec 9 u) (edge a)
  | Bin o a b => Nat.min (bin_prec o) (edge b)
  | Cond _ _ _ | Fn _ _ _ (Expr _) => 0
  | _ => 14
  end.

(* ------------------------------------------------------------------- what can follow *)

Definition first (w : list word) : kind := match w with (k, _) :: _ => k | [] => KEOF end.
Definition in_kinds (k : kind) (l : list kind) : bool := existsb (kind_eqb k) l.
(** An operator after an expression. *)
Definition continues (k : kind) : bool :=
  in_kinds k [KLParen; KLGmet; KLBrack; KQuestion; KDot; KMul; KDiv; KPlus; KMin; KBLeft; KBRight; KGt; KGte; KLt; KLte; KEq; KBAnd; KBXor; KBOr; KAnd; KOr].
(** Tokens that a statement or a returned value can begin with if it begins with an
    expression, lex.go:100-107: not all that expressions can begin with. *)
Definition begins (k : kind) : bool :=
  in_kinds k [KInteger; KString; KIdentifier; KTrue; KFalse; KNot; KLParen; KFn; KMin; KLBrack].
(** Tokens that an expression can follow, other than at the start of a statement. *)
Definition wants (k : kind) : bool :=
  in_kinds k [KLParen; KLBrack; KComma; KQuestion; KColon; KAs; KDas; KWhile; KIf; KElseIf; KMatch; KIn; KDotDot; KNot; KBNot;
    KDot; KMul; KDiv; KPlus; KMin; KBLeft; KBRight; KGt; KGte; KLt; KLte; KEq; KBAnd; KBXor; KBOr; KAnd; KOr].
(** What follows a type is not taken for its end. *)
Fixpoint ty_ends (t : ty) (k : kind) : bool :=
  match t with
  | TyName _ None => negb (kind_eqb k KLGmet)
  | TyName _ (Some _) => true
  | TyFn _ None => negb (in_kinds k [KFn; KIdentifier; KLBrack])
  | TyFn _ (Some t) | TyArr t => ty_ends t k
  end.
Definition stmt_ends (s : stmt) (k : kind) : bool :=
  match s with
  | Return None => negb (begins k)
  | Return (Some _) | Assign _ _ | Declare _ _ => negb (continues k)
  | Do _ => negb (continues k || in_kinds k [KAs; KDas])
  | If _ _ r => negb (in_kinds k [KElseIf; KElse])
  | _ => true
  end.
Definition body_ends (b : body) (k : kind) : bool := match b with Block _ => true | Expr _ => negb (continues k) end.

(** Trees in which brackets are where they are needed ([c] turns this on) and statements
    can be told apart ([a]): nothing else separates a statement from the next one. *)
Section Fits.
Variable c a : bool.
Definition if_ (b x : bool) : bool := negb b || x.
Fixpoint ends_all {A} (ends : A -> kind -> bool) (sh : A -> list word) (l : list A) (close : kind) : bool :=
  match l with
  | [] => true
  | x :: r => ends x (match r with [] => close | y :: _ => first (sh y) end) && ends_all ends sh r close
  end.
Fixpoint fits (l : nat) (e : expr) : bool :=
  match e with
  | Id _ | Lit _ | TypeOf _ => true
  | Paren e => fits 0 e
  | Pre u x => fits (un_prec 9 u) x
  | Bin o x y => if_ c ((l <? bin_prec o) && (bin_prec o <=? edge x)) && fits l x && fits (bin_prec o) y
  | Cond k x y => if_ c ((l <? 1) && (1 <=? edge k)) && fits l k && fits 0 x && fits 0 y
  | Index x i => if_ c ((l <? 12) && (12 <=? edge x)) && fits l x && fits 0 i
  | Call f args => if_ c ((l <? 13) && (13 <=? edge f)) && fits l f && forallb (fits 0) args
  | TCall f _ args => if_ c ((l <? 13) && (13 <=? edge f)) && fits l f && forallb (fits 0) args
  | Arr es => forallb (fits 0) es
  | Fn _ _ _ b => fits_body b
  end
with fits_body (b : body) : bool :=
  match b with
  | Block l => if_ a (ends_all stmt_ends show_stmt l KRBrace) && forallb fits_stmt l
  | Expr e => fits 0 e
  end
with fits_stmt (s : stmt) : bool :=
  match s with
  | Return None => true
  | Return (Some e) => if_ a (begins (first (show e))) && fits 0 e
  | While k l => fits 0 k && if_ a (ends_all stmt_ends show_stmt l KRBrace) && forallb fits_stmt l
  | For _ e to l => fits 0 e && match to with Some e2 => fits 0 e2 | None => true end &&
      if_ a (ends_all stmt_ends show_stmt l KRBrace) && forallb fits_stmt l
  | If k l r => fits 0 k && if_ a (ends_all stmt_ends show_stmt l KRBrace) && forallb fits_stmt l && fits_branch r
  | Match e cs => fits 0 e && forallb (fun k => if_ a (ends_all stmt_ends show_stmt (snd k) KRBrace) && forallb fits_stmt (snd k)) cs
  | Assign x e | Declare x e => if_ a (begins (first (show x))) && fits 0 x && fits 0 e
  | Do e => if_ a (begins (first (show e))) && fits 0 e
  end
with fits_branch (r : branch) : bool :=
  match r with
  | NoElse => true
  | ElseIf k l r => fits 0 k && if_ a (ends_all stmt_ends show_stmt l KRBrace) && forallb fits_stmt l && fits_branch r
  | Else l => if_ a (ends_all stmt_ends show_stmt l KRBrace) && forallb fits_stmt l
  end.
Definition fits_block (l : list stmt) : bool := if_ a (ends_all stmt_ends show_stmt l KRBrace) && forallb fits_stmt l.
Definition fits_decl (d : decl) : bool :=
  match d with
  | DFn _ _ _ _ _ (Some b) => fits_body b
  | DStruct _ _ _ fs => if_ a (ends_all (fun f => ty_ends (snd f)) show_param fs KRBrace)
  | _ => true
  end.
Definition decl_ends (d : decl) (k : kind) : bool :=
  match d with
  | DFn _ _ _ _ (Some t) None => ty_ends t k
  | DFn _ _ _ _ None None => negb (in_kinds k [KFn; KIdentifier; KLBrack])
  | _ => true
  end.
Definition fits_program (p : list decl) : bool := if_ a (ends_all decl_ends show_decl p KEOF) && forallb fits_decl p.
End Fits.
