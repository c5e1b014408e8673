(** Model of the type checker's walk over functions: typecheck.go:14-690, 896-917, with
    semantic.go:335-398 for function literals.

    Trees are those of the parser (C06), names of types already replaced by types
    (instantiateType, see TypeGraph.v).  The Go code writes symbols and types into the
    tree and rewrites it; here the tree that results is built anew, with names resolved
    ([cexpr], [cstmt]).  Scopes are lists of frames, innermost first (this is what the
    symbol tables do, C10).

    Beside the errors of the code the model notes where the code accepts something whose
    types it did not settle ([Odd]).  These notes have no influence on the errors. *)
From Coq Require Import String List Bool PeanoNat ZArith.
From Verif Require Import TypeModel.
Import ListNotations.
Local Open Scope string_scope.
Local Open Scope nat_scope.
Local Open Scope list_scope.

(* -------------------------------------------------------------------------------- trees *)

Inductive lit := LInt (z : Z) | LBool (b : bool) | LStr (s : string).
(** opAdd ... opBRight; opAnd, opOr; opGt ... opEq. *)
Inductive aop := OAdd | OSub | OMul | ODiv | OBAnd | OBOr | OBXor | OBLeft | OBRight.
Inductive lop := OAnd | OOr.
Inductive cop := OGt | OGte | OLt | OLte | OEq.

(** What the parser makes (parse.go).  The right side of a dot is any expression.  A
    function literal has type parameters, parameters and a result type (nothing if none is
    written).  Left out: tokens, and types that instantiateType refuses. *)
Inductive expr :=
| ELit (l : lit)
| EId (x : string)
| EArith (o : aop) (l r : expr)
| ELogic (o : lop) (l r : expr)
| ECmp (o : cop) (l r : expr)
| ENot (e : expr)
| EBNot (e : expr)
| ENeg (e : expr)
| ECall (f : expr) (ts : list ty) (args : list expr)
| EDot (l r : expr)
| EIndex (l r : expr)
| EArrLit (es : list expr)
| ETern (c a b : expr)
| EFn (ts : list (string * nat)) (ps : list (string * ty)) (ret : ty) (body : list stmt)
| EFnExpr (ts : list (string * nat)) (ps : list (string * ty)) (ret : ty) (e : expr)
| EType (t : ty)
with stmt :=
| SExpr (e : expr)
| SDas (l r : expr)
| SAs (l r : expr)
| SWhile (c : expr) (body : list stmt)
| SForIn (x : string) (e : expr) (body : list stmt)
| SForRange (x : string) (a b : expr) (body : list stmt)
| SIf (c : expr) (body : list stmt) (rest : option stmt)
| SElse (body : list stmt)
| SReturn (e : option expr)
| SMatch (e : expr) (cases : list (string * list string * list stmt)).

(** The tree after checking: variables by name, functions by number, fields by the name
    of their struct and their own, cases by their number. *)
Inductive cexpr :=
| CLit (l : lit)
| CVar (x : string)
| CFun (f : nat)
| CArith (o : aop) (l r : cexpr)
| CLogic (o : lop) (l r : cexpr)
| CCmp (o : cop) (l r : cexpr)
| CNot (e : cexpr)
| CBNot (e : cexpr)
| CNeg (e : cexpr)
| CCall (f : cexpr) (args : list cexpr)
| CPrint (args : list cexpr)
| CUnsafe (args : list cexpr)
| CField (e : cexpr) (n x : string)
| CLength (e : cexpr)
| CDeref (e : cexpr)
| CIndex (l r : cexpr)
| CArrLit (es : list cexpr)
| CTern (c a b : cexpr)
| CClos (ps : list (string * ty)) (ret : ty) (body : list cstmt)
| CClosExpr (ps : list (string * ty)) (ret : ty) (e : cexpr)
| CType (named : bool)
with cstmt :=
| KExpr (e : cexpr)
| KDas (x : string) (e : cexpr)
| KAs (l r : cexpr)
| KWhile (c : cexpr) (body : list cstmt)
| KForIn (x : string) (e : cexpr) (body : list cstmt)
| KForRange (x : string) (a b : cexpr) (body : list cstmt)
| KIf (c : cexpr) (body : list cstmt) (rest : option cstmt)
| KElse (body : list cstmt)
| KReturn (e : option cexpr)
| KMatch (e : cexpr) (n : string) (cases : list (nat * list string * list cstmt))
| KNone.

(* ------------------------------------------------------------------------------- scopes *)

(** What a name of the root scope stands for: overloads of a function (number and type of
    each, linked by Next), or a type.  A type that has the name of functions comes first in
    their chain; its number means nothing.  A member of an enum is known by the number of
    its constructor, printf and debug are in [g_variadic]. *)
Inductive gentry := GFuns (chain : list (nat * ty)) | GType (t : ty).
Record genv := Genv {
  g_names : list (string * gentry);
  g_structs : list (string * (list nat * list (string * ty)));
  g_enums : list (string * (list nat * list nat));
  g_variadic : list nat
}.
Inductive lentry := LVar (t : ty) | LType (t : ty).
Definition frame := list (string * lentry).

Fixpoint assoc {A} (x : string) (l : list (string * A)) : option A :=
  match l with [] => None | (y, a) :: r => if String.eqb x y then Some a else assoc x r end.
Fixpoint in_frames (F : list frame) (x : string) : option lentry :=
  match F with
  | [] => None
  | f :: F' => match assoc x f with Some e => Some e | None => in_frames F' x end
  end.
(** symtab.go:512-518 (Resolve). *)
Inductive found := FVar (t : ty) | FType (t : ty) | FFun (chain : list (nat * ty)) | FNone.
Definition resolve (G : genv) (F : list frame) (x : string) : found :=
  match in_frames F x with
  | Some (LVar t) => FVar t
  | Some (LType t) => FType t
  | None =>
    match assoc x (g_names G) with
    | Some (GFuns chain) => FFun chain
    | Some (GType t) => FType t
    | None => FNone
    end
  end.
(** symtab.go:499-505 (Define) in the innermost scope; none if the name is taken. *)
Definition define (F : list frame) (x : string) (e : lentry) : option (list frame) :=
  match F with
  | [] => None
  | f :: F' => match assoc x f with Some _ => None | None => Some (((x, e) :: f) :: F') end
  end.

(* ------------------------------------------------------------------------------- errors *)

Inductive error :=
| MismatchedTypes | InvalidOperatorType | UnknownVar | AmbiguousVar | Redeclared | NotStruct
| NoField | InvalidDot | EmptyArrayLit | NonIntegerIndex | UnexpectedAssign | NotAddressable
| NotWritable | NotAnEnumCase | InvalidNumberArgs | UnknownEnumCase | NotExhaustive | TooManyArgs
| ResolveFunction | MissingReturn | CallError (e : call_error) | NoOverload | OutOfFuel.
(** Where the code accepts without looking: errors that are dropped (typecheck.go:519-534,
    546), a field of a function's result (290-291), a type as a value (177-181, 462-463), a
    function value called with type arguments (692-792), comparison of anything but ints
    (186-198), printf and debug by name (646-651), unsafe (654-663), deref (275-280),
    assignment to a function or to the result of a call (37-46 of ast.go), a case named by a
    variable (479). *)
Inductive oddity :=
| DroppedErrors | FieldOfFunction | TypeAsValue | GenericValueCalled | NonIntComparison
| UncheckedCall | UnsafeCall | RawPointer | AssignToFunction | AssignToCall | CaseByVariable.
Inductive issue := Err (e : error) | Odd (o : oddity).

Definition is_err (i : issue) : bool := match i with Err _ => true | Odd _ => false end.
(** The errors that the code reports. *)
Definition errors (l : list issue) : list issue := filter is_err l.
Definition drop_errors (l : list issue) : list issue :=
  match errors l with [] => l | _ => Odd DroppedErrors :: filter (fun i => negb (is_err i)) l end.
Definition note (b : bool) (o : oddity) : list issue := if b then [Odd o] else [].

(** The result for an expression: errors and notes; and the tree and the type, if n.typ is
    set. *)
Definition res := (list issue * option (cexpr * ty))%type.
Definition fail (l : list issue) (e : error) : res := (l ++ [Err e], None).

(* ------------------------------------------------------------------------------ helpers *)

Definition is_int (t : ty) : bool := match t with TInt => true | _ => false end.
Definition is_bool (t : ty) : bool := match t with TBool => true | _ => false end.
Definition is_nothing (t : ty) : bool := match t with TNothing => true | _ => false end.
Definition is_fun (t : ty) : bool := match t with TFun _ _ _ _ => true | _ => false end.
Definition generic (t : ty) : bool := match t with TFun _ (_ :: _) _ _ => true | _ => false end.

(** right.left.token.Val, n.left.token.Val: the name, of an identifier; the tokens of other
    expressions that can stand there are no names. *)
Definition name_of (e : expr) : string := match e with EId x => x | _ => "" end.

(** symtab.go:289-296 (GetField), with the types of the struct's parameters put in
    (typecheck.go:794-844, see TypeGraph.v). *)
Definition field_type (G : genv) (n : string) (ts : list ty) (x : string) : option ty :=
  match assoc n (g_structs G) with
  | Some (ps, fs) => match assoc x fs with Some t => Some (subst t (bind_all ps ts [])) | None => None end
  | None => None
  end.
Definition has_field (G : genv) (t : ty) (x : string) : bool :=
  match t with TStruct _ n ts => match field_type G n ts x with Some _ => true | None => false end | _ => false end.

(** typecheck.go:896-917 (typeCheckIdentifier): the tree and the type, and the overloads. *)
Definition check_ident (G : genv) (F : list frame) (x : string) (ambiguous : bool)
  : list issue * option (cexpr * ty * list (nat * ty)) :=
  match resolve G F x with
  | FNone => ([Err UnknownVar], None)
  | FVar t => ([], Some (CVar x, t, []))
  | FType t => ([Odd TypeAsValue], Some (CType true, t, []))
  | FFun [] => ([Err UnknownVar], None)
  | FFun ((f, t) :: more) =>
    match more with
    | _ :: _ => if ambiguous then (note (negb (is_fun t)) TypeAsValue, Some (CFun f, t, (f, t) :: more)) else ([Err AmbiguousVar], None)
    | [] => (note (negb (is_fun t)) TypeAsValue, Some (CFun f, t, (f, t) :: more))
    end
  end.

(** typecheck.go:102-131, after both sides have been checked. *)
Definition binary (valid : ty -> bool) (t : ty) (mk : cexpr -> cexpr -> cexpr) (rl rr : res) : res :=
  let errs := fst rl ++ fst rr in
  match snd rl, snd rr with
  | Some (cl, tl), Some (cr, tr) =>
    if negb (valid tl) then fail errs InvalidOperatorType
    else if negb (valid tr) then fail errs InvalidOperatorType
    else (errs ++ (if matches tl tr then [] else [Err MismatchedTypes]), Some (mk cl cr, t))
  | _, _ => (errs, None)
  end.
(** typecheck.go:186-198 *)
Definition comparison (o : cop) (rl rr : res) : res :=
  let errs := fst rl ++ fst rr in
  match snd rl, snd rr with
  | Some (cl, tl), Some (cr, tr) =>
    if negb (matches tl tr) then fail errs MismatchedTypes
    else (errs ++ note (negb (is_int tl)) NonIntComparison, Some (CCmp o cl cr, TBool))
  | _, _ => (errs, None)
  end.
(** typecheck.go:133-157 *)
Definition unary (valid : ty -> bool) (t : ty) (mk : cexpr -> cexpr) (r : res) : res :=
  match snd r with
  | Some (c, u) => if valid u then (fst r, Some (mk c, t)) else fail (fst r) MismatchedTypes
  | None => (fst r, None)
  end.
(** typecheck.go:317-334 *)
Definition index (rl rr : res) : res :=
  let errs := fst rl ++ fst rr in
  match snd rl, snd rr with
  | Some (cl, tl), Some (cr, tr) =>
    if negb (is_int tr) then fail errs NonIntegerIndex
    else match tl with TArr t => (errs, Some (CIndex cl cr, t)) | _ => fail errs MismatchedTypes end
  | _, _ => (errs, None)
  end.
(** typecheck.go:265-307: the field of what is on the left.  [call] is left.op == opFuncCall. *)
Definition is_call (c : cexpr) : bool := match c with CCall _ _ | CPrint _ | CUnsafe _ => true | _ => false end.
Definition select (G : genv) (errs : list issue) (cl : cexpr) (tl : ty) (x : string) : res :=
  match tl with
  | TArr _ | TString => if String.eqb x "length" then (errs, Some (CLength cl, TInt)) else fail errs NotStruct
  | TPointer => if String.eqb x "deref" then (errs ++ [Odd RawPointer], Some (CDeref cl, TPointer)) else fail errs NotStruct
  | TStruct _ n ts =>
    match field_type G n ts x with Some t => (errs, Some (CField cl n x, t)) | None => fail errs NoField end
  | TFun _ _ _ (TStruct _ n ts) =>
    if is_call cl then
      match field_type G n ts x with
      | Some t => (errs ++ [Odd FieldOfFunction], Some (CField cl n x, t))
      | None => fail errs NoField
      end
    else fail errs NotStruct
  | _ => fail errs NotStruct
  end.

(** typecheck.go:517-539 (typeCheckTernary); the parts are checked only if those before
    have a type. *)
Definition ternary (rc : res) (ra rb : unit -> res) : res :=
  match rc with
  | (ic, None) => (ic, None)
  | (ic, Some (cc, tc)) =>
    let ic := drop_errors ic in
    if negb (is_bool tc) then fail ic MismatchedTypes
    else match ra tt with
         | (ia, None) => (ic ++ ia, None)
         | (ia, Some (ca, ta)) =>
           let ia := drop_errors ia in
           match rb tt with
           | (ib, None) => (ic ++ ia ++ ib, None)
           | (ib, Some (cb, tb)) =>
             let ib := drop_errors ib in
             if negb (matches ta tb) then fail (ic ++ ia ++ ib) MismatchedTypes
             else (ic ++ ia ++ ib, Some (CTern cc ca cb, ta))
           end
         end
  end.
(** typecheck.go:541-556 (typeCheckArrayLit); [first] is the type of the first element. *)
Fixpoint array_lit (check : expr -> res) (first : option ty) (es : list expr)
  : list issue * option (list cexpr * option ty) :=
  match es with
  | [] => ([], Some ([], first))
  | e :: es' =>
    match check e with
    | (ie, None) => (ie, None)
    | (ie, Some (c, t)) =>
      let ie := drop_errors ie in
      let t0 := match first with Some t0 => t0 | None => t end in
      if negb (matches t t0) then (ie ++ [Err MismatchedTypes], None)
      else match array_lit check (Some t0) es' with
           | (i, Some (cs, f)) => (ie ++ i, Some (c :: cs, f))
           | (i, None) => (ie ++ i, None)
           end
    end
  end.

(** typecheck.go:625-643: the arguments; an identifier may have overloads. *)
Fixpoint check_args (G : genv) (F : list frame) (check : expr -> res) (es : list expr)
  : list issue * option (list (cexpr * arg)) :=
  match es with
  | [] => ([], Some [])
  | e :: es' =>
    let '(ie, r) :=
      match e with
      | EId x => match check_ident G F x true with
                 | (i, Some (c, t, chain)) => (i, Some (c, Arg t chain))
                 | (i, None) => (i, None)
                 end
      | _ => match check e with (i, Some (c, t)) => (i, Some (c, Arg t [])) | (i, None) => (i, None) end
      end in
    match r with
    | None => (ie, None)
    | Some a =>
      match check_args G F check es' with
      | (i, Some l) => (ie ++ i, Some (a :: l))
      | (i, None) => (ie ++ i, None)
      end
    end
  end.
(** An argument after the call has been resolved: an overloaded name is now one function
    (typecheck.go:733-739, 766-772). *)
Definition settle (a : cexpr * arg) (after : arg) : cexpr :=
  if overloaded (snd a) then match ar_chain after with (f, _) :: _ => CFun f | [] => fst a end else fst a.
Fixpoint settle_all (l : list (cexpr * arg)) (after : list arg) : list cexpr :=
  match l, after with a :: l', b :: after' => settle a b :: settle_all l' after' | _, _ => [] end.

Definition max_args : nat := 6.                                     (* semantic.go:45 *)

(** typecheck.go:645-690: the call, when source and arguments have types.  [chain] is that
    of the source if it is a name of the root scope.  printf, debug and unsafe are known by
    their names (646, 654). *)
Definition resolve_call (G : genv) (name : string) (cf : cexpr) (tf : ty) (chain : list (nat * ty))
    (ts : list ty) (errs : list issue) (args : list (cexpr * arg)) : res :=
  if String.eqb name "printf" || String.eqb name "debug" then
    (if match chain with (f, TFun _ _ _ _) :: _ => existsb (Nat.eqb f) (g_variadic G) | _ => false end
     then (errs, Some (CPrint (map fst args), TNothing))
     else (errs ++ [Odd UncheckedCall], Some (CCall cf (map fst args), TNothing)))
  else if String.eqb name "unsafe" then
    match args with
    | [_; _; (_, a)] => (errs ++ [Odd UnsafeCall], Some (CUnsafe (map fst args), ar_typ a))
    | _ => fail errs InvalidNumberArgs
    end
  else
    match chain with
    | [] =>
      match match_by_type tf ts (map snd args) with
      | (Ok t, after) => (errs ++ note (generic tf) GenericValueCalled, Some (CCall cf (settle_all args after), t))
      | (TypeModel.Err e, _) => fail errs (CallError e)
      end
    | _ =>
      match match_by_symbol chain ts (map snd args) with
      | (inl (f, t), after) => (errs, Some (CCall (CFun f) (settle_all args after), t))
      | (inr [e], _) => fail errs (CallError e)
      | (inr _, _) => fail errs NoOverload
      end
    end.

(** typecheck.go:594-643: the number of arguments, the source, the arguments.  [first] is
    an argument that has been checked before (typecheck.go:254, 627).  That the source is
    the name of a type does not matter when functions have it too. *)
Definition call (G : genv) (F : list frame) (check : expr -> res) (f : expr) (ts : list ty)
    (first : list (cexpr * arg)) (args : list expr) : res :=
  if max_args <? List.length first + List.length args then fail [] TooManyArgs
  else
    let '(isrc, src) :=
      match f with
      | EFn _ _ _ _ | EDot _ _ | ECall _ _ _ | EIndex _ _ =>
        match check f with (i, Some (c, t)) => (i, Some (c, t, [])) | (i, None) => (i, None) end
      | EId x => match check_ident G F x true with (i, Some s) => (match snd s with _ :: _ :: _ => errors i | _ => i end, Some s) | r => r end
      | _ => ([Err ResolveFunction], None)
      end in
    match src with
    | None => (isrc, None)
    | Some (cf, tf, chain) =>
      match check_args G F check args with
      | (ia, None) => (isrc ++ ia, None)
      | (ia, Some l) => resolve_call G (name_of f) cf tf chain ts (isrc ++ ia) (first ++ l)
      end
    end.

(** ast.go:69-128 (isTerminating), for the statements of a block. *)
Fixpoint terminates (s : stmt) : bool :=
  let fix last (l : list stmt) : bool := match l with [] => false | [s] => terminates s | _ :: r => last r end in
  let fix chain (s : stmt) : bool :=
    match s with
    | SElse b => last b
    | SIf _ b (Some r) => last b && chain r
    | _ => false
    end in
  match s with
  | SReturn _ => true
  | SMatch _ cases =>
    match cases with
    | [] => false
    | _ => (fix all cs := match cs with [] => true | (_, _, b) :: r => last b && all r end) cases
    end
  | SIf _ b (Some r) => last b && chain r
  | _ => false
  end.
Fixpoint last_terminates (l : list stmt) : bool :=
  match l with [] => false | [s] => terminates s | _ :: r => last_terminates r end.

(** semantic.go:357-390: type parameters and parameters are declared in one scope; none if
    a name is declared twice. *)
Fixpoint declare (F : list frame) (l : list (string * lentry)) : option (list frame) :=
  match l with
  | [] => Some F
  | (x, e) :: l' => match define F x e with Some F' => declare F' l' | None => None end
  end.
Definition fn_entries (ts : list (string * nat)) (ps : list (string * ty)) : list (string * lentry) :=
  map (fun p => (fst p, LType (TParam (snd p)))) ts ++ map (fun p => (fst p, LVar (snd p))) ps.
Definition fn_type (ts : list (string * nat)) (ps : list (string * ty)) (ret : ty) : ty :=
  TFun 0 (map snd ts) (map snd ps) ret.

(** typecheck.go:498-507: the variables of a case; one that is declared twice is passed
    over. *)
Fixpoint case_vars (f : frame) (xs : list string) (ts : list ty) : list issue * frame :=
  match xs, ts with
  | x :: xs', t :: ts' =>
    match assoc x f with
    | Some _ => let '(i, f') := case_vars f xs' ts' in (Err Redeclared :: i, f')
    | None => case_vars ((x, LVar t) :: f) xs' ts'
    end
  | _, _ => ([], f)
  end.
(** symtab.go:310-317 (HasMember): the number of the constructor among the members. *)
Fixpoint member (ms : list nat) (f : nat) : option nat :=
  match ms with
  | [] => None
  | m :: ms' => if m =? f then Some O else match member ms' f with Some i => Some (S i) | None => None end
  end.
(** FunctionType.Is(EnumCons): the function is the constructor of some enum.  The type of
    a constructor has the constructor's number as [info]. *)
Definition is_cons (G : genv) (f : nat) : bool :=
  existsb (fun e => match member (snd (snd e)) f with Some _ => true | None => false end) (g_enums G).

(** ast.go:37-58 (isAddressable, isReadOnly) and typecheck.go:370-388: an assignment, when
    both sides have types. *)
Definition assignment (errs : list issue) (cl : cexpr) (tl : ty) (cr : cexpr) (tr : ty) : list issue * cstmt :=
  let notes :=
    match cl with
    | CFun _ => Some [Odd AssignToFunction]
    | CVar _ | CType true | CField _ _ _ | CLength _ | CDeref _ | CIndex _ _ => Some []
    | CCall _ _ | CPrint _ | CUnsafe _ => match tl with TStruct _ _ _ | TArr _ => Some [Odd AssignToCall] | _ => None end
    | _ => None
    end in
  match notes with
  | None => (errs ++ [Err NotAddressable], KNone)
  | Some i =>
    match cl with
    | CLength _ => (errs ++ [Err NotWritable], KNone)
    | _ => if matches tl tr then (errs ++ i, KAs cl cr) else (errs ++ [Err MismatchedTypes], KNone)
    end
  end.

(** The statements of a block, one after the other in the same scope. *)
Fixpoint check_block (check : list frame -> stmt -> list issue * list frame * cstmt) (F : list frame) (ss : list stmt)
  : list issue * list cstmt :=
  match ss with
  | [] => ([], [])
  | s :: ss' =>
    let '(i, F', k) := check F s in
    let '(i', ks) := check_block check F' ss' in
    (i ++ i', k :: ks)
  end.

(** typecheck.go:424-449: the cases; [ms] are the members of the enum, [b] the types of its
    parameters, [seen] the members that have been met. *)
Fixpoint check_cases (G : genv) (F : list frame) (block : list frame -> list stmt -> list issue * list cstmt)
    (b : binding) (ms seen : list nat) (cases : list (string * list string * list stmt))
  : list issue * list (nat * list string * list cstmt) :=
  match cases with
  | [] => ([], [])
  | (x, xs, body) :: rest =>
    let cons :=
      match resolve G F x with
      | FFun ((f, TFun _ _ ps _) :: _) => if is_cons G f then Some (f, ps, []) else None
      | FVar (TFun f _ ps _) => if is_cons G f then Some (f, ps, [Odd CaseByVariable]) else None
      | _ => None
      end in
    match cons with
    | None => let '(i, cs) := check_cases G F block b ms seen rest in (Err NotAnEnumCase :: i, cs)
    | Some (f, ps, notes) =>
      let '(ibody, kbody) :=
        if negb (List.length ps =? List.length xs) then ([Err InvalidNumberArgs], [])
        else let '(iv, fr) := case_vars [] xs (map (fun p => subst p b) ps) in
             let '(ib, kb) := block (fr :: F) body in (iv ++ ib, kb) in
      match member ms f with
      | None => let '(i, cs) := check_cases G F block b ms seen rest in (notes ++ ibody ++ [Err UnknownEnumCase] ++ i, cs)
      | Some tag =>
        if existsb (Nat.eqb f) seen then
          let '(i, cs) := check_cases G F block b ms seen rest in (notes ++ ibody ++ [Err Redeclared] ++ i, cs)
        else
          let '(i, cs) := check_cases G F block b ms (f :: seen) rest in (notes ++ ibody ++ i, (tag, xs, kbody) :: cs)
      end
    end
  end.

(* ----------------------------------------------------------------------------- the walk *)

(** typecheck.go:14-475 (typeCheck), 558-592 (typeCheckFor).  When the right side of a dot
    is the call of a field or an element, the code checks the left side again, as part of
    the tree it makes; the model does the same with the tree as it was (the code may then
    report names declared in function literals as declared twice).  After an error in the
    array of a for loop the code goes on with its body, and errors about the members of
    matches come after those in their cases; here the body is left out, and the errors
    come case by case.  [ret] is the result type of the function around. *)
Fixpoint check_expr (n : nat) (G : genv) (F : list frame) (e : expr) {struct n} : res :=
  match n with
  | O => ([Err OutOfFuel], None)
  | S n =>
    match e with
    | ELit l => ([], Some (CLit l, match l with LInt _ => TInt | LBool _ => TBool | LStr _ => TString end))
    | EId x => match check_ident G F x false with (i, Some (c, t, _)) => (i, Some (c, t)) | (i, None) => (i, None) end
    | EArith o l r => binary is_int TInt (CArith o) (check_expr n G F l) (check_expr n G F r)
    | ELogic o l r => binary is_bool TBool (CLogic o) (check_expr n G F l) (check_expr n G F r)
    | ECmp o l r => comparison o (check_expr n G F l) (check_expr n G F r)
    | ENot e => unary is_bool TBool CNot (check_expr n G F e)
    | EBNot e => unary is_int TInt CBNot (check_expr n G F e)
    | ENeg e => unary is_int TInt CNeg (check_expr n G F e)
    | ECall f ts args => call G F (check_expr n G F) f ts [] args
    | EDot l r =>
      match check_expr n G F l with
      | (il, None) => (il, None)
      | (il, Some (cl, tl)) =>
        match r with
        | ECall f ts args =>
          let '(i, r') := if has_field G tl (name_of f) then check_expr n G F (ECall (EDot l f) ts args)
                          else call G F (check_expr n G F) f ts [(cl, Arg tl [])] args in
          (il ++ i, r')
        | EIndex b i => let '(i', r') := check_expr n G F (EIndex (EDot l b) i) in (il ++ i', r')
        | EId x => select G il cl tl x
        | _ => fail il InvalidDot
        end
      end
    | EIndex l r => index (check_expr n G F l) (check_expr n G F r)
    | EArrLit [] => ([Err EmptyArrayLit], None)
    | EArrLit es =>
      match array_lit (check_expr n G F) None es with
      | (i, Some (cs, Some t)) => (i, Some (CArrLit cs, TArr t))
      | (i, _) => (i, None)
      end
    | ETern c a b => ternary (check_expr n G F c) (fun _ => check_expr n G F a) (fun _ => check_expr n G F b)
    | EFn ts ps ret body =>
      match declare ([] :: F) (fn_entries ts ps) with
      | None => ([Err Redeclared], None)
      | Some F' =>
        if negb (is_nothing ret) && negb (last_terminates body) then ([Err MissingReturn], None)
        else let '(i, ks) := check_block (fun F s => check_stmt n G F ret s) F' body in
             (i, Some (CClos ps ret ks, fn_type ts ps ret))
      end
    | EFnExpr ts ps ret b =>
      match declare ([] :: F) (fn_entries ts ps) with
      | None => ([Err Redeclared], None)
      | Some F' =>
        match check_expr n G F' b with
        | (i, Some (c, t)) =>
          (i ++ (if matches ret t then [] else [Err MismatchedTypes]), Some (CClosExpr ps ret c, fn_type ts ps ret))
        | (i, None) => (i, Some (CClosExpr ps ret (CType false), fn_type ts ps ret))
        end
      end
    | EType t => ([Odd TypeAsValue], Some (CType false, t))
    end
  end
with check_stmt (n : nat) (G : genv) (F : list frame) (ret : ty) (s : stmt) {struct n} : list issue * list frame * cstmt :=
  match n with
  | O => ([Err OutOfFuel], F, KNone)
  | S n =>
    let block F ss := check_block (fun F s => check_stmt n G F ret s) F ss in
    match s with
    | SExpr e => match check_expr n G F e with (i, Some (c, _)) => (i, F, KExpr c) | (i, None) => (i, F, KNone) end
    | SDas l r =>
      match check_expr n G F r with
      | (i, None) => (i, F, KNone)
      | (i, Some (c, t)) =>
        match l with
        | EId x => match define F x (LVar t) with
                   | Some F' => (i, F', KDas x c)
                   | None => (i ++ [Err Redeclared], F, KNone)
                   end
        | _ => (i ++ [Err UnexpectedAssign], F, KNone)
        end
      end
    | SAs l r =>
      let rr := check_expr n G F r in
      let rl := check_expr n G F l in
      match snd rr, snd rl with
      | Some (cr, tr), Some (cl, tl) => let '(i, k) := assignment (fst rr ++ fst rl) cl tl cr tr in (i, F, k)
      | _, _ => (fst rr ++ fst rl, F, KNone)
      end
    | SWhile c body =>
      match check_expr n G F c with
      | (i, None) => (i, F, KNone)
      | (i, Some (cc, tc)) =>
        if negb (is_bool tc) then (i ++ [Err MismatchedTypes], F, KNone)
        else let '(ib, ks) := block ([] :: F) body in (i ++ ib, F, KWhile cc ks)
      end
    | SForIn x e body =>
      match check_expr n G F e with
      | (i, None) => (i, F, KNone)
      | (i, Some (c, t)) =>
        match t with
        | TArr u => let '(ib, ks) := block ([(x, LVar u)] :: F) body in (i ++ ib, F, KForIn x c ks)
        | _ => (i ++ [Err MismatchedTypes], F, KNone)
        end
      end
    | SForRange x a b body =>
      match binary is_int TInt (CArith OAdd) (check_expr n G F a) (check_expr n G F b) with
      | (i, Some (CArith _ ca cb, t)) =>
        let '(ib, ks) := block ([(x, LVar t)] :: F) body in (i ++ ib, F, KForRange x ca cb ks)
      | (i, _) => (i, F, KNone)
      end
    | SIf c body rest =>
      match check_expr n G F c with
      | (i, None) => (i, F, KNone)
      | (i, Some (cc, tc)) =>
        if negb (is_bool tc) then (i ++ [Err MismatchedTypes], F, KNone)
        else
          let '(ib, ks) := block ([] :: F) body in
          match rest with
          | None => (i ++ ib, F, KIf cc ks None)
          | Some r => let '(ir, _, kr) := check_stmt n G F ret r in (i ++ ib ++ ir, F, KIf cc ks (Some kr))
          end
      end
    | SElse body => let '(ib, ks) := block ([] :: F) body in (ib, F, KElse ks)
    | SReturn None => if matches ret TNothing then ([], F, KReturn None) else ([Err MismatchedTypes], F, KNone)
    | SReturn (Some e) =>
      match check_expr n G F e with
      | (i, None) => (i, F, KNone)
      | (i, Some (c, t)) => if matches ret t then (i, F, KReturn (Some c)) else (i ++ [Err MismatchedTypes], F, KNone)
      end
    | SMatch e cases =>
      match check_expr n G F e with
      | (i, None) => (i, F, KNone)
      | (i, Some (c, t)) =>
        match t with
        | TEnum _ en ts =>
          match assoc en (g_enums G) with
          | Some (ps, ms) =>
            let '(ic, ks) := check_cases G F block (match ts with [] => [] | _ => bind_all ps ts [] end) ms [] cases in
            let errs := i ++ ic in
            match errors errs with
            | [] => if List.length cases =? List.length ms then (errs, F, KMatch c en ks) else (errs ++ [Err NotExhaustive], F, KNone)
            | _ => (errs, F, KNone)
            end
          | None => (i ++ [Err MismatchedTypes], F, KNone)
          end
        | _ => (i ++ [Err MismatchedTypes], F, KNone)
        end
      end
    end
  end.

(* ---------------------------------------------------------------------------- programs *)

(** What a function of the root scope does: run a block or an expression, make a struct or a
    member of an enum; or it is external. *)
Inductive fbody :=
| BBlock (body : list stmt)
| BExpr (e : expr)
| BStruct (n : string)
| BCons (n : string) (tag : nat)
| BExtern.
Record fdef := Fdef { f_types : list (string * nat); f_params : list (string * ty); f_ret : ty; f_body : fbody }.
Record program := Program { p_env : genv; p_funs : list fdef }.

(** typecheck.go:203-233 and semantic.go:357-398 for a function of the root scope: errors
    and notes, and the body. *)
Inductive cbody := CBlock (body : list cstmt) | CBody (e : cexpr) | CStruct (n : string) | CCons (n : string) (tag : nat) | CExtern.
Definition check_fun (n : nat) (G : genv) (d : fdef) : list issue * cbody :=
  let frames := declare [[]] (fn_entries (f_types d) (f_params d)) in
  match f_body d with
  | BBlock body =>
    match frames with
    | None => ([Err Redeclared], CExtern)
    | Some F =>
      if negb (is_nothing (f_ret d)) && negb (last_terminates body) then ([Err MissingReturn], CExtern)
      else let '(i, ks) := check_block (fun F s => check_stmt n G F (f_ret d) s) F body in (i, CBlock ks)
    end
  | BExpr e =>
    match frames with
    | None => ([Err Redeclared], CExtern)
    | Some F =>
      match check_expr n G F e with
      | (i, Some (c, t)) => (i ++ (if matches (f_ret d) t then [] else [Err MismatchedTypes]), CBody c)
      | (i, None) => (i, CExtern)
      end
    end
  | BStruct s => ([], CStruct s)
  | BCons s tag => ([], CCons s tag)
  | BExtern => (match frames with None => [Err Redeclared] | Some _ => [] end, CExtern)
  end.
(** typecheck.go:392-395 (opRoot). *)
Definition check_program (n : nat) (P : program) : list issue :=
  flat_map (fun d => fst (check_fun n (p_env P) d)) (p_funs P).
Definition checked (n : nat) (P : program) : list cbody :=
  map (fun d => snd (check_fun n (p_env P) d)) (p_funs P).
