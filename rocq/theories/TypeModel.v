(** Model of types, their matching, inference of type parameters and overload
    resolution: symtab.go:28-375 and typecheck.go:592-894.

    A Go [*Type] is a tree here: the parts that the modelled functions follow
    (element of an array, parameters and result of a function, type arguments of a
    struct or an enum) cannot form a cycle.  Fields of structs and members of enums
    can, they are left out here because matching does not look at them; how
    substitution follows fields is in TypeGraph.v.  What makes two pointers
    different though their trees agree is kept as a number, [decl] and [info], so
    that it can be seen that the code does not look at it.  A type parameter is
    known by its pointer, [id]. *)
From Coq Require Import String List Bool PeanoNat.
Import ListNotations.

(** symtab.go:28-41 (TypeKind), 64-67 (Type), 282-330 (StructType, EnumType,
    FunctionType).  [types] of a function are the type parameters it declares. *)
Inductive ty :=
| TStruct (decl : nat) (name : string) (types : list ty)
| TEnum (decl : nat) (name : string) (types : list ty)
| TFun (info : nat) (types : list nat) (params : list ty) (ret : ty)
| TInt | TBytes | TBool | TString | TNothing | TPointer
| TArr (elem : ty)
| TParam (id : nat).

(** symtab.go:81-156 (MatchesImpl) with allowBinding = false, which is
    symtab.go:71-73 (Matches): t matches x.  The loops run over the types of [t],
    whose number has been compared before. *)
Fixpoint matches (t x : ty) {struct t} : bool :=
  let all := fix all (ts xs : list ty) {struct ts} : bool :=
    match ts, xs with
    | a :: ts', b :: xs' => if matches a b then all ts' xs' else false
    | _, _ => true
    end in
  match t, x with
  | TStruct _ n ts, TStruct _ m xs =>
    if negb (String.eqb n m) || negb (length ts =? length xs) then false else all ts xs
  | TEnum _ n ts, TEnum _ m xs =>
    if negb (String.eqb n m) || negb (length ts =? length xs) then false else all ts xs
  | TInt, TInt | TBytes, TBytes | TBool, TBool | TString, TString
  | TNothing, TNothing | TPointer, TPointer => true
  | TArr a, TArr b => matches a b
  | TFun _ _ ps r, TFun _ _ qs q =>
    if negb (length qs =? length ps) then false
    else if all ps qs then matches r q else false
  | TParam p, TParam q => p =? q
  | _, _ => false
  end.

(** The map [bound] of MatchesImpl: types given to type parameters, newest first. *)
Definition binding := list (nat * ty).

Fixpoint lookup (b : binding) (p : nat) : option ty :=
  match b with
  | [] => None
  | (q, t) :: b' => if q =? p then Some t else lookup b' p
  end.

(** symtab.go:81-156 (MatchesImpl) with allowBinding = true, which is
    symtab.go:75-77 (PolyMatch).  The map is changed in place, also when the answer
    is false. *)
Fixpoint poly_match (t x : ty) (b : binding) {struct t} : bool * binding :=
  let all := fix all (ts xs : list ty) (b : binding) {struct ts} : bool * binding :=
    match ts, xs with
    | a :: ts', y :: xs' =>
      let '(ok, b1) := poly_match a y b in
      if ok then all ts' xs' b1 else (false, b1)
    | _, _ => (true, b)
    end in
  match x with
  | TParam p =>
    match lookup b p with
    | None => (true, (p, t) :: b)
    | Some u => (matches t u, b)
    end
  | _ =>
    match t, x with
    | TStruct _ n ts, TStruct _ m xs =>
      if negb (String.eqb n m) || negb (length ts =? length xs) then (false, b) else all ts xs b
    | TEnum _ n ts, TEnum _ m xs =>
      if negb (String.eqb n m) || negb (length ts =? length xs) then (false, b) else all ts xs b
    | TInt, TInt | TBytes, TBytes | TBool, TBool | TString, TString
    | TNothing, TNothing | TPointer, TPointer => (true, b)
    | TArr a, TArr c => poly_match a c b
    | TFun _ _ ps r, TFun _ _ qs q =>
      if negb (length qs =? length ps) then (false, b)
      else let '(ok, b1) := all ps qs b in
           if ok then poly_match r q b1 else (false, b1)
    | _, _ => (false, b)
    end
  end.

(** typecheck.go:804-851 (substituteType).  The default case searches the map for
    a key that matches; keys are type parameters, which match themselves only.
    New declarations of structs, enums and functions are given number 0; the type
    parameters of a function are dropped (828). *)
Fixpoint subst (t : ty) (b : binding) {struct t} : ty :=
  match b with
  | [] => t
  | _ =>
    let all := fix all (ts : list ty) : list ty :=
      match ts with [] => [] | a :: ts' => subst a b :: all ts' end in
    match t with
    | TArr e => TArr (subst e b)
    | TFun i _ ps r => TFun i [] (all ps) (subst r b)
    | TStruct _ n ts => TStruct 0 n (all ts)
    | TEnum _ n ts => TEnum 0 n (all ts)
    | TParam p => match lookup b p with Some u => u | None => t end
    | _ => t
    end
  end.

(** typecheck.go:853-894 (findUnboundTypeParameters). *)
Fixpoint find_unbound (t : ty) (b : binding) {struct t} : list nat :=
  let all := fix all (ts : list ty) : list nat :=
    match ts with [] => [] | a :: ts' => find_unbound a b ++ all ts' end in
  match t with
  | TArr e => find_unbound e b
  | TFun _ ts _ _ => filter (fun p => match lookup b p with Some _ => false | None => true end) ts
  | TStruct _ _ ts => all ts
  | TEnum _ _ ts => all ts
  | TParam p => match lookup b p with Some _ => [] | None => [p] end
  | _ => []
  end.

(** An argument of a call: its type, and, for an identifier, the symbol it was
    resolved to and the overloads linked to it by [Next] (number and type of each).
    For other arguments [ar_chain] is empty. *)
Record arg := Arg { ar_typ : ty; ar_chain : list (nat * ty) }.

(** typecheck.go:732, 765: arg.op == opIdentifier && arg.sym.Next != nil. *)
Definition overloaded (a : arg) : bool :=
  match ar_chain a with _ :: _ :: _ => true | _ => false end.

(** typecheck.go:733-739: the first overload that matches [param]; the argument
    keeps it and the overloads after it. *)
Fixpoint choose (chain : list (nat * ty)) (param : ty) : option arg :=
  match chain with
  | [] => None
  | (s, t) :: rest => if matches t param then Some (Arg t chain) else choose rest param
  end.

(** typecheck.go:766-772: the same with inference. *)
Fixpoint choose_poly (chain : list (nat * ty)) (param : ty) (b : binding) : option arg * binding :=
  match chain with
  | [] => (None, b)
  | (s, t) :: rest =>
    let '(ok, b1) := poly_match t param b in
    if ok then (Some (Arg t chain), b1) else choose_poly rest param b1
  end.

(** The errors of typecheck.go:712, 716, 720, 745/778, 751/784, 795. *)
Inductive call_error :=
| NotAFunction | WrongNumberOfArgs | WrongNumberOfTypeArgs
| NoOverloadOfArg | MismatchedTypes | TypeParameterNotKnown.

Inductive outcome A := Ok (x : A) | Err (e : call_error).
Arguments Ok {A} x.
Arguments Err {A} e.

(** typecheck.go:729-753: the arguments as they are left, and whether all match. *)
Fixpoint check_args (params : list ty) (args : list arg) : option call_error * list arg :=
  match args, params with
  | a :: args', p :: params' =>
    if overloaded a then
      match choose (ar_chain a) p with
      | Some a' => let '(e, r) := check_args params' args' in (e, a' :: r)
      | None => (Some NoOverloadOfArg, args)
      end
    else if matches (ar_typ a) p then
      let '(e, r) := check_args params' args' in (e, a :: r)
    else (Some MismatchedTypes, args)
  | _, _ => (None, args)
  end.

(** typecheck.go:762-786. *)
Fixpoint check_poly_args (params : list ty) (args : list arg) (b : binding)
  : option call_error * list arg * binding :=
  match args, params with
  | a :: args', p :: params' =>
    if overloaded a then
      match choose_poly (ar_chain a) p b with
      | (Some a', b1) => let '(e, r, b2) := check_poly_args params' args' b1 in (e, a' :: r, b2)
      | (None, b1) => (Some NoOverloadOfArg, args, b1)
      end
    else
      let '(ok, b1) := poly_match (ar_typ a) p b in
      if ok then let '(e, r, b2) := check_poly_args params' args' b1 in (e, a :: r, b2)
      else (Some MismatchedTypes, args, b1)
  | _, _ => (None, args, b)
  end.

(** typecheck.go:757-760: the map starts with the type arguments written in the call. *)
Fixpoint bind_all (types : list nat) (explicit : list ty) (b : binding) : binding :=
  match types, explicit with
  | p :: types', t :: explicit' => bind_all types' explicit' ((p, t) :: b)
  | _, _ => b
  end.

(** typecheck.go:705-802 (matchFuncCallByType): the result type of the call or an
    error, and the arguments as they are left. *)
Definition match_by_type (t : ty) (explicit : list ty) (args : list arg) : outcome ty * list arg :=
  match t with
  | TFun _ types params ret =>
    if negb (length args =? length params) then (Err WrongNumberOfArgs, args)
    else if negb (length explicit =? 0) && negb (length explicit =? length types) then
      (Err WrongNumberOfTypeArgs, args)
    else if length types =? 0 then
      match check_args params args with
      | (Some e, args') => (Err e, args')
      | (None, args') => (Ok ret, args')
      end
    else
      match check_poly_args params args (bind_all types explicit []) with
      | (Some e, args', _) => (Err e, args')
      | (None, args', b) =>
        match find_unbound ret b with
        | [] => (Ok (subst ret b), args')
        | _ => (Err TypeParameterNotKnown, args')
        end
      end
  | _ => (Err NotAFunction, args)
  end.

(** typecheck.go:694-703 (matchFuncCallBySymbol): the symbol chosen and the result
    type, or the errors; and the arguments as they are left. *)
Fixpoint match_by_symbol (chain : list (nat * ty)) (explicit : list ty) (args : list arg)
  : (nat * ty + list call_error) * list arg :=
  match chain with
  | [] => (inr [], args)
  | (s, t) :: rest =>
    match match_by_type t explicit args with
    | (Ok r, args') => (inl (s, r), args')
    | (Err e, args') =>
      match match_by_symbol rest explicit args' with
      | (inl m, args'') => (inl m, args'')
      | (inr es, args'') => (inr (e :: es), args'')
      end
    end
  end.

(** symtab.go:43-55 (typeKindNames), 241-279 (Type.AsmName). *)
Local Open Scope string_scope.

Fixpoint join (sep : string) (l : list string) : string :=
  match l with
  | [] => ""
  | [s] => s
  | s :: l' => s ++ sep ++ join sep l'
  end.

Fixpoint asm_name (t : ty) : string :=
  let names := fix names (ts : list ty) : list string :=
    match ts with [] => [] | a :: ts' => asm_name a :: names ts' end in
  match t with
  | TArr e => "array$" ++ asm_name e ++ "$"
  | TStruct _ n ts | TEnum _ n ts =>
    match ts with [] => n | _ => n ++ "$" ++ join "." (names ts) ++ "$" end
  | TFun _ _ ps _ =>
    match ps with [] => "fn" | _ => "fn" ++ "$" ++ join "." (names ps) ++ "$" end
  | TInt => "int"
  | TBytes => "bytes"
  | TBool => "bool"
  | TString => "string"
  | TNothing => "nothing"
  | TPointer => "pointer"
  | TParam _ => "T"
  end.

(** symtab.go:341-357 (FunctionType.AsmName): the label of a function. *)
Definition fn_label (external : bool) (name : string) (params : list ty) : string :=
  if external then name
  else if String.eqb name "main" then "clara_main"
  else "clara_" ++ name ++ fold_right (fun p s => "." ++ asm_name p ++ s) "" params.
