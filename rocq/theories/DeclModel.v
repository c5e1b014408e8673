(** Model of declarations: semantic.go:84-222 (processTopLevelTypes), 224-333 (instantiation
    of types), 335-398 (processFnType), 401-448 (createType), 609-665 (struct constructors),
    main.go:203-221 (stdSyms) and ast.go:170-211 (typeName).

    The result is a [program] of CheckModel: the root scope, the structs and enums, and the
    functions with their types.  A type parameter is known by a number, the next one not yet
    used.  Types are trees (TypeModel); that substitution may not end is C15.  Whether a body
    returns (semantic.go:393-395) is left to [check_fun].  Bodies are functions of what the
    names of types stand for in their scope.  Errors come without tokens, those of the last
    pass structs first. *)
From Coq Require Import String Ascii List Bool PeanoNat.
From Verif Require Import TypeModel TypeGraph CheckModel.
Import ListNotations.
Local Open Scope string_scope.
Local Open Scope nat_scope.
Local Open Scope list_scope.

Definition tenv := string -> option ty.
Inductive dbody := DBlock (b : tenv -> list stmt) | DExpr (e : tenv -> expr) | DExtern.
(** parse.go:93-163: structs and enums with type parameters and fields or members, functions
    with type parameters, parameters, result and body. *)
Inductive decl :=
| DStruct (x : string) (tps : list string) (fields : list (string * texp))
| DEnum (x : string) (tps : list string) (members : list (string * list (string * texp)))
| DFn (x : string) (tps : list string) (params : list (string * texp)) (ret : option texp) (body : dbody).

(** ast.go:186-208; the result of a function type does not appear. *)
Fixpoint type_name (e : texp) : string :=
  match e with
  | XNamed n None => n
  | XNamed n (Some es) => (n ++ "«" ++ join ", " (map type_name es) ++ "»")%string
  | XFun es _ => ("fn(" ++ join ", " (map type_name es) ++ ")")%string
  | XArr e => ("[]" ++ type_name e)%string
  end.
(** ast.go:170-184 *)
Definition decl_name (d : decl) : string :=
  match d with
  | DStruct x _ _ | DEnum x _ _ => x
  | DFn x _ ps _ _ => (x ++ "(" ++ join ", " (map (fun p => type_name (snd p)) ps) ++ ")")%string
  end.

Inductive derr :=
| DRedeclared | DUnknownType | DNoTypeParameters | DNumberTypeArgs | DTooManyArgs | DStructNaming | DConstructorOverride.

(* --------------------------------------------------------------------------- root scope *)

(** A chain of symbols of one name: a type (with IsType) may come first, then functions.
    Types are defined before all functions. *)
Record rsym := Rsym { r_type : option (bool * ty); r_funs : list nat }.
Definition rtab := list (string * rsym).
Definition define_type (root : rtab) (x : string) (is_type : bool) (t : ty) : option rtab :=
  match assoc x root with Some _ => None | None => Some ((x, Rsym (Some (is_type, t)) []) :: root) end.
Fixpoint add_fun (root : rtab) (x : string) (f : nat) : rtab :=
  match root with
  | [] => []
  | (y, r) :: root' => if String.eqb x y then (y, Rsym (r_type r) (r_funs r ++ [f])) :: root' else (y, r) :: add_fun root' x f
  end.
(** semantic.go:345-352: none for a name that is taken, unless it may have overloads. *)
Definition define_fun (root : rtab) (x : string) (f : nat) (overload : bool) : option rtab :=
  match assoc x root with
  | None => Some ((x, Rsym None [f]) :: root)
  | Some _ => if overload then Some (add_fun root x f) else None
  end.

(** main.go:203-221; debug and printf are functions 0 and 1, T of []T is parameter 0. *)
Definition std : rtab :=
  [("string", Rsym (Some (true, TString)) []); ("int", Rsym (Some (true, TInt)) []); ("bool", Rsym (Some (true, TBool)) []);
   ("pointer", Rsym (Some (true, TPointer)) []); ("nothing", Rsym (Some (true, TNothing)) []);
   ("[]string", Rsym (Some (false, TArr TString)) []); ("[]int", Rsym (Some (false, TArr TInt)) []);
   ("[]T", Rsym (Some (false, TArr (TParam 0))) []); ("bytes", Rsym (Some (true, TBytes)) []);
   ("debug", Rsym None [0]); ("printf", Rsym None [1])].
Definition std_funs : list fdef :=
  [Fdef [] [("0", TString); ("1", TString)] TNothing BExtern; Fdef [] [("0", TString)] TNothing BExtern].

(** symtab.go:520-528 (ResolveAll for types): type parameters in scope, then the root. *)
Definition type_env (scope : list (string * nat)) (root : rtab) : tenv := fun n =>
  match assoc n scope with
  | Some p => Some (TParam p)
  | None => match assoc n root with Some (Rsym (Some (true, t)) _) => Some t | _ => None end
  end.

(** semantic.go:401-448 (createType), as far as it reports errors. *)
Fixpoint known_type (env : tenv) (e : texp) : bool :=
  match e with
  | XNamed n args => match env n with Some _ => match args with Some es => forallb (known_type env) es | None => true end | None => false end
  | XArr e => known_type env e
  | XFun es r => forallb (known_type env) es && match r with Some e => known_type env e | None => true end
  end.

(** semantic.go:246-333 (instantiateType). *)
Fixpoint all_some {A} (l : list (option A)) : option (list A) :=
  match l with
  | [] => Some []
  | Some a :: l' => match all_some l' with Some r => Some (a :: r) | None => None end
  | None :: _ => None
  end.
Definition param_ids (ts : list ty) : list nat := map (fun t => match t with TParam p => p | _ => 0 end) ts.
Fixpoint instantiate (env : tenv) (e : texp) : list derr * option ty :=
  match e with
  | XNamed n args =>
    match env n with
    | None => ([DUnknownType], None)
    | Some t =>
      match args with
      | None => ([], Some t)
      | Some es =>
        let rs := map (instantiate env) es in
        let errs := flat_map fst rs in
        match t with
        | TStruct _ _ ts | TEnum _ _ ts =>
          if List.length ts =? 0 then (errs ++ [DNoTypeParameters], None)
          else if negb (List.length ts =? List.length es) then (errs ++ [DNumberTypeArgs], None)
          else match errs, all_some (map snd rs) with
               | [], Some us => ([], Some (subst t (combine (param_ids ts) us)))
               | _, _ => (errs, None)
               end
        | _ => (errs ++ [DNoTypeParameters], None)
        end
      end
    end
  | XFun es r =>
    let rs := map (instantiate env) es in
    let rr := match r with Some e => instantiate env e | None => ([], Some TNothing) end in
    let errs := flat_map fst rs ++ fst rr in
    match errs, all_some (map snd rs), snd rr with
    | [], Some us, Some u => ([], Some (TFun 0 [] us u))
    | _, _, _ => (errs, None)
    end
  | XArr e =>
    match instantiate env e with
    | ([], Some t) => ([], Some (TArr t))
    | (errs, _) => (errs, None)
    end
  end.

(* --------------------------------------------------------------------------- first pass *)

(** semantic.go:91-101: the type parameters of a declaration; one declared twice is passed
    over. *)
Fixpoint own_params (next : nat) (tbl : list (string * nat)) (tps : list string) : list derr * list (string * nat) * nat :=
  match tps with
  | [] => ([], tbl, next)
  | x :: tps' =>
    match assoc x tbl with
    | Some _ => let '(e, t, n) := own_params next tbl tps' in (DRedeclared :: e, t, n)
    | None => own_params (S next) (tbl ++ [(x, next)]) tps'
    end
  end.
(** semantic.go:85-139: declarations with their type parameters. *)
Definition decl_type (d : decl) (tbl : list (string * nat)) : ty :=
  match d with
  | DStruct x _ _ => TStruct 0 x (map TParam (map snd tbl))
  | DEnum x _ _ => TEnum 0 x (map TParam (map snd tbl))
  | DFn _ _ _ _ _ => TNothing
  end.
Definition decl_params (d : decl) : list string := match d with DStruct _ tps _ | DEnum _ tps _ => tps | DFn _ _ _ _ _ => [] end.
Fixpoint pass1 (next : nat) (root : rtab) (ds : list decl) : list derr * list (decl * list (string * nat)) * nat * rtab :=
  match ds with
  | [] => ([], [], next, root)
  | d :: ds' =>
    let '(e1, tbl, next1) := own_params next [] (decl_params d) in
    let '(e2, root1) := match define_type root (decl_name d) true (decl_type d tbl) with Some r => ([], r) | None => ([DRedeclared], root) end in
    let '(e3, l, next2, root2) := pass1 next1 root1 ds' in
    (e1 ++ e2 ++ e3, (d, tbl) :: l, next2, root2)
  end.

(* -------------------------------------------------------------------------- second pass *)

(** A function as it is declared: [s_types] are its type parameters, [s_scope] those that its
    types may use. *)
Inductive sbody := SFn (b : dbody) | SCons (x : string) (tag : nat).
Record fsig := Fsig { s_name : string; s_types : list (string * nat); s_params : list (string * texp); s_ret : option texp; s_body : sbody }.

(** semantic.go:369-381 *)
Fixpoint check_params (env : tenv) (taken : list string) (ps : list (string * texp)) : list derr :=
  match ps with
  | [] => []
  | (x, e) :: ps' =>
    if negb (known_type env e) then [DUnknownType]
    else if existsb (String.eqb x) taken then [DRedeclared]
    else check_params env (x :: taken) ps'
  end.
(** semantic.go:335-398 (processFnType).  [outer] are the type parameters of the enum.  The
    first error ends it; the symbol has been defined then. *)
Definition process_fn (root : rtab) (next f : nat) (outer : list (string * nat)) (x : string) (tps : list string)
    (ps : list (string * texp)) (ret : option texp) (b : sbody) (overload : bool) : list derr * rtab * nat * fsig :=
  let '(e, own, next') := own_params next [] tps in
  let sig := Fsig x (outer ++ own) ps ret b in
  match define_fun root x f overload with
  | None => ([DRedeclared], root, next', sig)
  | Some root' =>
    match e with
    | _ :: _ => ([DRedeclared], root', next', sig)
    | [] =>
      let env := type_env (own ++ outer) root' in
      match check_params env (map fst own) ps with
      | [] => (match ret with Some e => if known_type env e then [] else [DUnknownType] | None => [] end, root', next', sig)
      | errs => (errs, root', next', sig)
      end
    end
  end.

Definition max_case_args : nat := 5.                                   (* semantic.go:44 *)

(** What the second pass has gathered.  Functions are numbered in the order of [st_funs],
    after debug and printf. *)
Record state := State {
  st_errs : list derr; st_root : rtab; st_next : nat; st_funs : list fsig;
  st_structs : list (string * (list (string * nat) * list (string * texp)));
  st_enums : list (string * (list (string * nat) * list nat))
}.
Definition next_fun (s : state) : nat := List.length std_funs + List.length (st_funs s).

(** semantic.go:148-169: the constructors of an enum and its members.  An error in one
    leaves out the others. *)
Fixpoint add_members (s : state) (x : string) (tbl : list (string * nat)) (tag : nat) (ms : list (string * list (string * texp)))
  : state * list nat :=
  match ms with
  | [] => (s, [])
  | (y, ps) :: ms' =>
    let f := next_fun s in
    let '(e, root, next, sig) := process_fn (st_root s) (st_next s) f tbl y [] ps (Some (XNamed x None)) (SCons x tag) false in
    let s1 := State (st_errs s ++ e) root next (st_funs s ++ [sig]) (st_structs s) (st_enums s) in
    match e with
    | _ :: _ => (s1, [])
    | [] =>
      if max_case_args <? List.length ps
      then let s2 := State (st_errs s1 ++ [DTooManyArgs]) (st_root s1) (st_next s1) (st_funs s1) (st_structs s1) (st_enums s1) in
           add_members s2 x tbl (S tag) ms'
      else let '(s2, l) := add_members s1 x tbl (S tag) ms' in (s2, f :: l)
    end
  end.
(** semantic.go:176-194: the fields of a struct. *)
Fixpoint add_fields (env : tenv) (taken : list string) (fs : list (string * texp)) : list derr * list (string * texp) :=
  match fs with
  | [] => ([], [])
  | (x, e) :: fs' =>
    if negb (known_type env e) then let '(errs, l) := add_fields env taken fs' in (DUnknownType :: errs, l)
    else if existsb (String.eqb x) taken then let '(errs, l) := add_fields env taken fs' in (DRedeclared :: errs, l)
    else let '(errs, l) := add_fields env (x :: taken) fs' in (errs, (x, e) :: l)
  end.
(** semantic.go:142-204 *)
Definition pass2 (s : state) (d : decl * list (string * nat)) : state :=
  let tbl := snd d in
  match fst d with
  | DEnum x _ ms =>
    let '(s1, l) := add_members s x tbl 0 ms in
    State (st_errs s1) (st_root s1) (st_next s1) (st_funs s1) (st_structs s1) (st_enums s1 ++ [(x, (tbl, l))])
  | DStruct x _ fs =>
    let '(e, l) := add_fields (type_env tbl (st_root s)) (map fst tbl) fs in
    State (st_errs s ++ e) (st_root s) (st_next s) (st_funs s) (st_structs s ++ [(x, (tbl, l))]) (st_enums s)
  | DFn x tps ps ret b =>
    let '(e, root, next, sig) := process_fn (st_root s) (st_next s) (next_fun s) [] x tps ps ret (SFn b) true in
    State (st_errs s ++ e) root next (st_funs s ++ [sig]) (st_structs s) (st_enums s)
  end.

(* --------------------------------------------------------------------------- third pass *)

(** semantic.go:224-244: the types of fields, parameters and results. *)
Definition inst_all (env : tenv) (l : list (string * texp)) : list derr * list (string * ty) :=
  (flat_map (fun p => fst (instantiate env (snd p))) l,
   map (fun p => (fst p, match snd (instantiate env (snd p)) with Some t => t | None => TNothing end)) l).
Definition inst_ret (env : tenv) (r : option texp) : list derr * ty :=
  match r with
  | None => ([], TNothing)
  | Some e => let '(errs, t) := instantiate env e in (errs, match t with Some t => t | None => TNothing end)
  end.
Definition inst_struct (root : rtab) (d : string * (list (string * nat) * list (string * texp)))
  : list derr * (string * (list (string * nat) * list (string * ty))) :=
  let '(x, (tbl, fs)) := d in
  let '(errs, l) := inst_all (type_env tbl root) fs in (errs, (x, (tbl, l))).
Definition make_body (env : tenv) (b : sbody) : fbody :=
  match b with
  | SFn (DBlock b) => BBlock (b env)
  | SFn (DExpr e) => BExpr (e env)
  | SFn DExtern => BExtern
  | SCons x tag => BCons x tag
  end.
Definition inst_fun (root : rtab) (s : fsig) : list derr * fdef :=
  let env := type_env (s_types s) root in
  let '(e1, ps) := inst_all env (s_params s) in
  let '(e2, r) := inst_ret env (s_ret s) in
  (e1 ++ e2, Fdef (s_types s) ps r (make_body env (s_body s))).

(* ------------------------------------------------------------------- struct constructors *)

(** strings.ToUpper of the first byte (semantic.go:621-629).  A byte that is not ASCII is no
    UTF-8 by itself, it becomes U+FFFD. *)
Definition upper (c : ascii) : string :=
  let n := nat_of_ascii c in
  if (97 <=? n) && (n <=? 122) then String (ascii_of_nat (n - 32)) ""
  else if n <? 128 then String c ""
  else String (ascii_of_nat 239) (String (ascii_of_nat 191) (String (ascii_of_nat 189) "")).
(** semantic.go:618-665 (generateStructConstructor).  [funs] are the names of the functions in
    the tree; when the name is taken by none of them the code follows a nil pointer (640). *)
Inductive result A := Fine (a : A) | Refused (e : derr) | Panics.
Arguments Fine {A}. Arguments Refused {A}. Arguments Panics {A}.
Definition struct_cons (root : rtab) (funs : list string) (f : nat) (x : string) : result (string * rtab) :=
  match x with
  | EmptyString => Panics
  | String c rest =>
    if String.eqb (upper c) (String c "") then Refused DStructNaming
    else
      let y := (upper c ++ rest)%string in
      match assoc y root with
      | Some _ => if existsb (String.eqb y) funs then Refused DConstructorOverride else Panics
      | None => Fine (y, (y, Rsym None [f]) :: root)
      end
  end.
(** semantic.go:609-616, main.go:98: the constructors of all structs. *)
Fixpoint add_constructors (root : rtab) (names : list string) (funs : list fdef)
    (l : list (string * (list (string * nat) * list (string * ty)))) : option (list derr * rtab * list fdef) :=
  match l with
  | [] => Some ([], root, funs)
  | (x, (tbl, fs)) :: l' =>
    match struct_cons root names (List.length funs) x with
    | Panics => None
    | Refused e => match add_constructors root names funs l' with Some (es, r, g) => Some (e :: es, r, g) | None => None end
    | Fine (y, root') =>
      add_constructors root' (y :: names) (funs ++ [Fdef tbl fs (TStruct 0 x (map TParam (map snd tbl))) (BStruct x)]) l'
    end
  end.

(* -------------------------------------------------------------------------- the program *)

(** The root scope as the type checker sees it. *)
Definition fun_ty (funs : list fdef) (f : nat) : ty :=
  match nth_error funs f with
  | Some d => TFun f (map snd (f_types d)) (map snd (f_params d)) (f_ret d)
  | None => TNothing
  end.
Definition root_entry (funs : list fdef) (r : rsym) : gentry :=
  let chain := map (fun f => (f, fun_ty funs f)) (r_funs r) in
  match r_type r, chain with
  | Some (_, t), [] => GType t
  | Some (_, t), _ => GFuns ((0, t) :: chain)
  | None, _ => GFuns chain
  end.
Inductive outcome := Accepted (P : program) | Errors (l : list derr) | Crash.
(** main.go:91-99: each step is taken if the ones before had no errors. *)
Definition declare_all (ds : list decl) : outcome :=
  let '(e1, l, next, root1) := pass1 1 std ds in
  match e1 with
  | _ :: _ => Errors e1
  | [] =>
    let s := fold_left pass2 l (State [] root1 next [] [] []) in
    match st_errs s with
    | _ :: _ => Errors (st_errs s)
    | [] =>
      let structs := map (inst_struct (st_root s)) (st_structs s) in
      let funs := map (inst_fun (st_root s)) (st_funs s) in
      match flat_map fst structs ++ flat_map fst funs with
      | (_ :: _) as e3 => Errors e3
      | [] =>
        match add_constructors (st_root s) (map s_name (st_funs s)) (std_funs ++ map snd funs) (map snd structs) with
        | None => Crash
        | Some ((_ :: _) as e4, _, _) => Errors e4
        | Some ([], root, all) =>
          Accepted (Program
            (Genv (map (fun e => (fst e, root_entry all (snd e))) root)
                  (map (fun d => (fst (snd d), (map snd (fst (snd (snd d))), snd (snd (snd d))))) structs)
                  (map (fun e => (fst e, (map snd (fst (snd e)), snd (snd e)))) (st_enums s))
                  [0; 1]) all)
        end
      end
    end
  end.
