(** Anonymous functions and closures (closures.go), and the walk over trees (walk.go) that
    finds their free variables.  Trees are those after type checking. *)
From Coq Require Import ZArith List Bool Arith.
From Verif Require Import ParseModel.
Import ListNotations.
Open Scope nat_scope.

(** symtab.go:455-465 (Symbol), without the type; [s_id] is the identity of the pointer.
    [s_stack] is IsStack as the code generator has it, codegen.go:173-176 sets it for
    parameters. *)
Record sym := Sym { s_id : nat; s_name : list Z; s_addr : nat; s_stack : bool; s_global : bool; s_lit : bool }.
Definition sym_eq_dec : forall a b : sym, {a = b} + {a <> b}.
Proof. decide equality; try apply bool_dec; try apply Nat.eq_dec. apply list_eq_dec, Z.eq_dec. Defined.
Definition sym_eqb (a b : sym) : bool := if sym_eq_dec a b then true else false.
Definition mem (x : sym) (l : list sym) : bool := existsb (sym_eqb x) l.

(** ast.go:14-25 (Node): operator, symbol, left, right, statements, parameters and the
    symbols of the node's symbol table (none if it has no table).  No tokens or types. *)
Inductive tree := Tree (o : op) (y : option sym) (l r : option tree) (ss ps : list tree) (sc : list sym).
Definition t_op (t : tree) : op := match t with Tree o _ _ _ _ _ _ => o end.
Definition t_sym (t : tree) : option sym := match t with Tree _ y _ _ _ _ _ => y end.
Definition t_left (t : tree) : option tree := match t with Tree _ _ l _ _ _ _ => l end.
Definition t_right (t : tree) : option tree := match t with Tree _ _ _ r _ _ _ => r end.
Definition t_stmts (t : tree) : list tree := match t with Tree _ _ _ _ ss _ _ => ss end.
Definition t_params (t : tree) : list tree := match t with Tree _ _ _ _ _ ps _ => ps end.
Definition t_scope (t : tree) : list sym := match t with Tree _ _ _ _ _ _ sc => sc end.
(** ast.go:283-285 (ident). *)
Definition ident (x : sym) : tree := Tree OpIdentifier (Some x) None None [] [] [].

Definition is_fn (o : op) : bool := match o with OpBlockFn | OpExprFn => true | _ => false end.
Definition is_id (o : op) : bool := match o with OpIdentifier => true | _ => false end.
(** closures.go:206-213 (opensScope). *)
Definition opens (o : op) : bool := match o with OpIf | OpElseIf | OpElse | OpCase | OpWhile | OpFor => true | _ => false end.

(* ------------------------------------------------------------------------------- walks *)

Definition o2l {A} (o : option A) : list A := match o with Some x => [x] | None => [] end.
(** walk.go:16-109 (Walk): what is visited below a node, in order.  A missing node where
    Walk expects one is passed over. *)
Definition pick {A} (o : op) (l r : option A) (ss ps : list A) : list A :=
  match o with
  | OpBlockFn | OpExprFn | OpExternFn | OpConsFn | OpFuncType => o2l r ++ ps ++ ss ++ o2l l
  | OpStruct | OpEnum | OpElse => ss
  | OpTypeList => ps
  | OpFuncCall => o2l l ++ ps ++ ss
  | OpWhile | OpMatch | OpTernary | OpArrayLit => o2l l ++ ss
  | OpCase => ps ++ ss
  | OpIf | OpElseIf => o2l l ++ ss ++ o2l r
  | OpFor => o2l r ++ o2l l ++ ss
  | OpLit | OpError => []
  | OpIdentifier | OpReturn | OpNamedType | OpNot | OpNeg | OpBNot | OpArrayType => o2l l
  | _ => o2l l ++ o2l r
  end.
Definition kids (t : tree) : list tree := match t with Tree o _ l r ss ps _ => pick o l r ss ps end.
Definition walks_left (o : op) : bool := match o with OpStruct | OpEnum | OpElse | OpTypeList | OpCase | OpLit | OpError => false | _ => true end.
Definition walks_right (o : op) : bool :=
  match o with
  | OpStruct | OpEnum | OpElse | OpTypeList | OpFuncCall | OpWhile | OpMatch | OpTernary | OpArrayLit | OpCase | OpLit | OpError
  | OpIdentifier | OpReturn | OpNamedType | OpNot | OpNeg | OpBNot | OpArrayType => false
  | _ => true
  end.
Definition walks_stmts (o : op) : bool :=
  match o with
  | OpBlockFn | OpExprFn | OpExternFn | OpConsFn | OpFuncType | OpStruct | OpEnum | OpElse | OpFuncCall | OpWhile | OpMatch | OpTernary | OpArrayLit
  | OpCase | OpIf | OpElseIf | OpFor => true
  | _ => false
  end.
Definition walks_params (o : op) : bool :=
  match o with OpBlockFn | OpExprFn | OpExternFn | OpConsFn | OpFuncType | OpTypeList | OpFuncCall | OpCase => true | _ => false end.

(* ---------------------------------------------------------------------- free variables *)

(** closures.go:137-142 (freeVarChecker); the last of a Go list is the first here.  Of the
    nodes on the stack only the operator is used. *)
Record checker := Checker { c_stack : list op; c_scopes : list (list sym); c_free : list sym }.
(** closures.go:193-203 (isFree). *)
Definition is_free (c : checker) (y : option sym) : bool :=
  match y with
  | None => false
  | Some x => negb (s_global x) && negb (s_lit x) && negb (existsb (mem x) (c_scopes c))
  end.
Definition push (o : op) (c : checker) : checker := Checker (o :: c_stack c) (c_scopes c) (c_free c).
Definition enter (sc : list sym) (c : checker) : checker := Checker (c_stack c) (sc :: c_scopes c) (c_free c).
Definition note (y : option sym) (c : checker) : checker :=
  match y with Some x => Checker (c_stack c) (c_scopes c) (if mem x (c_free c) then c_free c else x :: c_free c) | None => c end.
(** closures.go:184-191 (exitNode); none if there is nothing to pop. *)
Definition exit_node (c : checker) : option checker :=
  match c_stack c with
  | [] => None
  | o :: st => if opens o then match c_scopes c with [] => None | _ :: scs => Some (Checker st scs (c_free c)) end else Some (Checker st (c_scopes c) (c_free c))
  end.
Fixpoint run_all {S} (fs : list (S -> option S)) (c : S) : option S :=
  match fs with [] => Some c | f :: fs => match f c with Some c1 => run_all fs c1 | None => None end end.
(** WalkPreOrder (walk.go:5-7, 16-19, 111-113) with IdentityFreeVars (closures.go:158-182).
    When that returns false, the node stays on the stack. *)
Fixpoint check (root : bool) (t : tree) (c : checker) : option checker :=
  match t with
  | Tree o y l r ss ps sc =>
    let below c := match run_all (pick o (option_map (check false) l) (option_map (check false) r) (map (check false) ss) (map (check false) ps)) c with
                   | Some c1 => exit_node c1 | None => None end in
    let c1 := push o c in
    if opens o then below (enter sc c1)
    else if is_id o && is_free c1 y then below (note y c1)
    else
      match o, l with
      | (OpDot | OpArray), Some (Tree OpIdentifier y1 _ _ _ _ _) => Some (if is_free c1 y1 then note y1 c1 else c1)
      | _, _ => if is_fn o && negb root then Some c1 else below c1
      end
  end.
(** closures.go:99-107 (clIdentifyFreeVars), 144-149 (NewFreeVarChecker).  The result is the
    content of a Go map, whose order is not determined. *)
Definition free_vars (fn : tree) : option (list sym) := option_map c_free (check true fn (Checker [] [t_scope fn] [])).

(* ----------------------------------------------------------------------------- rewrite *)

(** ast.go:295-308 (generateStruct): the fields of a struct for the variables; [base] gives
    new identities. *)
Fixpoint fields (base i : nat) (vs : list sym) : list sym :=
  match vs with [] => [] | v :: vs => Sym (base + i) (s_name v) (8 * i) false false false :: fields base (S i) vs end.
(** symtab.go:289-296 (GetField). *)
Definition get_field (name : list Z) (fs : list sym) : option sym :=
  find (fun f => if list_eq_dec Z.eq_dec (s_name f) name then true else false) fs.
(** closures.go:117-134, the walk in clRewriteFreeVars (109-135): identifiers of free
    variables become fields of the environment.  There is always a field of the name. *)
Fixpoint rewrite_vars (env : sym) (fs vs : list sym) (t : tree) : tree :=
  match t with
  | Tree o y l r ss ps sc =>
    let l1 := if walks_left o then option_map (rewrite_vars env fs vs) l else l in
    let r1 := if walks_right o then option_map (rewrite_vars env fs vs) r else r in
    let ss1 := if walks_stmts o then map (rewrite_vars env fs vs) ss else ss in
    let ps1 := if walks_params o then map (rewrite_vars env fs vs) ps else ps in
    match o, y with
    | OpIdentifier, Some x =>
      if mem x vs then
        match get_field (s_name x) fs with
        | Some f => Tree OpDot (Some f) (Some (ident env)) (Some (ident f)) [] ps1 sc
        | None => Tree o y l1 r1 ss1 ps1 sc
        end
      else Tree o y l1 r1 ss1 ps1 sc
    | _, _ => Tree o y l1 r1 ss1 ps1 sc
    end
  end.
(** closures.go:109-114: the environment is the first parameter. *)
Definition add_env (env : sym) (t : tree) : tree := match t with Tree o y l r ss ps sc => Tree o y l r ss (ident env :: ps) sc end.
Definition rewrite_fn (env : sym) (fs vs : list sym) (fn : tree) : tree := rewrite_vars env fs vs (add_env env fn).

(** closures.go:10-81: what a local function becomes.  The symbols are those of the
    environment and the constructors; the function's own name is [fn_sym], made global. *)
Record names := Names { n_env : sym; n_base : nat; n_env_cons : sym; n_cl_cons : sym; n_fn : sym }.
(** The function moved to the top level. *)
Definition hoisted (n : names) (vs : list sym) (fn : tree) : tree :=
  match vs with
  | [] => match fn with Tree o _ l r ss ps sc => Tree o (Some (n_fn n)) l r ss ps sc end
  | _ => match rewrite_fn (n_env n) (fields (n_base n) 0 vs) vs fn with Tree o _ l r ss ps sc => Tree o (Some (n_fn n)) l r ss ps sc end
  end.
(** What is left in its place: a name, or a call that makes a closure of the function and
    an environment with the values of the variables. *)
Definition capture (vs : list sym) : list tree := map ident vs.
Definition in_place (n : names) (vs : list sym) : tree :=
  match vs with
  | [] => ident (n_fn n)
  | _ => Tree OpFuncCall None (Some (ident (n_cl_cons n))) None
           [ident (n_fn n); Tree OpFuncCall None (Some (ident (n_env_cons n))) None (capture vs) [] []] [] []
  end.
