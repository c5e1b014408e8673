(** The pass over a whole program that moves function literals out of functions and sends
    calls of values through invokeDynamic: main.go 120-125, closures.go 10-97. *)
From Coq Require Import ZArith List Bool Arith.
From Verif Require Import ParseModel ClosModel.
Import ListNotations.
Open Scope nat_scope.

(** closures.go:8, 13 (id) and the functions added to the root.  The structs and constructors
    added for a closure are in InfoModel. *)
Record state := State { last_id : nat; added : list tree }.

Section Pass.
(** The symbols made for a literal (closures.go 24-36, 69-72), by its id; the order of the
    captured variables (a Go map); the symbol found under the name invokeDynamic
    (closures.go:90). *)
Variable names_of : nat -> names.
Variable order : list sym -> list sym.
Variable dyn : sym.

(** closures.go:12-81 *)
Definition move (fn : tree) (s : state) : option (tree * state) :=
  let id := S (last_id s) in
  match free_vars fn with
  | None => None
  | Some vs => let vs := order vs in Some (in_place (names_of id) vs, State id (added s ++ [hoisted (names_of id) vs fn]))
  end.
(** ast.go:153-155 (isNonGlobalFnCall), closures.go:84-96.  A call without callee is a panic. *)
Definition dynamic (t : tree) : option tree :=
  match t with
  | Tree OpFuncCall y l r ss ps sc =>
    match l with
    | None => None
    | Some f =>
      match t_sym f with
      | Some x => if s_global x then Some t else Some (Tree OpFuncCall y (Some (ident dyn)) r (f :: ss) ps sc)
      | None => Some (Tree OpFuncCall y (Some (ident dyn)) r (f :: ss) ps sc)
      end
    end
  | _ => Some t
  end.
(** closures.go:10-97.  Below the root every function is a literal (ast.go:140-142): the
    parser gives the token fn to these only. *)
Definition visit (root : bool) (t : tree) (s : state) : option (tree * state) :=
  match (if is_fn (t_op t) && negb root then move t s else Some (t, s)) with
  | None => None
  | Some (t, s) => option_map (fun t => (t, s)) (dynamic t)
  end.

Definition act A := state -> option (A * state).
Definition ret {A} (a : A) : act A := fun s => Some (a, s).
Definition bind {A B} (m : act A) (f : A -> act B) : act B := fun s => match m s with Some (a, s) => f a s | None => None end.
Definition maybe (m : option (act tree)) : act (option tree) := match m with Some m => bind m (fun t => ret (Some t)) | None => ret None end.
Fixpoint each (ms : list (act tree)) : act (list tree) :=
  match ms with [] => ret [] | m :: ms => bind m (fun t => bind (each ms) (fun ts => ret (t :: ts))) end.
Notation "x <- m ; f" := (bind m (fun x => f)) (at level 60, right associativity).
(** WalkPostOrder (walk.go:9-14, 16-119) with the above. *)
Fixpoint convert (root : bool) (t : tree) : act tree :=
  match t with
  | Tree o y l r ss ps sc =>
    let cl := maybe (option_map (convert false) l) in
    let cr := maybe (option_map (convert false) r) in
    let cs := each (map (convert false) ss) in
    let cp := each (map (convert false) ps) in
    match o with
    | OpBlockFn | OpExprFn | OpExternFn | OpConsFn | OpFuncType => r <- cr; ps <- cp; ss <- cs; l <- cl; visit root (Tree o y l r ss ps sc)
    | OpStruct | OpEnum | OpElse => ss <- cs; visit root (Tree o y l r ss ps sc)
    | OpTypeList => ps <- cp; visit root (Tree o y l r ss ps sc)
    | OpFuncCall => l <- cl; ps <- cp; ss <- cs; visit root (Tree o y l r ss ps sc)
    | OpWhile | OpMatch | OpTernary | OpArrayLit => l <- cl; ss <- cs; visit root (Tree o y l r ss ps sc)
    | OpCase => ps <- cp; ss <- cs; visit root (Tree o y l r ss ps sc)
    | OpIf | OpElseIf => l <- cl; ss <- cs; r <- cr; visit root (Tree o y l r ss ps sc)
    | OpFor => r <- cr; l <- cl; ss <- cs; visit root (Tree o y l r ss ps sc)
    | OpLit | OpError => visit root (Tree o y l r ss ps sc)
    | OpIdentifier | OpReturn | OpNamedType | OpNot | OpNeg | OpBNot | OpArrayType => l <- cl; visit root (Tree o y l r ss ps sc)
    | _ => l <- cl; r <- cr; visit root (Tree o y l r ss ps sc)
    end
  end.

(** main.go:120-124, 213-215: all nodes of the root but the blocks with the name invokeDynamic;
    the nodes added meanwhile are not visited. *)
Variable is_dyn : list Z -> bool.
Definition convert_root (d : list Z * tree) : act (list Z * tree) :=
  match t_op (snd d) with
  | OpBlockFn => if is_dyn (fst d) then ret d else bind (convert true (snd d)) (fun t => ret (fst d, t))
  | _ => bind (convert true (snd d)) (fun t => ret (fst d, t))
  end.
Fixpoint convert_roots (ds : list (list Z * tree)) : act (list (list Z * tree)) :=
  match ds with [] => ret [] | d :: ds => bind (convert_root d) (fun d => bind (convert_roots ds) (fun ds => ret (d :: ds))) end.
End Pass.
