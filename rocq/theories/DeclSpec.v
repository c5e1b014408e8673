(** What declarations mean, for C53. *)
From Coq Require Import String Ascii List Bool PeanoNat.
From Verif Require Import TypeModel TypeSpec TypeGraph CheckModel CheckSpec DeclModel.
Import ListNotations.
Local Open Scope string_scope.
Local Open Scope nat_scope.
Local Open Scope list_scope.

(** The types that need not be declared. *)
Definition built_in : list (string * ty) :=
  [("string", TString); ("int", TInt); ("bool", TBool); ("pointer", TPointer); ("nothing", TNothing); ("bytes", TBytes)].

(** [denotes E scope e t]: where the names in [scope] are type parameters and structs and enums
    are those of [E], the expression [e] is written for the type [t].  The name of a generic
    type without arguments is the type with its own parameters. *)
Inductive denotes (E : genv) (scope : list (string * nat)) : texp -> ty -> Prop :=
| denotes_param x p : assoc x scope = Some p -> denotes E scope (XNamed x None) (TParam p)
| denotes_built_in x t : assoc x scope = None -> In (x, t) built_in -> denotes E scope (XNamed x None) t
| denotes_struct x ps fs : assoc x scope = None -> assoc x (g_structs E) = Some (ps, fs) ->
    denotes E scope (XNamed x None) (TStruct 0 x (map TParam ps))
| denotes_enum x ps ms : assoc x scope = None -> assoc x (g_enums E) = Some (ps, ms) ->
    denotes E scope (XNamed x None) (TEnum 0 x (map TParam ps))
| denotes_struct_of x ps fs es ts : assoc x scope = None -> assoc x (g_structs E) = Some (ps, fs) -> ps <> [] ->
    List.length ps = List.length es -> Forall2 (denotes E scope) es ts -> denotes E scope (XNamed x (Some es)) (TStruct 0 x ts)
| denotes_enum_of x ps ms es ts : assoc x scope = None -> assoc x (g_enums E) = Some (ps, ms) -> ps <> [] ->
    List.length ps = List.length es -> Forall2 (denotes E scope) es ts -> denotes E scope (XNamed x (Some es)) (TEnum 0 x ts)
| denotes_arr e t : denotes E scope e t -> denotes E scope (XArr e) (TArr t)
| denotes_fun es r ts t : Forall2 (denotes E scope) es ts -> denotes E scope r t ->
    denotes E scope (XFun es (Some r)) (TFun 0 [] ts t)
| denotes_proc es ts : Forall2 (denotes E scope) es ts -> denotes E scope (XFun es None) (TFun 0 [] ts TNothing).

(** Names with their types, in order. *)
Definition denote_all (E : genv) (scope : list (string * nat)) (l : list (string * texp)) (l' : list (string * ty)) : Prop :=
  Forall2 (fun a b => fst a = fst b /\ denotes E scope (snd a) (snd b)) l l'.

(** Numbers for type parameters: as many as names, all different. *)
Definition numbered (tps : list string) (scope : list (string * nat)) : Prop := map fst scope = tps /\ NoDup (map snd scope).

(** Function [f] is called by the name [x]. *)
Definition called (P : program) (x : string) (f : nat) : Prop :=
  exists chain t, assoc x (g_names (p_env P)) = Some (GFuns chain) /\ In (f, t) chain /\
  exists d, nth_error (p_funs P) f = Some d /\ t = TFun f (map snd (f_types d)) (map snd (f_params d)) (f_ret d).

(** A name, as the lexer makes them: without a bracket.  (The code keeps functions among the
    types under names like f(int).) *)
Definition name_ok (x : string) : Prop := forall a b, x <> (a ++ "(" ++ b)%string.
(** The environment of a body: type parameters, then types. *)
Definition env_of (E : genv) (scope : list (string * nat)) (env : tenv) : Prop :=
  forall x, name_ok x -> forall t, env x = Some t <-> denotes E scope (XNamed x None) t.

(** What a declaration stands for in a program: a struct has its fields and a constructor whose
    name begins with the upper case letter, an enum has a constructor for each member in
    order, a function has the types that are written. *)
Definition stands (P : program) (d : decl) : Prop :=
  let E := p_env P in
  match d with
  | DStruct x tps fields =>
    exists scope fs, numbered tps scope /\ assoc x (g_structs E) = Some (map snd scope, fs) /\ denote_all E scope fields fs /\
    exists c rest f, x = String c rest /\ assoc (upper c ++ rest)%string (g_names E) = Some (GFuns [(f, TFun f (map snd scope) (map snd fs) (TStruct 0 x (map TParam (map snd scope))))]) /\
      nth_error (p_funs P) f = Some (Fdef scope fs (TStruct 0 x (map TParam (map snd scope))) (BStruct x))
  | DEnum x tps members =>
    exists scope ms, numbered tps scope /\ assoc x (g_enums E) = Some (map snd scope, ms) /\ List.length ms = List.length members /\
    forall tag y params f, nth_error members tag = Some (y, params) -> nth_error ms tag = Some f ->
      exists ps, denote_all E scope params ps /\ called P y f /\
      nth_error (p_funs P) f = Some (Fdef scope ps (TEnum 0 x (map TParam (map snd scope))) (BCons x tag))
  | DFn x tps params ret body =>
    exists f scope ps r env b, numbered tps scope /\ denote_all E scope params ps /\ called P x f /\
    match ret with Some e => denotes E scope e r | None => r = TNothing end /\
    env_of E scope env /\ b = match body with DBlock b => BBlock (b env) | DExpr e => BExpr (e env) | DExtern => BExtern end /\
    nth_error (p_funs P) f = Some (Fdef scope ps r b)
  end.

(** Nothing is declared twice: type names, functions with the same parameter types, type
    parameters together with fields or parameters, members, members' parameters. *)
Definition type_names (ds : list decl) : list string :=
  flat_map (fun d => match d with DStruct x _ _ | DEnum x _ _ => [x] | _ => [] end) ds.
Definition fun_keys (ds : list decl) : list (string * list texp) :=
  flat_map (fun d => match d with DFn x _ ps _ _ => [(x, map snd ps)] | _ => [] end) ds.
Definition member_names (ds : list decl) : list string :=
  flat_map (fun d => match d with DEnum _ _ ms => map fst ms | _ => [] end) ds.
Definition no_repeats (ds : list decl) : Prop :=
  NoDup (map fst built_in ++ type_names ds) /\ NoDup (fun_keys ds) /\ NoDup (member_names ds) /\
  forall d, In d ds ->
    match d with
    | DStruct _ tps fs => NoDup (tps ++ map fst fs)
    | DEnum x tps ms => NoDup tps /\ forall y ps, In (y, ps) ms -> NoDup (map fst ps)
    | DFn _ tps ps _ _ => NoDup (tps ++ map fst ps)
    end.

Inductive names_ok : texp -> Prop :=
| names_ok_raw x : name_ok x -> names_ok (XNamed x None)
| names_ok_named x es : name_ok x -> Forall names_ok es -> names_ok (XNamed x (Some es))
| names_ok_proc es : Forall names_ok es -> names_ok (XFun es None)
| names_ok_fun es r : Forall names_ok es -> names_ok r -> names_ok (XFun es (Some r))
| names_ok_arr e : names_ok e -> names_ok (XArr e).
Definition all_names_ok (ds : list decl) : Prop :=
  forall d, In d ds ->
    match d with
    | DStruct x _ fs => name_ok x /\ Forall (fun f => names_ok (snd f)) fs
    | DEnum x _ ms => name_ok x /\ forall y ps, In (y, ps) ms -> Forall (fun p => names_ok (snd p)) ps
    | DFn _ _ ps r _ => Forall (fun p => names_ok (snd p)) ps /\ match r with Some e => names_ok e | None => True end
    end.

(** No enum has its own name for a type parameter. *)
Definition unshadowed (ds : list decl) : Prop := forall x tps ms, In (DEnum x tps ms) ds -> ~ In x tps.

(** Generic types have arguments in fields and in members of enums. *)
Definition generic_names (ds : list decl) : list string :=
  flat_map (fun d => match d with DStruct x (_ :: _) _ | DEnum x (_ :: _) _ => [x] | _ => [] end) ds.
Inductive complete (gs tps : list string) : texp -> Prop :=
| complete_name x : In x tps \/ ~ In x gs -> complete gs tps (XNamed x None)
| complete_of x es : Forall (complete gs tps) es -> complete gs tps (XNamed x (Some es))
| complete_fun es r : Forall (complete gs tps) es -> complete gs tps r -> complete gs tps (XFun es (Some r))
| complete_proc es : Forall (complete gs tps) es -> complete gs tps (XFun es None)
| complete_arr e : complete gs tps e -> complete gs tps (XArr e).
Definition all_complete (ds : list decl) : Prop :=
  forall d, In d ds ->
    match d with
    | DStruct _ tps fs => Forall (fun f => complete (generic_names ds) tps (snd f)) fs
    | DEnum _ tps ms => forall y ps, In (y, ps) ms -> Forall (fun p => complete (generic_names ds) tps (snd p)) ps
    | DFn _ _ _ _ _ => True
    end.

(** When declarations must be accepted.  A type is well written if its names are known and
    generic types have as many arguments as parameters, or none. *)
Definition arities (ds : list decl) : list (string * nat) :=
  map (fun b => (fst b, 0)) built_in ++
  flat_map (fun d => match d with DStruct x tps _ | DEnum x tps _ => [(x, List.length tps)] | _ => [] end) ds.
Inductive well_written (ar : list (string * nat)) (tps : list string) : texp -> Prop :=
| ww_param x : In x tps -> well_written ar tps (XNamed x None)
| ww_name x n : In (x, n) ar -> well_written ar tps (XNamed x None)
| ww_of x n es : ~ In x tps -> In (x, n) ar -> n <> 0 -> List.length es = n -> Forall (well_written ar tps) es -> well_written ar tps (XNamed x (Some es))
| ww_fun es r : Forall (well_written ar tps) es -> well_written ar tps r -> well_written ar tps (XFun es (Some r))
| ww_proc es : Forall (well_written ar tps) es -> well_written ar tps (XFun es None)
| ww_arr e : well_written ar tps e -> well_written ar tps (XArr e).

(** The name of the constructor of a struct: its first letter, which is a small one, as a
    capital. *)
Inductive capital : string -> string -> Prop :=
| capital_of n rest : 97 <= n <= 122 -> capital (String (ascii_of_nat n) rest) (String (ascii_of_nat (n - 32)) rest).

Definition taken : list string :=
  ["string"; "int"; "bool"; "pointer"; "nothing"; "[]string"; "[]int"; "[]T"; "bytes"; "debug"; "printf"].
(** A name as the lexer makes it has none of the characters with which types are written. *)
Definition lacks (c x : string) : Prop := forall a b, x <> (a ++ c ++ b)%string.
Definition word (x : string) : Prop := x <> ""%string /\ Forall (fun c => lacks c x) ["("; ")"; ","; "["; "«"; "»"]%string.
Inductive words : texp -> Prop :=
| words_name x : word x -> words (XNamed x None)
| words_named x es : word x -> Forall words es -> words (XNamed x (Some es))
| words_fun es r : Forall words es -> words (XFun es r)
| words_arr e : words e -> words (XArr e).
(** Types that are the same, but for results of functions. *)
Inductive written_alike : texp -> texp -> Prop :=
| alike_name x : written_alike (XNamed x None) (XNamed x None)
| alike_named x es fs : Forall2 written_alike es fs -> written_alike (XNamed x (Some es)) (XNamed x (Some fs))
| alike_fun es fs r q : Forall2 written_alike es fs -> written_alike (XFun es r) (XFun fs q)
| alike_arr e f : written_alike e f -> written_alike (XArr e) (XArr f).
Definition fun_names (ds : list decl) : list string := flat_map (fun d => match d with DFn x _ _ _ _ => [x] | _ => [] end) ds.
(** Names of types, members and constructors ([cs], of the structs in order) are all different,
    the latter two also different from those of functions.  Functions of one name differ in the
    types of their parameters, not only in results of functions there.  Nothing is repeated inside of a
    declaration, types are well written, members have at most five parameters. *)
Record good (ds : list decl) (cs : list string) : Prop := {
  good_names : NoDup (taken ++ type_names ds ++ member_names ds ++ cs);
  good_funs : forall x, In x (fun_names ds) -> ~ In x (member_names ds ++ cs);
  good_keys : forall i j x ts us ps qs r q b c, nth_error ds i = Some (DFn x ts ps r b) -> nth_error ds j = Some (DFn x us qs q c) ->
    i <> j -> ~ Forall2 written_alike (map snd ps) (map snd qs);
  good_idents : Forall word (type_names ds ++ member_names ds ++ cs);
  good_words : forall x ts ps r b, In (DFn x ts ps r b) ds -> word x /\ Forall words (map snd ps);
  good_cons : Forall2 capital (flat_map (fun d => match d with DStruct x _ _ => [x] | _ => [] end) ds) cs;
  good_decls : forall d, In d ds ->
    match d with
    | DStruct _ tps fs => NoDup (tps ++ map fst fs) /\ Forall (fun f => well_written (arities ds) tps (snd f)) fs
    | DEnum _ tps ms => NoDup tps /\ forall y ps, In (y, ps) ms -> NoDup (map fst ps) /\ List.length ps <= 5 /\
        Forall (fun p => well_written (arities ds) tps (snd p)) ps
    | DFn _ tps ps r _ => NoDup (tps ++ map fst ps) /\ Forall (fun p => well_written (arities ds) tps (snd p)) ps /\
        match r with Some e => well_written (arities ds) tps e | None => True end
    end
}.
