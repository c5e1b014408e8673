(** What it means that a program as it is written follows the rules of the language, for C54:
    rules for the trees of the parser, with names not yet resolved and type parameters of
    calls not yet found.  Scopes are lists of frames, innermost first. *)
From Coq Require Import String List Bool PeanoNat ZArith.
From Verif Require Import TypeModel TypeSpec CheckModel CheckSpec.
Import ListNotations.
Local Open Scope string_scope.
Local Open Scope nat_scope.
Local Open Scope list_scope.

(* ------------------------------------------------------------------------------- scopes *)

(** The first entry with a name. *)
Inductive entry {A} (x : string) : list (string * A) -> A -> Prop :=
| entry_here a l : entry x ((x, a) :: l) a
| entry_next y b l a : x <> y -> entry x l a -> entry x ((y, b) :: l) a.
(** A name as it is seen from the innermost frame. *)
Inductive visible (x : string) : list frame -> lentry -> Prop :=
| visible_here f F e : entry x f e -> visible x (f :: F) e
| visible_outer f F e : ~ In x (map fst f) -> visible x F e -> visible x (f :: F) e.
Definition hidden (x : string) (F : list frame) : Prop := forall f, In f F -> ~ In x (map fst f).

(** Function types inside have no type parameters: values are not generic. *)
Inductive mono : ty -> Prop :=
| mono_struct d n ts : Forall mono ts -> mono (TStruct d n ts)
| mono_enum d n ts : Forall mono ts -> mono (TEnum d n ts)
| mono_fun i ps r : Forall mono ps -> mono r -> mono (TFun i [] ps r)
| mono_arr e : mono e -> mono (TArr e)
| mono_param p : mono (TParam p)
| mono_int : mono TInt
| mono_bytes : mono TBytes
| mono_bool : mono TBool
| mono_string : mono TString
| mono_nothing : mono TNothing
| mono_pointer : mono TPointer.

(** A function of type [h] called with arguments of types [us] gives [t]: type parameters are
    written, or the arguments tell what they are. *)
Inductive instance : ty -> list ty -> list ty -> ty -> Prop :=
| instance_plain i ps r us : Forall2 same us ps -> instance (TFun i [] ps r) [] us r
| instance_generic i types ps r explicit us (s : nat -> ty) : types <> [] ->
    (explicit = [] \/ Forall2 (fun p t => same t (s p)) types explicit) ->
    Forall2 (fun u p => same u (apply s p)) us ps ->
    (forall p, mentions p r -> determined types ps explicit p) ->
    instance (TFun i types ps r) explicit us (apply s r).

(* ---------------------------------------------------------------------------- returning *)

(** The last statement of a block returns, on each of its ways. *)
Inductive finishes : stmt -> Prop :=
| finishes_return e : finishes (SReturn e)
| finishes_if c b r : ends b -> branch_ends r -> finishes (SIf c b (Some r))
| finishes_match e c cs : all_end (c :: cs) -> finishes (SMatch e (c :: cs))
with ends : list stmt -> Prop :=
| ends_last s : finishes s -> ends [s]
| ends_next s l : ends l -> ends (s :: l)
with branch_ends : stmt -> Prop :=
| branch_else b : ends b -> branch_ends (SElse b)
| branch_if c b r : ends b -> branch_ends r -> branch_ends (SIf c b (Some r))
with all_end : list (string * list string * list stmt) -> Prop :=
| all_end_nil : all_end []
| all_end_cons x xs b cs : ends b -> all_end cs -> all_end ((x, xs, b) :: cs).

(* -------------------------------------------------------------------------------- rules *)

Definition special (x : string) : Prop := x = "printf" \/ x = "debug" \/ x = "unsafe".

Definition params (ts : list (string * nat)) (ps : list (string * ty)) : frame :=
  map (fun p => (fst p, LType (TParam (snd p)))) ts ++ map (fun p => (fst p, LVar (snd p))) ps.

Section Rules.
Variable P : program.
Notation G := (p_env P).

Definition has_field (t : ty) (x : string) : Prop :=
  exists d n ts ps fs, t = TStruct d n ts /\ entry n (g_structs G) (ps, fs) /\ In x (map fst fs).
(** Values that can be called; a name has to be that of a variable. *)
Definition callee (F : list frame) (f : expr) : Prop :=
  match f with
  | EFn _ _ _ _ | EDot _ _ | ECall _ _ _ | EIndex _ _ => True
  | EId x => (exists t, visible x F (LVar t)) /\ ~ special x
  | _ => False
  end.

(** [has F e t]: in the scopes [F], [e] has type [t]. *)
Inductive has : list frame -> expr -> ty -> Prop :=
| has_int F z : has F (ELit (LInt z)) TInt
| has_bool F b : has F (ELit (LBool b)) TBool
| has_str F s : has F (ELit (LStr s)) TString
| has_var F x t : visible x F (LVar t) -> has F (EId x) t
| has_fun F x f i ps r : hidden x F -> entry x (g_names G) (GFuns [(f, TFun i [] ps r)]) -> has F (EId x) (TFun i [] ps r)
| has_arith F o l r : has F l TInt -> has F r TInt -> has F (EArith o l r) TInt
| has_logic F o l r : has F l TBool -> has F r TBool -> has F (ELogic o l r) TBool
| has_cmp F o l r : has F l TInt -> has F r TInt -> has F (ECmp o l r) TBool
| has_not F e : has F e TBool -> has F (ENot e) TBool
| has_bnot F e : has F e TInt -> has F (EBNot e) TInt
| has_neg F e : has F e TInt -> has F (ENeg e) TInt
| has_call F f ts args us t : have F args us -> calls F f ts us t -> List.length args <= 6 -> has F (ECall f ts args) t
(** x.f(y): the call of a field, or f(x, y). *)
| has_method F l x ts args u us t : has F l u -> ~ has_field u x -> have F args us -> calls F (EId x) ts (u :: us) t ->
    List.length args <= 5 -> has F (EDot l (ECall (EId x) ts args)) t
| has_field_call F l x ts args u t : has F l u -> has_field u x -> has F (ECall (EDot l (EId x)) ts args) t ->
    has F (EDot l (ECall (EId x) ts args)) t
| has_field_elem F l b i u t : has F l u -> has F (EIndex (EDot l b) i) t -> has F (EDot l (EIndex b i)) t
| has_struct_field F l d n ts ps fs x t : has F l (TStruct d n ts) -> entry n (g_structs G) (ps, fs) -> entry x fs t ->
    has F (EDot l (EId x)) (apply (with_types ps ts) t)
| has_length_arr F l t : has F l (TArr t) -> has F (EDot l (EId "length")) TInt
| has_length_str F l : has F l TString -> has F (EDot l (EId "length")) TInt
| has_index F l r t : has F l (TArr t) -> has F r TInt -> has F (EIndex l r) t
| has_arr F e es t us : has F e t -> have F es us -> Forall (fun u => same u t) us -> has F (EArrLit (e :: es)) (TArr t)
| has_tern F c a b t u : has F c TBool -> has F a t -> has F b u -> same t u -> has F (ETern c a b) t
| has_fn F ps ret body : NoDup (map fst ps) -> Forall mono (map snd ps) -> mono ret ->
    block (params [] ps :: F) ret body -> ret = TNothing \/ ends body -> has F (EFn [] ps ret body) (TFun 0 [] (map snd ps) ret)
| has_fn_expr F ps ret e t : NoDup (map fst ps) -> Forall mono (map snd ps) -> mono ret ->
    has (params [] ps :: F) e t -> same ret t -> has F (EFnExpr [] ps ret e) (TFun 0 [] (map snd ps) ret)
with have : list frame -> list expr -> list ty -> Prop :=
| have_nil F : have F [] []
| have_cons F e es t ts : has F e t -> have F es ts -> have F (e :: es) (t :: ts)
(** [calls F f ts us t]: [f] can be called with the type arguments [ts] and arguments of types
    [us], and gives [t].  The first overload that can be called is. *)
with calls : list frame -> expr -> list ty -> list ty -> ty -> Prop :=
| calls_root F x ts us t before f h after : hidden x F -> entry x (g_names G) (GFuns (before ++ (f, h) :: after)) ->
    ~ special x -> Forall mono ts -> Forall (fun c => ~ applicable (snd c) ts us) before -> instance h ts us t ->
    calls F (EId x) ts us t
| calls_print F x ts us f i g ps r more : hidden x F -> entry x (g_names G) (GFuns ((f, TFun i g ps r) :: more)) ->
    x = "printf" \/ x = "debug" -> In f (g_variadic G) -> calls F (EId x) ts us TNothing
| calls_value F f us i ps t : has F f (TFun i [] ps t) -> callee F f -> Forall2 same us ps -> calls F f [] us t
(** [fits F ret s F1]: the statement is right in a function with result [ret]; after it the
    scopes are [F1]. *)
with fits : list frame -> ty -> stmt -> list frame -> Prop :=
| fits_expr F ret e t : has F e t -> fits F ret (SExpr e) F
| fits_das f F ret x e t : has (f :: F) e t -> ~ In x (map fst f) -> fits (f :: F) ret (SDas (EId x) e) (((x, LVar t) :: f) :: F)
| fits_as_var F ret x e t u : visible x F (LVar t) -> has F e u -> same t u -> fits F ret (SAs (EId x) e) F
| fits_as_field F ret l x e d n ts t u : has F l (TStruct d n ts) -> has F (EDot l (EId x)) t -> has F e u -> same t u ->
    fits F ret (SAs (EDot l (EId x)) e) F
| fits_as_elem F ret l i e t u : has F (EIndex l i) t -> has F e u -> same t u -> fits F ret (SAs (EIndex l i) e) F
| fits_as_field_elem F ret l b i e t u : has F (EDot l (EIndex b i)) t -> has F e u -> same t u ->
    fits F ret (SAs (EDot l (EIndex b i)) e) F
| fits_while F ret c body : has F c TBool -> block ([] :: F) ret body -> fits F ret (SWhile c body) F
| fits_for_in F ret x e t body : has F e (TArr t) -> block ([(x, LVar t)] :: F) ret body -> fits F ret (SForIn x e body) F
| fits_for_range F ret x a b body : has F a TInt -> has F b TInt -> block ([(x, LVar TInt)] :: F) ret body ->
    fits F ret (SForRange x a b body) F
| fits_if F ret c body : has F c TBool -> block ([] :: F) ret body -> fits F ret (SIf c body None) F
| fits_if_else F ret c body r F1 : has F c TBool -> block ([] :: F) ret body -> fits F ret r F1 -> fits F ret (SIf c body (Some r)) F
| fits_else F ret body : block ([] :: F) ret body -> fits F ret (SElse body) F
| fits_return F : fits F TNothing (SReturn None) F
| fits_return_value F ret e t : has F e t -> same ret t -> fits F ret (SReturn (Some e)) F
(** Each member of the enum has one case. *)
| fits_match F ret e d n us ps ms cs members : has F e (TEnum d n us) -> entry n (g_enums G) (ps, ms) ->
    cases F ret ps us cs members -> NoDup members -> (forall f, In f members <-> In f ms) -> fits F ret (SMatch e cs) F
with block : list frame -> ty -> list stmt -> Prop :=
| block_nil F ret : block F ret []
| block_cons F ret s F1 ss : fits F ret s F1 -> block F1 ret ss -> block F ret (s :: ss)
(** The cases of a match and the constructors that they name. *)
with cases : list frame -> ty -> list nat -> list ty -> list (string * list string * list stmt) -> list nat -> Prop :=
| cases_nil F ret ps us : cases F ret ps us [] []
| cases_cons F ret ps us x xs body cs f i g qs r more members :
    hidden x F -> entry x (g_names G) (GFuns ((f, TFun i g qs r) :: more)) -> List.length xs = List.length qs -> NoDup xs ->
    block (combine xs (map (fun q => LVar (apply (with_types ps us) q)) qs) :: F) ret body ->
    cases F ret ps us cs members -> cases F ret ps us ((x, xs, body) :: cs) (f :: members).

(** Functions of the root scope. *)
Definition fun_fits (d : fdef) : Prop :=
  let F := [params (f_types d) (f_params d)] in
  match f_body d with
  | BBlock body => NoDup (map fst (f_types d) ++ map fst (f_params d)) /\ block F (f_ret d) body /\ (f_ret d = TNothing \/ ends body)
  | BExpr e => NoDup (map fst (f_types d) ++ map fst (f_params d)) /\ exists t, has F e t /\ same (f_ret d) t
  | BExtern => NoDup (map fst (f_types d) ++ map fst (f_params d))
  | BStruct _ | BCons _ _ => True
  end.
(** Declared types: values of function type are not generic, type parameters and members are
    different from each other. *)
Record tidy : Prop := {
  tidy_names : forall x chain f i g ps r, entry x (g_names G) (GFuns chain) -> In (f, TFun i g ps r) chain ->
    NoDup g /\ Forall mono ps /\ mono r;
  tidy_structs : forall n ps fs, entry n (g_structs G) (ps, fs) -> NoDup ps /\ Forall mono (map snd fs);
  tidy_enums : forall n ps ms, entry n (g_enums G) (ps, ms) -> NoDup ps /\ NoDup ms;
  tidy_funs : forall d, In d (p_funs P) -> Forall mono (map snd (f_params d)) /\ mono (f_ret d)
}.
Definition follows_the_rules : Prop := tidy /\ Forall fun_fits (p_funs P).
End Rules.
