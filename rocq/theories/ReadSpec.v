(** What the declarations of a text mean, for C59: trees of ParseSpec as those of DeclModel.
    Independent of nodes. *)
From Coq Require Import String ZArith List Bool.
From Verif Require Import TypeModel TypeGraph CheckModel DeclModel LitModel LexModel StrModel ParseModel ReadModel ParseSpec.
Import ListNotations.
Open Scope list_scope.

Fixpoint mean_ty (t : ParseSpec.ty) : texp :=
  match t with
  | TyName x args => XNamed (str x) (match args with Some l => Some (map mean_ty l) | None => None end)
  | TyFn ps r => XFun (map mean_ty ps) (match r with Some t => Some (mean_ty t) | None => None end)
  | TyArr t => XArr (mean_ty t)
  end.
Definition mean_param (p : name * ParseSpec.ty) : string * texp := (str (fst p), mean_ty (snd p)).
(** Type parameters are names. *)
Definition mean_tparam (t : ParseSpec.ty) : option string := match t with TyName x _ => Some (str x) | _ => None end.
Definition mean_tparams (o : option (list ParseSpec.ty)) : option (list string) := match o with Some l => all mean_tparam l | None => Some [] end.

(** The text of an integer literal, in brackets or not. *)
Fixpoint int_text (e : ParseSpec.expr) : option (list Z) :=
  match e with Lit (ParseSpec.LInt v) => Some v | Paren e => int_text e | _ => None end.
Definition mean_lit (l : literal) : option lit :=
  match l with
  | ParseSpec.LInt v => option_map CheckModel.LInt (LitModel.literal v)
  | ParseSpec.LStr v => option_map (fun s => CheckModel.LStr (str s)) (StrModel.unquote v)
  | LTrue => Some (LBool true)
  | LFalse => Some (LBool false)
  end.
Definition mean_bin (o : binary) : rexpr -> rexpr -> rexpr :=
  match o with
  | BDot => RDot | BMul => RArith OMul | BDiv => RArith ODiv | BAdd => RArith OAdd | BSub => RArith OSub | BShl => RArith OBLeft | BShr => RArith OBRight
  | BGt => RCmp OGt | BGte => RCmp OGte | BLt => RCmp OLt | BLte => RCmp OLte | BEq => RCmp OEq
  | BAnd => RArith OBAnd | BXor => RArith OBXor | BOr => RArith OBOr | BLand => RLogic OAnd | BLor => RLogic OOr
  end.
Fixpoint mean (e : ParseSpec.expr) : option rexpr :=
  match e with
  | Id x => Some (RId (str x))
  | Lit l => option_map RLit (mean_lit l)
  | Paren e => mean e
  | Pre UNot e => option_map RNot (mean e)
  | Pre UBNot e => option_map RBNot (mean e)
  | Pre UNeg e =>
      match int_text e with
      | Some v => option_map (fun z => RLit (CheckModel.LInt z)) (LitModel.literal (45%Z :: v))
      | None => option_map RNeg (mean e)
      end
  | Bin o a b => both (mean_bin o) (mean a) (mean b)
  | Cond c a b => match mean c, mean a, mean b with Some c, Some a, Some b => Some (RTern c a b) | _, _, _ => None end
  | Index a i => both RIndex (mean a) (mean i)
  | Call f args => both (fun f l => RCall f [] l) (mean f) (all_some (map mean args))
  | TCall f ts args => both (fun f l => RCall f (map mean_ty ts) l) (mean f) (all_some (map mean args))
  | Arr es => option_map RArrLit (all_some (map mean es))
  | TypeOf t => Some (RType (mean_ty t))
  | Fn None ps r (Block l) => option_map (RFn (map mean_param ps) (option_map mean_ty r)) (all_some (map mean_stmt l))
  | Fn None ps r (Expr e) => option_map (RFnExpr (map mean_param ps) (option_map mean_ty r)) (mean e)
  | Fn (Some _) _ _ _ => None
  end
with mean_stmt (s : ParseSpec.stmt) : option rstmt :=
  match s with
  | Return None => Some (RReturn None)
  | Return (Some e) => option_map (fun e => RReturn (Some e)) (mean e)
  | While c l => both RWhile (mean c) (all_some (map mean_stmt l))
  | For x e None l => both (RForIn (str x)) (mean e) (all_some (map mean_stmt l))
  | For x e (Some e2) l => match mean e, mean e2, all_some (map mean_stmt l) with Some a, Some b, Some s => Some (RForRange (str x) a b s) | _, _, _ => None end
  | If c l r => match mean c, all_some (map mean_stmt l), mean_branch r with Some c, Some s, Some r => Some (RIf c s r) | _, _, _ => None end
  | Match e cs => both RMatch (mean e)
      (all_some (map (fun c => option_map (fun s => (str (fst (fst c)), map str (snd (fst c)), s)) (all_some (map mean_stmt (snd c)))) cs))
  | Assign a e => both RAs (mean a) (mean e)
  | Declare a e => both RDas (mean a) (mean e)
  | Do e => option_map RDo (mean e)
  end
with mean_branch (r : branch) : option (option rstmt) :=
  match r with
  | NoElse => Some None
  | ElseIf c l r => match mean c, all_some (map mean_stmt l), mean_branch r with Some c, Some s, Some r => Some (Some (RIf c s r)) | _, _, _ => None end
  | Else l => option_map (fun s => Some (RElse s)) (all_some (map mean_stmt l))
  end.
Definition mean_body (b : option body) : option dbody :=
  match b with
  | None => Some DExtern
  | Some (Block l) => option_map (fun b => DBlock (fun env => map (typed_stmt env) b)) (all_some (map mean_stmt l))
  | Some (Expr e) => option_map (fun e => DExpr (fun env => typed env e)) (mean e)
  end.
Definition mean_decl (d : ParseSpec.decl) : option DeclModel.decl :=
  match d with
  | ParseSpec.DFn _ x tps ps r b => both (fun ts b => DeclModel.DFn (str x) ts (map mean_param ps) (option_map mean_ty r) b) (mean_tparams tps) (mean_body b)
  | ParseSpec.DStruct _ x tps fs => option_map (fun ts => DeclModel.DStruct (str x) ts (map mean_param fs)) (mean_tparams tps)
  | ParseSpec.DEnum _ x tps cs => option_map (fun ts => DeclModel.DEnum (str x) ts (map (fun c => (str (fst c), map mean_param (snd c))) cs)) (mean_tparams tps)
  end.
(** What a program means, if its literals have 64 bits and no function literal has type
    parameters. *)
Definition mean_program (p : list ParseSpec.decl) : option (list DeclModel.decl) := all mean_decl p.
