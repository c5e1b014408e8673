(** What the properties C11-C14 and C16 mean. *)
From Coq Require Import Ascii String List Bool PeanoNat.
From Verif Require Import TypeModel.
Import ListNotations.

(** The same type: built alike from structs and enums of the same name.  Which
    declaration object a type points to plays no role. *)
Inductive same : ty -> ty -> Prop :=
| same_struct : forall d1 d2 n ts us, Forall2 same ts us -> same (TStruct d1 n ts) (TStruct d2 n us)
| same_enum : forall d1 d2 n ts us, Forall2 same ts us -> same (TEnum d1 n ts) (TEnum d2 n us)
| same_fun : forall i1 i2 g1 g2 ps qs r q, Forall2 same ps qs -> same r q ->
    same (TFun i1 g1 ps r) (TFun i2 g2 qs q)
| same_arr : forall a b, same a b -> same (TArr a) (TArr b)
| same_param : forall p, same (TParam p) (TParam p)
| same_int : same TInt TInt
| same_bytes : same TBytes TBytes
| same_bool : same TBool TBool
| same_string : same TString TString
| same_nothing : same TNothing TNothing
| same_pointer : same TPointer TPointer.

(** A type with every type parameter replaced by the type given to it. *)
Fixpoint apply (s : nat -> ty) (t : ty) : ty :=
  match t with
  | TStruct d n ts => TStruct d n (map (apply s) ts)
  | TEnum d n ts => TEnum d n (map (apply s) ts)
  | TFun i g ps r => TFun i g (map (apply s) ps) (apply s r)
  | TArr e => TArr (apply s e)
  | TParam p => s p
  | _ => t
  end.

(** A type mentions a type parameter. *)
Inductive mentions (p : nat) : ty -> Prop :=
| m_here : mentions p (TParam p)
| m_struct : forall d n ts t, In t ts -> mentions p t -> mentions p (TStruct d n ts)
| m_enum : forall d n ts t, In t ts -> mentions p t -> mentions p (TEnum d n ts)
| m_arg : forall i g ps r t, In t ps -> mentions p t -> mentions p (TFun i g ps r)
| m_ret : forall i g ps r, mentions p r -> mentions p (TFun i g ps r)
| m_arr : forall e, mentions p e -> mentions p (TArr e).

(** The same, not looking into function types. *)
Inductive shows (p : nat) : ty -> Prop :=
| s_here : shows p (TParam p)
| s_struct : forall d n ts t, In t ts -> shows p t -> shows p (TStruct d n ts)
| s_enum : forall d n ts t, In t ts -> shows p t -> shows p (TEnum d n ts)
| s_fun : forall i g ps r, In p g -> shows p (TFun i g ps r)
| s_arr : forall e, shows p e -> shows p (TArr e).

(** No function type inside. *)
Inductive functionless : ty -> Prop :=
| f_struct : forall d n ts, Forall functionless ts -> functionless (TStruct d n ts)
| f_enum : forall d n ts, Forall functionless ts -> functionless (TEnum d n ts)
| f_arr : forall e, functionless e -> functionless (TArr e)
| f_param : forall p, functionless (TParam p)
| f_int : functionless TInt
| f_bytes : functionless TBytes
| f_bool : functionless TBool
| f_string : functionless TString
| f_nothing : functionless TNothing
| f_pointer : functionless TPointer.

(** The type parameters of a call that are determined: written in the call, or
    mentioned by a parameter. *)
Definition determined (types : list nat) (params : list ty) (explicit : list ty) (p : nat) : Prop :=
  (explicit <> [] /\ In p types) \/ Exists (mentions p) params.

(** An overload can be called with arguments of types [args] and the type
    arguments [explicit] written in the call. *)
Definition applicable (f : ty) (explicit : list ty) (args : list ty) : Prop :=
  exists i types params ret, f = TFun i types params ret /\
  (explicit = [] \/ length explicit = length types) /\
  match types with
  | [] => Forall2 same args params
  | _ =>
    exists s : nat -> ty,
      (explicit <> [] -> Forall2 (fun p t => same t (s p)) types explicit) /\
      Forall2 (fun a p => same a (apply s p)) args params /\
      (forall p, shows p ret -> determined types params explicit p)
  end.

(** The arguments [after] are the arguments [before], where names with overloads
    may have been settled to one of these. *)
Definition settled (before after : arg) : Prop :=
  if overloaded before
  then exists s t pre post, ar_chain before = pre ++ (s, t) :: post /\ after = Arg t ((s, t) :: post)
  else after = before.

(** ** Labels (C16) *)

(** Names a declaration can have in the text of a program: not empty, and without
    the characters that separate the parts of a label. *)
Fixpoint clean (s : string) : bool :=
  match s with
  | EmptyString => true
  | String c s' => negb (Ascii.eqb c "."%char) && negb (Ascii.eqb c "$"%char) && clean s'
  end.

Definition identifier (s : string) : Prop := s <> ""%string /\ clean s = true.

(** Names that mean something else in a label. *)
Definition reserved : list string :=
  ["array"; "fn"; "int"; "bytes"; "bool"; "string"; "nothing"; "pointer"; "T"]%string.

(** Structs and enums in the type have such names. *)
Inductive well_named : ty -> Prop :=
| w_struct : forall d n ts, identifier n -> ~ In n reserved -> Forall well_named ts -> well_named (TStruct d n ts)
| w_enum : forall d n ts, identifier n -> ~ In n reserved -> Forall well_named ts -> well_named (TEnum d n ts)
| w_fun : forall i g ps r, Forall well_named ps -> well_named (TFun i g ps r)
| w_arr : forall e, well_named e -> well_named (TArr e)
| w_param : forall p, well_named (TParam p)
| w_int : well_named TInt
| w_bytes : well_named TBytes
| w_bool : well_named TBool
| w_string : well_named TString
| w_nothing : well_named TNothing
| w_pointer : well_named TPointer.

(** Types that labels do not tell apart: type parameters, functions with different
    results, a struct and an enum of the same name. *)
Definition named (t : ty) : option (string * list ty) :=
  match t with
  | TStruct _ n ts | TEnum _ n ts => Some (n, ts)
  | _ => None
  end.

Inductive alike : ty -> ty -> Prop :=
| alike_named : forall t u n ts us, named t = Some (n, ts) -> named u = Some (n, us) ->
    Forall2 alike ts us -> alike t u
| alike_fun : forall i1 i2 g1 g2 ps qs r q, Forall2 alike ps qs -> alike (TFun i1 g1 ps r) (TFun i2 g2 qs q)
| alike_arr : forall a b, alike a b -> alike (TArr a) (TArr b)
| alike_param : forall p q, alike (TParam p) (TParam q)
| alike_int : alike TInt TInt
| alike_bytes : alike TBytes TBytes
| alike_bool : alike TBool TBool
| alike_string : alike TString TString
| alike_nothing : alike TNothing TNothing
| alike_pointer : alike TPointer TPointer.

(** Types that mention no type parameter and no function type, and in which a name
    is that of a struct or that of an enum, as [is_enum] says. *)
Inductive concrete (is_enum : string -> bool) : ty -> Prop :=
| c_struct : forall d n ts, is_enum n = false -> Forall (concrete is_enum) ts -> concrete is_enum (TStruct d n ts)
| c_enum : forall d n ts, is_enum n = true -> Forall (concrete is_enum) ts -> concrete is_enum (TEnum d n ts)
| c_arr : forall e, concrete is_enum e -> concrete is_enum (TArr e)
| c_int : concrete is_enum TInt
| c_bytes : concrete is_enum TBytes
| c_bool : concrete is_enum TBool
| c_string : concrete is_enum TString
| c_nothing : concrete is_enum TNothing
| c_pointer : concrete is_enum TPointer.
