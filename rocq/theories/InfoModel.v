(** Model of type ids and of the type information table: the constructors the compiler
    makes from a program's declarations, gc.go (GcTypes) and codegen.go
    (genTypeInfoTable). *)
From Coq Require Import ZArith List Bool String.
From Verif Require Import GenModel GcModel.
Import ListNotations.
Open Scope Z_scope.

(** Types given ids: fields with their Addr; an enum with its identity and, per member,
    its tag and parameter types.  [GOther] stands for the kinds that cannot be in the
    table. *)
Inductive gc_type :=
| GStruct (fields : list (Z * ty))
| GEnum (who : nat) (members : list (Z * list ty))
| GString
| GArray (elem : ty)
| GFunction
| GBytes
| GOther.

(** Declarations at top level.  Types of fields and parameters are the resolved ones.
    A function comes with its local functions, in the order of a post-order walk; those
    with free variables have the variables' types. *)
Inductive local_fn := AnonFn | ClosureFn (fn : ty) (env : ty) (free : list ty).
Inductive top :=
| DEnum (name : string) (type_params : list string) (members : list (list ty))
| DStruct (fields : list ty)
| DFn (external : bool) (locals : list local_fn).

(** Children of the root node. *)
Inductive node :=
| NDcl                                                        (* opStructDcl, opEnumDcl *)
| NFn (external : bool)
| NCons (tag : option Z) (params : list ty) (ret : gc_type).   (* opConsFnDcl *)

Definition start_node (d : top) : node :=
  match d with DEnum _ _ _ | DStruct _ => NDcl | DFn e _ => NFn e end.

(** semantic.go:403 and 250 (ResolveAll on the constructor's symbol table): the result
    type of a constructor is looked up by name, and the enum's type parameters come
    first. *)
Definition result_type (name : string) (type_params : list string) (self : gc_type) : gc_type :=
  if existsb (String.eqb name) type_params then GOther else self.

(** The [i]-th, [i+1]-th, ... of a list. *)
Fixpoint numbered {A} (i : Z) (l : list A) : list (Z * A) :=
  match l with [] => [] | x :: l => (i, x) :: numbered (i + 1) l end.

(** semantic.go:147-172: an enum's constructors, added to the root; tags count from 0. *)
Definition enum_type (who : nat) (members : list (list ty)) : gc_type := GEnum who (numbered 0 members).
Definition enum_nodes (who : nat) (name : string) (type_params : list string) (members : list (list ty)) : list node :=
  map (fun m => NCons (Some (fst m)) (snd m) (result_type name type_params (enum_type who members))) (numbered 0 members).
Fixpoint enums_from (who : nat) (prog : list top) (root : list node) : list node :=
  match prog with
  | [] => root
  | DEnum name ps ms :: prog => enums_from (S who) prog (root ++ enum_nodes who name ps ms)
  | _ :: prog => enums_from (S who) prog root
  end.

(** semantic.go:177-195 (fields, Addr) and 618-665 (generateStructConstructor);
    ast.go:295-322 (generateStruct) *)
Definition struct_type (fields : list ty) : gc_type := GStruct (map (fun f => (8 * fst f, snd f)) (numbered 0 fields)).
Definition struct_node (fields : list ty) : node := NCons None fields (struct_type fields).
Definition structs_of (prog : list top) : list node :=
  flat_map (fun d => match d with DStruct fields => [struct_node fields] | _ => [] end) prog.

(** closures.go:10-79: a closure's two structs with their constructors, and the function *)
Definition local_nodes (l : local_fn) : list node :=
  match l with
  | AnonFn => [NFn false]
  | ClosureFn fn env free => [NDcl; struct_node free; NDcl; struct_node [fn; env]; NFn false]
  end.
Definition locals_of (prog : list top) : list node :=
  flat_map (fun d => match d with DFn _ ls => flat_map local_nodes ls | _ => [] end) prog.

(** main.go:92-131: the root's children when code is generated *)
Definition root_nodes (prog : list top) : list node :=
  enums_from 0 prog (map start_node prog) ++ structs_of prog ++ locals_of prog.

(** gc.go:80-119 (AddBuiltins); the numbers identify Go objects and do not matter. *)
Definition builtins : list gc_type :=
  [GStruct []; GBytes; GArray (Ty TInteger 0); GArray (Ty TString 1); GString; GFunction; GBytes; GArray (Ty TParameter 2)].

(** codegen.go:116-122, 177-179; gc.go:121-124 (AssignId): the types and, for every
    constructor, the id its code passes to the allocator. *)
Fixpoint assign (nodes : list node) (types : list gc_type) : list gc_type * list (option Z * list ty * Z) :=
  match nodes with
  | [] => (types, [])
  | NCons tag params ret :: nodes =>
    let id := Z.of_nat (List.length types) in
    let '(types, ids) := assign nodes (types ++ [ret]) in
    (types, (tag, params, id) :: ids)
  | _ :: nodes => assign nodes types
  end.

(** codegen.go:233-240 and 261-268: the offsets of pointers, in words. *)
Definition field_offsets (fields : list (Z * ty)) : list Z :=
  map (fun f => fst f / 8) (filter (fun f => is_pointer (snd f)) fields).
Definition param_offsets (params : list ty) : list Z :=
  map (fun p => fst p + 1) (filter (fun p => is_pointer (snd p)) (numbered 0 params)).

(** codegen.go:212-283: the root maps; None is a panic. *)
Fixpoint root_maps (tag : nat) (et : option nat) (types : list gc_type) : option (list (list Z)) :=
  match types with
  | [] => Some []
  | t :: types =>
    match t with
    | GString | GArray _ | GBytes | GFunction => option_map (cons []) (root_maps 0 et types)
    | GStruct fields =>
      match field_offsets fields with
      | [] => option_map (cons []) (root_maps tag et types)
      | off => option_map (cons off) (root_maps 0 et types)
      end
    | GEnum who members =>
      let tag := match et with Some e => if Nat.eqb who e then tag else O | None => O end in
      match nth_error members tag with
      | Some (t, params) =>
        if negb (t =? Z.of_nat tag) then None
        else option_map (cons (param_offsets params)) (root_maps (S tag) (Some who) types)
      | None => None
      end
    | GOther => None
    end
  end.

(** codegen.go:286-316: what is written for each type, as the enum typeInfo of gc.clara *)
Definition info_of (t : gc_type) (roots : list Z) : type_info :=
  match t with
  | GStruct _ | GEnum _ _ => StructType roots
  | GString => StringType
  | GArray elem => ArrayType (is_pointer elem)
  | GFunction => FunctionType
  | GBytes | GOther => BytesType
  end.
Fixpoint infos (types : list gc_type) (roots : list (list Z)) : list type_info :=
  match types, roots with
  | t :: types, r :: roots => info_of t r :: infos types roots
  | _, _ => []
  end.
Definition type_info_table (types : list gc_type) : option (list type_info) :=
  option_map (infos types) (root_maps 0 None types).

(** The ids of a program's constructors and its table. *)
Definition constructor_ids (prog : list top) : list (option Z * list ty * Z) := snd (assign (root_nodes prog) builtins).
Definition table_of (prog : list top) : option (list type_info) := type_info_table (fst (assign (root_nodes prog) builtins)).
