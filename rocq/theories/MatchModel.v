(** Model of the declaration of enums (semantic.go:134-163) and of the check of match
    statements (typecheck.go:397-460, 477-515). *)
From Coq Require Import List Bool String PeanoNat.
Import ListNotations.
Local Open Scope string_scope.

(** symtab.go (FunctionType): what a function is and its number of parameters.  Function
    types are compared by address; an address is a place in the list of all functions. *)
Inductive fn_kind := KNormal | KEnumCons (tag : nat).
Record fn := Fn { fn_kind_of : fn_kind; fn_params : nat }.
(** What a name of the root scope stands for: a function at an address, or a type. *)
Inductive sym := SFun (a : nat) | SOther.
Definition table := list (string * sym).
Fixpoint resolve (t : table) (x : string) : option sym :=
  match t with [] => None | (y, s) :: r => if String.eqb x y then Some s else resolve r x end.

Inductive error :=
| Redeclared (x : string) | TooManyArgs (x : string) | NotAnEnumCase (x : string)
| InvalidNumberArgs (x : string) (have want : nat) | UnknownEnumCase (x : string)
| NotExhaustive | Other (n : nat).

Record state := State { s_fns : list fn; s_table : table }.

(** semantic.go:335-347 (processFnType, no overloads): a new function type and its symbol,
    unless the name is taken.  Errors in the types of parameters are not modelled. *)
Definition process_cons (s : state) (x : string) (params : nat) : option (state * nat) :=
  match resolve (s_table s) x with
  | Some _ => None
  | None => Some (State (s_fns s ++ [Fn KNormal params])%list ((x, SFun (List.length (s_fns s))) :: s_table s), List.length (s_fns s))
  end.

Fixpoint update {A} (l : list A) (i : nat) (v : A) : list A :=
  match l, i with [], _ => [] | _ :: r, O => v :: r | a :: r, S i => a :: update r i v end.

Definition max_case_args : nat := 5.                                 (* semantic.go:45 *)

(** semantic.go:138-159: the members of an enum, in the order they are written, from the
    i-th on.  The result: the state, EnumType.Members, the errors. *)
Fixpoint declare_members (s : state) (i : nat) (ms : list (string * nat)) (members : list nat)
  : state * list nat * list error :=
  match ms with
  | [] => (s, members, [])
  | (x, params) :: r =>
    match process_cons s x params with
    | None => (s, members, [Redeclared x])                           (* continue loop *)
    | Some (s1, a) =>
      if Nat.ltb max_case_args params then
        let '(s2, m, es) := declare_members s1 (S i) r members in (s2, m, TooManyArgs x :: es)
      else
        declare_members (State (update (s_fns s1) a (Fn (KEnumCons i) params)) (s_table s1)) (S i) r (members ++ [a])%list
    end
  end.
Definition declare_enum (s : state) (ms : list (string * nat)) : state * list nat * list error :=
  declare_members s 0 ms [].

(** A case: its name, its variables, and the errors in its statements. *)
Record case := Case { ca_name : string; ca_vars : list string; ca_errs : list error }.

(** typecheck.go:498-507: variables are defined in a new scope. *)
Fixpoint define_vars (seen vars : list string) : list error :=
  match vars with
  | [] => []
  | x :: r => if existsb (String.eqb x) seen then Redeclared x :: define_vars seen r else define_vars (x :: seen) r
  end.

(** typecheck.go:477-515 (typeCheckCase): the errors, and the constructor if there is one. *)
Definition check_case (s : state) (c : case) : list error * option nat :=
  match resolve (s_table s) (ca_name c) with
  | Some (SFun a) =>
    match nth_error (s_fns s) a with
    | Some (Fn (KEnumCons _) params) =>
      if Nat.eqb params (List.length (ca_vars c)) then ((define_vars [] (ca_vars c) ++ ca_errs c)%list, Some a)
      else ([InvalidNumberArgs (ca_name c) (List.length (ca_vars c)) params], Some a)
    | _ => ([NotAnEnumCase (ca_name c)], None)
    end
  | _ => ([NotAnEnumCase (ca_name c)], None)
  end.

(** symtab.go:310-317 (HasMember) *)
Definition has_member_fn (members : list nat) (a : nat) : bool := existsb (Nat.eqb a) members.

(** typecheck.go:429-449 *)
Fixpoint check_members (s : state) (members : list nat) (seen : list nat) (cs : list case) : list error :=
  match cs with
  | [] => []
  | c :: r =>
    match snd (check_case s c) with
    | None => check_members s members seen r
    | Some a =>
      if negb (has_member_fn members a) then UnknownEnumCase (ca_name c) :: check_members s members seen r
      else if existsb (Nat.eqb a) seen then Redeclared (ca_name c) :: check_members s members seen r
      else check_members s members (a :: seen) r
    end
  end.

(** typecheck.go:424-459: the errors of a match over an enum with the given members. *)
Definition check_match (s : state) (members : list nat) (cs : list case) : list error :=
  let errs := (flat_map (fun c => fst (check_case s c)) cs ++ check_members s members [] cs)%list in
  match errs with
  | [] => if Nat.eqb (List.length cs) (List.length members) then [] else [NotExhaustive]
  | _ => errs
  end.

(** semantic.go:561: the tag a case tests for. *)
Definition case_tag_of (s : state) (c : case) : option nat :=
  match snd (check_case s c) with
  | Some a => match nth_error (s_fns s) a with Some (Fn (KEnumCons i) _) => Some i | _ => None end
  | None => None
  end.
