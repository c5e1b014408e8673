(** Functions that the code generator has code for, for C57. *)
From Coq Require Import ZArith List Bool String.
From Verif Require Import X86 GenModel.
Import ListNotations.
Open Scope Z_scope.

(** Operators for ints have ints at both sides, calls have up to six arguments, numbers have 64
    bits.  A call of what is no name is not inside of an argument that comes after a pointer
    among the arguments of a call ([after]: there is such a pointer).  Nothing is asked of other
    parts. *)
Definition int (e : expr) : Prop := knd e = TInteger.
Inductive fit (after : bool) : expr -> Prop :=
| fit_int t z : ty_kind t = TInteger -> - 2 ^ 63 <= z < 2 ^ 63 -> fit after (ELitInt t z)
| fit_bool t b : fit after (ELitBool t b)
| fit_str t s : fit after (ELitStr t s)
| fit_logic t op l r : fit after l -> fit after r -> fit after (ELogic t op l r)
| fit_arith t op l r : fit after l -> fit after r -> int l -> int r -> ty_kind t = TInteger -> fit after (EArith t op l r)
| fit_not t e : fit after e -> fit after (ENot t e)
| fit_bnot t e : fit after e -> int e -> fit after (EBNot t e)
| fit_neg t e : fit after e -> int e -> fit after (ENeg t e)
| fit_cmp t op l r : fit after l -> fit after r -> int l -> int r -> fit after (ECmp t op l r)
| fit_shift t op l r : fit after l -> fit after r -> int l -> int r -> ty_kind t = TInteger -> fit after (EShift t op l r)
| fit_var t x : fit after (EVar t x)
| fit_fun t f b : fit after (EFun t f b)
| fit_off t z : fit after (EOff t z)
| fit_cond t c a b : fit after c -> fit after a -> fit after b -> fit after (ECond t c a b)
| fit_array t e : fit after e -> fit after (EArrayLit t e)
| fit_call t fi f args : fit_args false args -> (List.length args <= 6)%nat -> fit after (ECall t fi f args)
| fit_call_var t fi x args : fit_args false args -> (List.length args <= 6)%nat -> fit after (ECallVar t fi x args)
| fit_call_expr t fi e args : after = false -> fit after e -> fit_args false args -> (List.length args <= 6)%nat -> fit after (ECallExpr t fi e args)
| fit_dot t l r : fit after l -> fit after r -> fit after (EDot t l r)
| fit_index t a i : fit after a -> fit after i -> int i -> fit after (EIndex t a i)
| fit_type t : fit after (EType t)
with fit_args (after : bool) : list expr -> Prop :=
| fit_no_args : fit_args after []
| fit_more_args a rest : fit after a -> fit_args (after || is_pointer (typ a)) rest -> fit_args after (a :: rest).

Inductive fit_stmt : stmt -> Prop :=
| fit_return_none : fit_stmt (SReturn None)
| fit_return e : fit false e -> fit_stmt (SReturn (Some e))
| fit_if bs : (forall c b, In (Some c, b) bs -> fit false c) -> (forall c b st, In (c, b) bs -> In st b -> fit_stmt st) -> fit_stmt (SIf bs)
| fit_das x t e : fit false e -> fit_stmt (SDas x t e)
| fit_as l e : fit false l -> fit false e -> fit_stmt (SAs l e)
| fit_while c b : fit false c -> (forall st, In st b -> fit_stmt st) -> fit_stmt (SWhile c b)
| fit_block b : (forall st, In st b -> fit_stmt st) -> fit_stmt (SBlock b)
| fit_expr e : fit false e -> fit_stmt (SExpr e).

Definition fit_body (b : body) : Prop :=
  match b with
  | BBlock l => forall st, In st l -> fit_stmt st
  | BExpr e => fit false e
  | BCons _ _ _ => True
  end.

(** The variables of a function besides its parameters, each once. *)
Definition locals (f : fundef) : list nat :=
  nodup Nat.eq_dec (filter (fun x => negb (existsb (Nat.eqb x) (map fst (f_params f)))) (body_vars (f_body f))).

(** At most six parameters, and at most 4096 parameters and variables (8 bytes each, within
    reach of 16 bits). *)
Definition has_code (f : fundef) : Prop :=
  (List.length (f_params f) <= 6)%nat /\ fit_body (f_body f) /\ Z.of_nat (List.length (f_params f)) + Z.of_nat (List.length (locals f)) <= 4096.
