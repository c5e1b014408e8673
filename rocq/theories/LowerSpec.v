(** What functions with a checked return, match statements and for statements should
    do.  Nothing here looks at how they are lowered. *)
From Coq Require Import ZArith List Bool String.
From Verif Require Import Ints X86 GenModel GenSpec GenFuel LowerModel.
Import ListNotations.
Open Scope Z_scope.

(* ------------------------------------------------------------------ missing returns *)

(** All ways through a statement: conditions may come out either way, loops may run any
    number of times, a match runs one of its cases. *)
Inductive ending := Falls | Returns.
Inductive goes : xstmt -> ending -> Prop :=
| goes_return e : goes (XReturn e) Returns
| goes_branch bs c b x : In (c, b) bs -> goes_list b x -> goes (XIf bs) x
| goes_no_branch bs : (forall b, ~ In (None, b) bs) -> goes (XIf bs) Falls
| goes_das x t e : goes (XDas x t e) Falls
| goes_as l e : goes (XAs l e) Falls
| goes_expr e : goes (XExpr e) Falls
| goes_while c b : goes (XWhile c b) Falls
| goes_while_body c b : goes_list b Returns -> goes (XWhile c b) Returns
| goes_range x t a b z body : goes (XRange x t a b z body) Falls
| goes_range_body x t a b z body : goes_list body Returns -> goes (XRange x t a b z body) Returns
| goes_array x t a body : goes (XArray x t a body) Falls
| goes_array_body x t a body : goes_list body Returns -> goes (XArray x t a body) Returns
| goes_match e cases tag vars b x : In (tag, vars, b) cases -> goes_list b x -> goes (XMatch e cases) x
with goes_list : list xstmt -> ending -> Prop :=
| goes_nil : goes_list [] Falls
| goes_stop s l : goes s Returns -> goes_list (s :: l) Returns
| goes_on s l x : goes s Falls -> goes_list l x -> goes_list (s :: l) x.

(** A statement that has no meaning; runs that reach it are Stuck. *)
Definition trap (K : consts) : stmt := SAs (int_lit K 0) (int_lit K 0).
Definition no_case (K : consts) : list (option expr * list stmt) := [(None, [trap K])].

(* ------------------------------------------------------------------------- variables *)

(** The variable occurs in the statement. *)
Section Occurs.
Variable x : nat.
Fixpoint occurs (s : xstmt) : bool :=
  let fix any (l : list xstmt) : bool := match l with [] => false | a :: r => occurs a || any r end in
  match s with
  | XReturn (Some e) => reads x e
  | XReturn None => false
  | XIf bs =>
    (fix chain bs := match bs with
       | [] => false
       | (c, b) :: r => match c with Some e => reads x e | None => false end || any b || chain r
       end) bs
  | XDas y _ e => Nat.eqb x y || reads x e
  | XAs l e => reads x l || reads x e
  | XWhile c b => reads x c || any b
  | XExpr e => reads x e
  | XRange y _ a b _ body => Nat.eqb x y || reads x a || reads x b || any body
  | XArray y _ a body => Nat.eqb x y || reads x a || any body
  | XMatch e cases =>
    reads x e ||
    (fix every cs := match cs with
       | [] => false
       | (_, vars, b) :: r => existsb (fun v => Nat.eqb x (fst v)) vars || any b || every r
       end) cases
  end.
Fixpoint occurs_any (l : list xstmt) : bool := match l with [] => false | a :: r => occurs a || occurs_any r end.
Fixpoint occurs_chain (bs : list (option expr * list xstmt)) : bool :=
  match bs with
  | [] => false
  | (c, b) :: r => match c with Some e => reads x e | None => false end || occurs_any b || occurs_chain r
  end.
Fixpoint occurs_cases (cs : list (Z * list (nat * ty) * list xstmt)) : bool :=
  match cs with
  | [] => false
  | (_, vars, b) :: r => existsb (fun v => Nat.eqb x (fst v)) vars || occurs_any b || occurs_cases r
  end.
End Occurs.

(** The statement assigns the variable. *)
Section Assigned.
Variable x : nat.
Fixpoint assigned (s : xstmt) : bool :=
  let fix any (l : list xstmt) : bool := match l with [] => false | a :: r => assigned a || any r end in
  match s with
  | XReturn _ | XExpr _ => false
  | XIf bs => (fix chain bs := match bs with [] => false | (_, b) :: r => any b || chain r end) bs
  | XDas y _ _ => Nat.eqb x y
  | XAs (EVar _ y) _ => Nat.eqb x y
  | XAs _ _ => false
  | XWhile _ b => any b
  | XRange y _ _ _ _ body => Nat.eqb x y || any body
  | XArray y _ _ body => Nat.eqb x y || any body
  | XMatch _ cases =>
    (fix every cs := match cs with
       | [] => false
       | (_, vars, b) :: r => existsb (fun v => Nat.eqb x (fst v)) vars || any b || every r
       end) cases
  end.
Fixpoint assigned_any (l : list xstmt) : bool := match l with [] => false | a :: r => assigned a || assigned_any r end.
Fixpoint assigned_chain (bs : list (option expr * list xstmt)) : bool :=
  match bs with [] => false | (_, b) :: r => assigned_any b || assigned_chain r end.
Fixpoint assigned_cases (cs : list (Z * list (nat * ty) * list xstmt)) : bool :=
  match cs with
  | [] => false
  | (_, vars, b) :: r => existsb (fun v => Nat.eqb x (fst v)) vars || assigned_any b || assigned_cases r
  end.
End Assigned.

(* ------------------------------------------------------------------------------ runs *)

(** A computation with budgets for steps and nested calls ends with a result. *)
Definition fin {A} (f : nat -> nat -> res A) (R : res A) : Prop := R <> NoFuel /\ exists n d, f n d = R.

(** The result of statements. *)
Notation result := (res (outcome * (nat -> option Z) * memory)) (only parsing).
Notation behaviour := ((nat -> option Z) -> memory -> res (outcome * (nat -> option Z) * memory) -> Prop) (only parsing).

(** The same result, but for the values of some variables. *)
Definition apart (xs : list nat) (R R' : res (outcome * (nat -> option Z) * memory)) : Prop :=
  match R, R' with
  | Val (o, r, h), Val (o', r', h') => o = o' /\ h = h' /\ forall y, ~ In y xs -> r y = r' y
  | Ioob i a h, Ioob i' a' h' => i = i' /\ a = a' /\ h = h'
  | DivZero, DivZero | Stuck, Stuck | NoFuel, NoFuel => True
  | _, _ => False
  end.

(** Two sets of results agree, but for the values of some variables. *)
Definition same_results (xs : list nat) (P Q : res (outcome * (nat -> option Z) * memory) -> Prop) : Prop :=
  (forall R, P R -> exists R', Q R' /\ apart xs R R') /\ (forall R', Q R' -> exists R, P R /\ apart xs R R').

(** A loop: the body is run for every number, in order, until it returns or fails. *)
Inductive each (x : nat) (B : behaviour) : list Z -> behaviour :=
| each_done r h : each x B [] r h (Val (ONormal, r, h))
| each_next v vs r h r1 h1 R : B (env_set r x (wint v)) h (Val (ONormal, r1, h1)) -> each x B vs r1 h1 R -> each x B (v :: vs) r h R
| each_stop v vs r h R : B (env_set r x (wint v)) h R -> (forall r1 h1, R <> Val (ONormal, r1, h1)) -> each x B (v :: vs) r h R.

(** a, a+1, ..., b-1 and a-1, a-2, ..., b. *)
Definition upto (a b : Z) : list Z := map (fun i => a + Z.of_nat i) (List.seq 0 (Z.to_nat (b - a))).
Definition downto (a b : Z) : list Z := map (fun i => a - 1 - Z.of_nat i) (List.seq 0 (Z.to_nat (a - b))).

(** A loop over the array at [p]: before the i-th round the variable gets what the array
    has at index i. *)
Inductive each_element (x : nat) (p : Z) (B : behaviour) : list Z -> behaviour :=
| element_done r h : each_element x p B [] r h (Val (ONormal, r, h))
| element_next i is r h r1 h1 R : B (env_set r x (load h (word (p + 8 + 8 * i)))) h (Val (ONormal, r1, h1)) ->
    each_element x p B is r1 h1 R -> each_element x p B (i :: is) r h R
| element_stop i is r h R : B (env_set r x (load h (word (p + 8 + 8 * i)))) h R ->
    (forall r1 h1, R <> Val (ONormal, r1, h1)) -> each_element x p B (i :: is) r h R.

(** At [w] is the value built by the member with the tag, from the values. *)
Definition has_member (heap : Z -> bool) (h : memory) (w tag : Z) (vs : list Z) : Prop :=
  ok8 heap (word w) = true /\ load h (word w) = wint tag /\
  forall i v, nth_error vs i = Some v ->
    ok8 heap (word (w + 8 * (Z.of_nat i + 1))) = true /\ load h (word (w + 8 * (Z.of_nat i + 1))) = v.

(** The variables of a case stand for the values, all others are as before. *)
Fixpoint case_env (r : nat -> option Z) (vars : list (nat * ty)) (vs : list Z) : nat -> option Z :=
  match vars, vs with
  | (x, _) :: vars, v :: vs => fun y => if Nat.eqb x y then Some v else case_env r vars vs y
  | _, _ => r
  end.

(** The function asEnum of enums.clara:13 and the function unsafe it calls, whose code
    is written by hand (codegen.go:358-363): it adds the offset to the pointer. *)
Definition as_enum_defined (K : consts) (extern : string -> list (option Z) -> memory -> option (option Z * memory))
  (prog : list fundef) : Prop :=
  fi_external (c_as_enum_info K) = false /\
  (exists p tp ti te fi u ret,
     find_fun prog (c_as_enum K) =
       Some (Fun (c_as_enum K) [(p, tp)] (BExpr (ECall te fi u [EVar tp p; ELitInt ti 0; EType te])) ret false) /\
     fi_external fi = true /\ fi_raw fi = false /\
     forall a b v h, extern u [Some a; Some b; v] h = Some (Some (word (a + ival b)), h)).

(** Conditions on the bounds and arrays of loops. *)
Section Conditions.
Variable heap : Z -> bool.
Variable lit : list Z -> Z.
Variable fun_addr : string -> Z.
Variable fun_at : Z -> option string.
Variable extern abstract : string -> list (option Z) -> memory -> option (option Z * memory).
Variable alloc : string.
Variable prog : list fundef.
Notation finE r h e := (fin (fun n d => eval heap lit fun_addr fun_at extern abstract alloc prog n d r h e)).
Notation finL r h l := (fin (fun n d => exec_list heap lit fun_addr fun_at extern abstract alloc prog n d r h l)).

(** A bound that is not changed by the loop. *)
Definition stable (x : nat) (e : expr) (w : Z) (body : list stmt) (I : (nat -> option Z) -> memory -> Prop) : Prop :=
  (forall r h, I r h -> finE r h e (Val (Some w, h))) /\
  (forall r h v, I r h -> I (env_set r x v) h) /\
  (forall r h r1 h1, I r h -> finL r h body (Val (ONormal, r1, h1)) -> I r1 h1).

(** The array expression keeps giving the array, whose length stays as it is. *)
Definition same_array (x : nat) (e : expr) (p len : Z) (body : list stmt) (I : (nat -> option Z) -> memory -> Prop) : Prop :=
  (forall r h, I r h -> finE r h e (Val (Some p, h)) /\ load h p = wint len) /\
  (forall r h v y, (y = x \/ reads y e = false) -> I r h -> I (env_set r y v) h) /\
  (forall r h r1 h1, I r h -> finL r h body (Val (ONormal, r1, h1)) -> I r1 h1).
Definition in_heap_array (p len : Z) : Prop :=
  is_addr p /\ is_int len /\ 0 <= len /\ ok8 heap p = true /\ forall i, 0 <= i < len -> ok8 heap (word (p + 8 + 8 * i)) = true.
Definition keeps_length (p len : Z) (body : list stmt) : Prop :=
  forall r h r1 h1, load h p = wint len -> finL r h body (Val (ONormal, r1, h1)) -> load h1 p = wint len.

End Conditions.

(** Expressions made of literals and variables with operators, without calls, fields or
    array elements. *)
Fixpoint calc (e : expr) : bool :=
  match e with
  | ELitInt _ _ | ELitBool _ _ | EVar _ _ => true
  | ELogic _ _ l r | EArith _ _ l r | ECmp _ _ l r | EShift _ _ l r => calc l && calc r
  | ENot _ a | EBNot _ a | ENeg _ a => calc a
  | ECond _ c a b => calc c && calc a && calc b
  | _ => false
  end.
