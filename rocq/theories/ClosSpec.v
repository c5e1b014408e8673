(** What programs with closures should do: variables, their uses, and how bodies run. *)
From Coq Require Import ZArith List Bool Arith.
From Verif Require Import ParseModel ClosModel.
Import ListNotations.
Open Scope nat_scope.

(* -------------------------------------------------------------------------------- nodes *)

(** The nodes that have a scope of their own, besides functions (typecheck.go:32, 56, 71,
    501, 559). *)
Definition declares (o : op) : bool := match o with OpIf | OpElseIf | OpElse | OpCase | OpWhile | OpFor => true | _ => false end.
(** The parts of the nodes as the parser makes them (parse.go:99-530, C06 and C07), left,
    right, statements and parameters. *)
Definition has_left (o : op) : bool := match o with OpStruct | OpEnum | OpElse | OpTypeList | OpCase | OpLit | OpError => false | _ => true end.
Definition has_right (o : op) : bool :=
  match o with
  | OpStruct | OpEnum | OpElse | OpTypeList | OpFuncCall | OpWhile | OpMatch | OpTernary | OpArrayLit | OpCase | OpLit | OpError
  | OpIdentifier | OpReturn | OpNamedType | OpNot | OpNeg | OpBNot | OpArrayType => false
  | _ => true
  end.
Definition has_stmts (o : op) : bool :=
  match o with
  | OpBlockFn | OpExprFn | OpExternFn | OpConsFn | OpFuncType | OpStruct | OpEnum | OpElse | OpFuncCall | OpWhile | OpMatch | OpTernary | OpArrayLit
  | OpCase | OpIf | OpElseIf | OpFor => true
  | _ => false
  end.
Definition parts (t : tree) : list tree :=
  match t with
  | Tree o _ l r ss ps _ =>
    match o with
    | OpBlockFn | OpExprFn | OpExternFn | OpConsFn | OpFuncType => o2l r ++ ps ++ ss ++ o2l l
    | OpStruct | OpEnum | OpElse => ss
    | OpTypeList => ps
    | OpFuncCall => o2l l ++ ps ++ ss
    | OpWhile | OpMatch | OpTernary | OpArrayLit => o2l l ++ ss
    | OpCase => ps ++ ss
    | OpIf | OpElseIf => o2l l ++ ss ++ o2l r
    | OpFor => o2l r ++ o2l l ++ ss
    | OpLit | OpError => []
    | OpIdentifier | OpReturn | OpNamedType | OpNot | OpNeg | OpBNot | OpArrayType => o2l l
    | _ => o2l l ++ o2l r
    end
  end.

(* ------------------------------------------------------------------------------- uses *)

(** [m] is in [t], below the scopes [cs] (innermost last). *)
Definition own_scope (t : tree) : list (list sym) := if declares (t_op t) then [t_scope t] else [].
Inductive below : tree -> list (list sym) -> tree -> Prop :=
| below_here t : below t (own_scope t) t
| below_kid m cs k t : In k (parts t) -> below m cs k -> below m (own_scope t ++ cs) t.
Definition is_ident (m : tree) (x : sym) : Prop := exists l r ss ps sc, m = Tree OpIdentifier (Some x) l r ss ps sc.
(** A use of [x] anywhere in [t]. *)
Definition uses (t : tree) (x : sym) : Prop := exists m cs, below m cs t /\ is_ident m x.
(** Declared by [fn] or in it. *)
Definition own (fn : tree) (x : sym) : Prop := In x (t_scope fn) \/ exists m cs, below m cs fn /\ declares (t_op m) = true /\ In x (t_scope m).
(** Names resolve by scope (C10): what is declared in a scope is used only in that scope. *)
Definition scoped (fn : tree) : Prop := forall m cs x, below m cs fn -> is_ident m x -> own fn x -> In x (t_scope fn) \/ exists c, In c cs /\ In x c.
(** A variable of an enclosing function. *)
Definition outer (fn : tree) (x : sym) : Prop := s_stack x = true /\ s_global x = false /\ s_lit x = false /\ ~ own fn x.

(** Uses that are not in the index of an array variable. *)
Definition skips (t : tree) : bool :=
  match t with Tree (OpDot | OpArray) _ (Some (Tree OpIdentifier _ _ _ _ _ _)) _ _ _ _ => true | _ => false end.
Inductive plain_below : tree -> list (list sym) -> tree -> Prop :=
| plain_here t : plain_below t (own_scope t) t
| plain_kid m cs k t : skips t = false -> In k (parts t) -> plain_below m cs k -> plain_below m (own_scope t ++ cs) t.
Definition mentions (m : tree) (x : sym) : Prop := is_ident m x \/ skips m = true /\ exists l, t_left m = Some l /\ is_ident l x.
Definition plainly_uses (t : tree) (x : sym) : Prop := exists m cs, plain_below m cs t /\ mentions m x.

(** No function literals, they are moved out first. *)
Definition no_fns (fn : tree) : Prop := forall k m cs, In k (parts fn) -> below m cs k -> is_fn (t_op m) = false.

(* ------------------------------------------------------------------------------- runs *)

(** Runs of a body in a frame with variables, an environment record and the rest of the
    world, for any values and any meaning of the operations. *)
Record prims (V W : Type) := Prims {
  of_addr : nat -> V;                                            (* the offset of a field *)
  glob : sym -> V;                                               (* a function's address *)
  prim : op -> option sym -> list V -> W -> option (V * W);      (* literals, operators, calls, loads *)
  truth : V -> bool;
  store : op -> list V -> V -> W -> option W;                    (* to a field or an element *)
  pick_case : V -> list (option sym) -> W -> option (nat * list V); (* which case, and the fields *)
  elem : V -> nat -> W -> option (option V)                      (* the next element or the end *)
}.
Arguments of_addr {V W}. Arguments glob {V W}. Arguments prim {V W}. Arguments truth {V W}. Arguments store {V W}. Arguments pick_case {V W}. Arguments elem {V W}.
Section Runs.
Context {V W : Type} (P : prims V W) (env : sym).
Record state := State { vars : sym -> V; env_of : list V; world : W }.
Definition set_var (x : sym) (v : V) (s : state) : state := State (fun y => if sym_eqb y x then v else vars s y) (env_of s) (world s).
Fixpoint set_nth (i : nat) (v : V) (l : list V) : list V := match l, i with [], _ => [] | _ :: l, O => v :: l | x :: l, S i => x :: set_nth i v l end.
Definition set_env (i : nat) (v : V) (s : state) : state := State (vars s) (set_nth i v (env_of s)) (world s).
Definition set_world (w : W) (s : state) : state := State (vars s) (env_of s) w.
(** The value of a name, codegen.go:758-780. *)
Definition value (x : sym) (s : state) : V := if s_stack x then vars s x else if s_global x then glob P x else of_addr P (s_addr x).
(** A field of the environment: [env.f]. *)
Definition env_field (t : tree) : option nat :=
  match t with
  | Tree OpDot _ (Some (Tree OpIdentifier (Some e) _ _ _ _ _)) (Some (Tree OpIdentifier (Some f) _ _ _ _ _)) _ _ _ => if sym_eqb e env then Some (s_addr f / 8) else None
  | _ => None
  end.
Inductive outcome := Next | Ret (v : option V).
Definition bind {A B} (o : option (A * state)) (f : A -> state -> option B) : option B := match o with Some (a, s) => f a s | None => None end.
Notation "'do' ( x , s ) <- p ; q" := (bind p (fun x s => q)) (at level 60, x name, s name, right associativity).
Fixpoint evals (ev : tree -> state -> option (V * state)) (ts : list tree) (s : state) : option (list V * state) :=
  match ts with [] => Some ([], s) | t :: ts => do (v, s1) <- ev t s; do (vs, s2) <- evals ev ts s1; Some (v :: vs, s2) end.
Fixpoint eval (fuel : nat) (t : tree) (s : state) : option (V * state) :=
  match fuel with
  | O => None
  | S n =>
    match t with
    | Tree o y l r ss ps sc =>
      let apply := do (vs, s1) <- evals (eval n) (o2l l ++ o2l r ++ ss) s;
                   match prim P o y vs (world s1) with Some (v, w) => Some (v, set_world w s1) | None => None end in
      match o with
      | OpIdentifier => match y with Some x => Some (value x s, s) | None => None end
      | OpDot => match env_field t with Some i => match nth_error (env_of s) i with Some v => Some (v, s) | None => None end | None => apply end
      | OpTernary =>
          match l, ss with
          | Some c, [a; b] => do (v, s1) <- eval n c s; if truth P v then eval n a s1 else eval n b s1
          | _, _ => None
          end
      | OpBlockFn | OpExprFn => None
      | _ => apply
      end
    end
  end.
Fixpoint set_vars (xs : list tree) (vs : list V) (s : state) : option state :=
  match xs, vs with
  | [], [] => Some s
  | x :: xs, v :: vs => match t_sym x with Some y => set_vars xs vs (set_var y v s) | None => None end
  | _, _ => None
  end.
(** A write to what a tree denotes; the operands are run in order. *)
Definition assign (n : nat) (t : tree) (v : V) (s : state) : option state :=
  match t with
  | Tree OpIdentifier (Some x) _ _ _ _ _ => if s_stack x then Some (set_var x v s) else None
  | Tree ((OpDot | OpArray) as o) _ l r _ _ _ =>
    match env_field t with
    | Some i => if i <? List.length (env_of s) then Some (set_env i v s) else None
    | None => do (vs, s1) <- evals (eval n) (o2l l ++ o2l r) s; match store P o vs v (world s1) with Some w => Some (set_world w s1) | None => None end
    end
  | _ => None
  end.
Fixpoint block (ex : tree -> state -> option (outcome * state)) (ts : list tree) (s : state) : option (outcome * state) :=
  match ts with [] => Some (Next, s) | t :: ts => do (o, s1) <- ex t s; match o with Next => block ex ts s1 | _ => Some (o, s1) end end.
(** [k] rounds at most. *)
Fixpoint rounds (ex : tree -> state -> option (outcome * state)) (x : sym) (v : V) (ss : list tree) (k i : nat) (s : state) : option (outcome * state) :=
  match k with
  | O => None
  | S k =>
    match elem P v i (world s) with
    | None => None
    | Some None => Some (Next, s)
    | Some (Some e) => do (o, s1) <- block ex ss (set_var x e s); match o with Next => rounds ex x v ss k (S i) s1 | _ => Some (o, s1) end
    end
  end.
Fixpoint exec (fuel : nat) (t : tree) (s : state) : option (outcome * state) :=
  match fuel with
  | O => None
  | S n =>
    match t with
    | Tree o y l r ss ps sc =>
      match o with
      | OpReturn => match l with None => Some (Ret None, s) | Some e => do (v, s1) <- eval n e s; Some (Ret (Some v), s1) end
      | OpIf | OpElseIf =>
          match l with
          | Some c => do (v, s1) <- eval n c s; if truth P v then block (exec n) ss s1 else match r with Some t1 => exec n t1 s1 | None => Some (Next, s1) end
          | None => None
          end
      | OpElse => block (exec n) ss s
      | OpWhile =>
          match l with
          | Some c => do (v, s1) <- eval n c s;
              if truth P v then do (o, s2) <- block (exec n) ss s1; match o with Next => exec n t s2 | _ => Some (o, s2) end else Some (Next, s1)
          | None => None
          end
      | OpFor =>
          match l, r with
          | Some (Tree OpIdentifier (Some x) _ _ _ _ _), Some e => do (v, s1) <- eval n e s; rounds (exec n) x v ss n 0 s1
          | _, _ => None
          end
      | OpMatch =>
          match l with
          | Some e => do (v, s1) <- eval n e s;
              match pick_case P v (map t_sym ss) (world s1) with
              | Some (i, vs) => match nth_error ss i with
                                | Some c => match set_vars (t_params c) vs s1 with Some s2 => block (exec n) (t_stmts c) s2 | None => None end
                                | None => None
                                end
              | None => None
              end
          | None => None
          end
      | OpAs => match l, r with Some a, Some e => do (v, s1) <- eval n e s; match assign n a v s1 with Some s2 => Some (Next, s2) | None => None end | _, _ => None end
      | OpDas =>
          match l, r with
          | Some (Tree OpIdentifier (Some x) _ _ _ _ _), Some e => do (v, s1) <- eval n e s; Some (Next, set_var x v s1)
          | _, _ => None
          end
      | _ => do (v, s1) <- eval n t s; Some (Next, s1)
      end
    end
  end.
(** The body of a function: statements, or an expression. *)
Definition run (n : nat) (fn : tree) (s : state) : option (outcome * state) :=
  match fn with
  | Tree OpExprFn _ _ _ [e] _ _ => do (v, s1) <- eval n e s; Some (Ret (Some v), s1)
  | Tree OpBlockFn _ _ _ ss _ _ => block (exec n) ss s
  | _ => None
  end.
End Runs.

(* ------------------------------------------------------------------------ well formed *)

(** A name that is declared in [fn], a variable of its frame. *)
Definition local (fn t : tree) : Prop := exists x, is_ident t x /\ own fn x /\ s_stack x = true.
(** What the parser and the type checker make: nodes have no children that Walk does not
    know of; what is bound is declared in the function; only variables are assigned. *)
Definition node_ok (fn m : tree) : Prop :=
  (has_left (t_op m) = false -> t_left m = None) /\ (has_right (t_op m) = false -> t_right m = None) /\ (has_stmts (t_op m) = false -> t_stmts m = []) /\
  match t_op m with
  | OpDas | OpFor => exists b, t_left m = Some b /\ local fn b
  | OpMatch => forall c, In c (t_stmts m) -> t_op c = OpCase
  | OpCase => forall b, In b (t_params m) -> local fn b
  | OpAs => forall a x, t_left m = Some a -> is_ident a x -> s_stack x = true
  | _ => True
  end.
Definition well_formed (fn : tree) : Prop := is_fn (t_op fn) = true /\ forall k m cs, In k (parts fn) -> below m cs k -> node_ok fn m.

(** The variables of enclosing functions that are used are used outside of indexes of array
    variables at least once. *)
Definition captures_plainly (fn : tree) : Prop := forall x, uses fn x -> s_stack x = true -> ~ own fn x -> s_global x = false /\ s_lit x = false /\ plainly_uses fn x.

(** Two runs, of a function where it was written and of what was made of it, end alike: the
    same result, the same world, the same local variables, and the environment holds what
    the variables [vs] hold. *)
Definition ends_alike {V W} (P : prims V W) (fn : tree) (vs : list sym) (a b : option (@outcome V * @state V W)) : Prop :=
  match a, b with
  | None, None => True
  | Some (o, s), Some (o1, s1) => o = o1 /\ world s = world s1 /\ (forall x, own fn x -> s_stack x = true -> vars s x = vars s1 x) /\ env_of s1 = map (fun x => value P x s) vs
  | _, _ => False
  end.
