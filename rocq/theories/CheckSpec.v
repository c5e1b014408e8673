(** What it means that types are right, for C51: rules for trees with resolved names, and how
    such trees run. *)
From Coq Require Import String List Bool PeanoNat ZArith.
From Verif Require Import TypeModel TypeSpec CheckModel.
Import ListNotations.
Local Open Scope nat_scope.
Local Open Scope list_scope.

(* -------------------------------------------------------------------------------- rules *)

Definition ctx := list (string * ty).

(** The types [ts] for the type parameters [ps]. *)
Fixpoint with_types (ps : list nat) (ts : list ty) (p : nat) : ty :=
  match ps, ts with
  | q :: ps', t :: ts' => if q =? p then t else with_types ps' ts' p
  | _, _ => TParam p
  end.

(** A statement after which no other is run. *)
Inductive returns : cstmt -> Prop :=
| returns_return e : returns (KReturn e)
| returns_if c b r : Exists returns b -> returns r -> returns (KIf c b (Some r))
| returns_else b : Exists returns b -> returns (KElse b)
| returns_match e n cases : Forall (fun c => Exists returns (snd c)) cases -> returns (KMatch e n cases).

Definition place (l : cexpr) : Prop :=
  match l with CVar _ | CField _ _ _ | CIndex _ _ => True | _ => False end.

Section Rules.
Variable P : program.

(** [typed C e t]: with variables [C], [e] has type [t].  A function of the root scope may be
    called at any types for its type parameters; values of function type are called at the
    types they have. *)
Inductive typed : ctx -> cexpr -> ty -> Prop :=
| typed_int C z : typed C (CLit (LInt z)) TInt
| typed_bool C b : typed C (CLit (LBool b)) TBool
| typed_str C s : typed C (CLit (LStr s)) TString
| typed_var C x t : assoc x C = Some t -> typed C (CVar x) t
| typed_fun C f d i g : nth_error (p_funs P) f = Some d -> typed C (CFun f) (TFun i g (map snd (f_params d)) (f_ret d))
| typed_arith C o l r : typed C l TInt -> typed C r TInt -> typed C (CArith o l r) TInt
| typed_logic C o l r : typed C l TBool -> typed C r TBool -> typed C (CLogic o l r) TBool
| typed_cmp C o l r : typed C l TInt -> typed C r TInt -> typed C (CCmp o l r) TBool
| typed_not C e : typed C e TBool -> typed C (CNot e) TBool
| typed_bnot C e : typed C e TInt -> typed C (CBNot e) TInt
| typed_neg C e : typed C e TInt -> typed C (CNeg e) TInt
| typed_call_fun C f d args ts s t : nth_error (p_funs P) f = Some d -> Forall2 (typed C) args ts ->
    Forall2 (fun u p => same u (apply s (snd p))) ts (f_params d) -> same t (apply s (f_ret d)) ->
    typed C (CCall (CFun f) args) t
| typed_call C f args ts i g ps t : typed C f (TFun i g ps t) -> Forall2 (typed C) args ts -> Forall2 same ts ps ->
    typed C (CCall f args) t
| typed_print C args ts : Forall2 (typed C) args ts -> typed C (CPrint args) TNothing
| typed_field C e d n ts ps fs x t u : typed C e (TStruct d n ts) -> assoc n (g_structs (p_env P)) = Some (ps, fs) ->
    assoc x fs = Some t -> same u (apply (with_types ps ts) t) -> typed C (CField e n x) u
| typed_length_arr C e t : typed C e (TArr t) -> typed C (CLength e) TInt
| typed_length_str C e : typed C e TString -> typed C (CLength e) TInt
| typed_index C l r t : typed C l (TArr t) -> typed C r TInt -> typed C (CIndex l r) t
| typed_arr C es ts t : Forall2 (typed C) es ts -> Forall (fun u => same u t) ts -> typed C (CArrLit es) (TArr t)
| typed_tern C c a b t u : typed C c TBool -> typed C a t -> typed C b u -> same t u -> typed C (CTern c a b) t
| typed_clos C ps ret body i g : NoDup (map fst ps) -> oks (ps ++ C) ret body -> ret = TNothing \/ Exists returns body ->
    typed C (CClos ps ret body) (TFun i g (map snd ps) ret)
| typed_clos_expr C ps ret e t i g : NoDup (map fst ps) -> typed (ps ++ C) e t -> same ret t ->
    typed C (CClosExpr ps ret e) (TFun i g (map snd ps) ret)
(** [ok C ret k C1]: the statement is right in a function with result [ret]; after it the
    variables are [C1]. *)
with ok : ctx -> ty -> cstmt -> ctx -> Prop :=
| ok_expr C ret e t : typed C e t -> ok C ret (KExpr e) C
| ok_das C ret x e t : typed C e t -> ok C ret (KDas x e) ((x, t) :: C)
| ok_as C ret l r t u : place l -> typed C l t -> typed C r u -> same t u -> ok C ret (KAs l r) C
| ok_while C ret c body : typed C c TBool -> oks C ret body -> ok C ret (KWhile c body) C
| ok_for_in C ret x e t body : typed C e (TArr t) -> oks ((x, t) :: C) ret body -> ok C ret (KForIn x e body) C
| ok_for_range C ret x a b body : typed C a TInt -> typed C b TInt -> oks ((x, TInt) :: C) ret body ->
    ok C ret (KForRange x a b body) C
| ok_if C ret c body : typed C c TBool -> oks C ret body -> ok C ret (KIf c body None) C
| ok_if_else C ret c body r C1 : typed C c TBool -> oks C ret body -> ok C ret r C1 -> ok C ret (KIf c body (Some r)) C
| ok_else C ret body : oks C ret body -> ok C ret (KElse body) C
| ok_return C ret : same ret TNothing -> ok C ret (KReturn None) C
| ok_return_value C ret e t : typed C e t -> same ret t -> ok C ret (KReturn (Some e)) C
| ok_match C ret e d n ts ps ms cases : typed C e (TEnum d n ts) -> assoc n (g_enums (p_env P)) = Some (ps, ms) ->
    (forall tag, tag < length ms -> In tag (map (fun c => fst (fst c)) cases)) ->
    Forall (ok_case C ret ps ts ms) cases -> ok C ret (KMatch e n cases) C
with ok_case : ctx -> ty -> list nat -> list ty -> list nat -> nat * list string * list cstmt -> Prop :=
| ok_case_of C ret ps ts ms tag xs body f d us : nth_error ms tag = Some f -> nth_error (p_funs P) f = Some d ->
    NoDup xs -> length xs = length us -> Forall2 (fun u p => same u (apply (with_types ps ts) (snd p))) us (f_params d) ->
    oks (combine xs us ++ C) ret body -> ok_case C ret ps ts ms (tag, xs, body)
with oks : ctx -> ty -> list cstmt -> Prop :=
| oks_nil C ret : oks C ret []
| oks_cons C ret k C1 ks : ok C ret k C1 -> oks C1 ret ks -> oks C ret (k :: ks).

(** The body of a function with the variables [C]. *)
Definition body_ok (C : ctx) (ret : ty) (b : cbody) : Prop :=
  match b with
  | CBlock ks => oks C ret ks /\ (ret = TNothing \/ Exists returns ks)
  | CBody e => exists t, typed C e t /\ same ret t
  | _ => False
  end.

(** Functions of the root scope: bodies are right; constructors belong to structs and enums
    that are declared, and mention no type parameters but theirs. *)
Definition fun_ok (f : nat) (d : fdef) (b : cbody) : Prop :=
  match b with
  | CBlock _ | CBody _ => NoDup (map fst (f_params d)) /\ body_ok (f_params d) (f_ret d) b
  | CStruct n => exists i fs, assoc n (g_structs (p_env P)) = Some (map snd (f_types d), fs) /\
      map snd fs = map snd (f_params d) /\ f_ret d = TStruct i n (map TParam (map snd (f_types d)))
  | CCons n tag => exists i ms, assoc n (g_enums (p_env P)) = Some (map snd (f_types d), ms) /\
      nth_error ms tag = Some f /\ f_ret d = TEnum i n (map TParam (map snd (f_types d)))
  | CExtern => True
  end.
Definition own_types_only (d : fdef) (b : cbody) : Prop :=
  match b with
  | CStruct _ | CCons _ _ => NoDup (map snd (f_types d)) /\
      forall p q, In p (f_params d) -> mentions q (snd p) -> In q (map snd (f_types d))
  | _ => True
  end.
Definition well_typed (bodies : list cbody) : Prop :=
  length bodies = length (p_funs P) /\
  forall f d b, nth_error (p_funs P) f = Some d -> nth_error bodies f = Some b -> fun_ok f d b /\ own_types_only d b.
End Rules.

(* --------------------------------------------------------------------------------- runs *)

(** Values: numbers, booleans, strings, bytes and pointers (not looked into), nothing, arrays,
    structs and members of enums (in the heap), functions, and closures with their captured
    variables.  A variable is a cell of the heap too. *)
Inductive val :=
| VInt (z : Z) | VBool (b : bool) | VStr (s : string) | VBytes (z : Z) | VPtr (z : Z) | VNothing
| VRef (l : nat)
| VFun (f : nat)
| VClos (ps : list string) (b : cbody) (r : list (string * nat)).
Inductive cell := CellArr (vs : list val) | CellStruct (vs : list val) | CellCons (tag : nat) (vs : list val) | CellVar (v : val).
Definition heap := list cell.
Definition env := list (string * nat).

(** [Wrong] is the use of a value as something that it is not, or of a variable that does not
    exist.  [Halts] is a run that stops on its own: an index out of bounds, a division by
    zero, a program that exits. *)
Inductive run A := Fine (a : A) | Halts | NoFuel | Wrong.
Arguments Fine {A}. Arguments Halts {A}. Arguments NoFuel {A}. Arguments Wrong {A}.
Definition bind {A B} (r : run A) (f : A -> run B) : run B :=
  match r with Fine a => f a | Halts => Halts | NoFuel => NoFuel | Wrong => Wrong end.
Notation "'do' p <- r ; q" := (bind r (fun p => q)) (at level 60, p pattern, right associativity).

(** The meaning of operators, the numbers of a range, and external functions (none if the
    program stops there). *)
Record meaning := Meaning {
  m_arith : aop -> Z -> Z -> option Z;
  m_logic : lop -> bool -> bool -> bool;
  m_cmp : cop -> Z -> Z -> bool;
  m_bnot : Z -> Z;
  m_neg : Z -> Z;
  m_length : string -> Z;
  m_range : Z -> Z -> list Z;
  m_extern : nat -> list val -> option val
}.

Definition alloc (h : heap) (c : cell) : heap * nat := (h ++ [c], length h).
Fixpoint set_cell (h : heap) (l : nat) (c : cell) : heap :=
  match h, l with [], _ => [] | _ :: h', O => c :: h' | c0 :: h', S l' => c0 :: set_cell h' l' c end.
Fixpoint set_val (vs : list val) (i : nat) (v : val) : list val :=
  match vs, i with [], _ => [] | _ :: vs', O => v :: vs' | v0 :: vs', S i' => v0 :: set_val vs' i' v end.
(** New variables with the given values. *)
Fixpoint new_vars (h : heap) (xs : list string) (vs : list val) : option (heap * env) :=
  match xs, vs with
  | [], [] => Some (h, [])
  | x :: xs', v :: vs' =>
    match new_vars (h ++ [CellVar v]) xs' vs' with Some (h', r) => Some (h', (x, length h) :: r) | None => None end
  | _, _ => None
  end.
(** Captured variables are copies. *)
Fixpoint capture (h : heap) (r : env) : option (heap * env) :=
  match r with
  | [] => Some (h, [])
  | (x, l) :: r' =>
    match nth_error h l with
    | Some (CellVar v) => match capture (h ++ [CellVar v]) r' with Some (h', r1) => Some (h', (x, length h) :: r1) | None => None end
    | _ => None
    end
  end.
Fixpoint place_of {A} (x : string) (fs : list (string * A)) : option nat :=
  match fs with [] => None | (y, _) :: r => if String.eqb x y then Some O else match place_of x r with Some i => Some (S i) | None => None end end.
(** An index into something of length [n]. *)
Definition in_bounds (i : Z) (n : nat) : option nat := if ((0 <=? i) && (i <? Z.of_nat n))%Z then Some (Z.to_nat i) else None.

Section Runs.
Variables (M : meaning) (P : program) (bodies : list cbody).

Definition field_place (n x : string) : option nat :=
  match assoc n (g_structs (p_env P)) with Some (_, fs) => place_of x fs | None => None end.
Definition or_wrong {A B} (o : option A) (f : A -> run B) : run B := match o with Some a => f a | None => Wrong end.
Definition or_halt {A B} (o : option A) (f : A -> run B) : run B := match o with Some a => f a | None => Halts end.

Fixpoint evals (ev : heap -> cexpr -> run (val * heap)) (h : heap) (es : list cexpr) : run (list val * heap) :=
  match es with
  | [] => Fine ([], h)
  | e :: es' => do (v, h1) <- ev h e; do (vs, h2) <- evals ev h1 es'; Fine (v :: vs, h2)
  end.
Inductive flow := Next (r : env) | Ret (v : val).
Fixpoint block (ex : env -> heap -> cstmt -> run (flow * heap)) (r : env) (h : heap) (ks : list cstmt) : run (flow * heap) :=
  match ks with
  | [] => Fine (Next r, h)
  | k :: ks' => do (f, h1) <- ex r h k; match f with Next r1 => block ex r1 h1 ks' | Ret v => Fine (Ret v, h1) end
  end.
(** A loop over given values. *)
Fixpoint each (body : heap -> val -> run (flow * heap)) (r : env) (h : heap) (vs : list val) : run (flow * heap) :=
  match vs with
  | [] => Fine (Next r, h)
  | v :: vs' => do (f, h1) <- body h v; match f with Next _ => each body r h1 vs' | Ret w => Fine (Ret w, h1) end
  end.
(** A loop over an array, from the i-th element on, [k] rounds at most. *)
Fixpoint rounds (body : heap -> val -> run (flow * heap)) (r : env) (l : nat) (k i : nat) (h : heap) : run (flow * heap) :=
  match k with
  | O => NoFuel
  | S k' =>
    match nth_error h l with
    | Some (CellArr vs) =>
      match nth_error vs i with
      | None => Fine (Next r, h)
      | Some v => do (f, h1) <- body h v; match f with Next _ => rounds body r l k' (S i) h1 | Ret w => Fine (Ret w, h1) end
      end
    | _ => Wrong
    end
  end.

(** Expressions, statements and calls.  A block that ends without return gives nothing. *)
Fixpoint eval (n : nat) (r : env) (h : heap) (e : cexpr) {struct n} : run (val * heap) :=
  match n with
  | O => NoFuel
  | S n =>
    match e with
    | CLit (LInt z) => Fine (VInt z, h)
    | CLit (LBool b) => Fine (VBool b, h)
    | CLit (LStr s) => Fine (VStr s, h)
    | CVar x => or_wrong (assoc x r) (fun l => match nth_error h l with Some (CellVar v) => Fine (v, h) | _ => Wrong end)
    | CFun f => Fine (VFun f, h)
    | CArith o a b =>
      do (u, h1) <- eval n r h a; do (v, h2) <- eval n r h1 b;
      match u, v with VInt x, VInt y => or_halt (m_arith M o x y) (fun z => Fine (VInt z, h2)) | _, _ => Wrong end
    | CLogic o a b =>
      do (u, h1) <- eval n r h a; do (v, h2) <- eval n r h1 b;
      match u, v with VBool x, VBool y => Fine (VBool (m_logic M o x y), h2) | _, _ => Wrong end
    | CCmp o a b =>
      do (u, h1) <- eval n r h a; do (v, h2) <- eval n r h1 b;
      match u, v with VInt x, VInt y => Fine (VBool (m_cmp M o x y), h2) | _, _ => Wrong end
    | CNot a => do (u, h1) <- eval n r h a; match u with VBool x => Fine (VBool (negb x), h1) | _ => Wrong end
    | CBNot a => do (u, h1) <- eval n r h a; match u with VInt x => Fine (VInt (m_bnot M x), h1) | _ => Wrong end
    | CNeg a => do (u, h1) <- eval n r h a; match u with VInt x => Fine (VInt (m_neg M x), h1) | _ => Wrong end
    | CCall f args => do (u, h1) <- eval n r h f; do (vs, h2) <- evals (eval n r) h1 args; call n h2 u vs
    | CPrint args => do (vs, h1) <- evals (eval n r) h args; Fine (VNothing, h1)
    | CField a s x =>
      do (u, h1) <- eval n r h a;
      match u with
      | VRef l => match nth_error h1 l with
                  | Some (CellStruct vs) => or_wrong (field_place s x) (fun i => or_wrong (nth_error vs i) (fun v => Fine (v, h1)))
                  | _ => Wrong
                  end
      | _ => Wrong
      end
    | CLength a =>
      do (u, h1) <- eval n r h a;
      match u with
      | VStr s => Fine (VInt (m_length M s), h1)
      | VRef l => match nth_error h1 l with Some (CellArr vs) => Fine (VInt (Z.of_nat (length vs)), h1) | _ => Wrong end
      | _ => Wrong
      end
    | CIndex a b =>
      do (u, h1) <- eval n r h a; do (v, h2) <- eval n r h1 b;
      match u, v with
      | VRef l, VInt i => match nth_error h2 l with
                          | Some (CellArr vs) => or_halt (in_bounds i (length vs)) (fun j => or_wrong (nth_error vs j) (fun w => Fine (w, h2)))
                          | _ => Wrong
                          end
      | _, _ => Wrong
      end
    | CArrLit es => do (vs, h1) <- evals (eval n r) h es; Fine (VRef (length h1), h1 ++ [CellArr vs])
    | CTern c a b => do (u, h1) <- eval n r h c; match u with VBool true => eval n r h1 a | VBool false => eval n r h1 b | _ => Wrong end
    | CClos ps _ body => or_wrong (capture h r) (fun '(h1, r1) => Fine (VClos (map fst ps) (CBlock body) r1, h1))
    | CClosExpr ps _ a => or_wrong (capture h r) (fun '(h1, r1) => Fine (VClos (map fst ps) (CBody a) r1, h1))
    | CUnsafe _ | CDeref _ | CType _ => Wrong
    end
  end
with exec (n : nat) (r : env) (h : heap) (k : cstmt) {struct n} : run (flow * heap) :=
  match n with
  | O => NoFuel
  | S n =>
    let inner r h ks := do (f, h1) <- block (exec n) r h ks; Fine (match f with Next _ => Next r | Ret v => Ret v end, h1) in
    let with_var x ks h v := inner ((x, length h) :: r) (h ++ [CellVar v]) ks in
    match k with
    | KExpr e => do (_, h1) <- eval n r h e; Fine (Next r, h1)
    | KDas x e => do (v, h1) <- eval n r h e; Fine (Next ((x, length h1) :: r), h1 ++ [CellVar v])
    | KAs l e =>
      do (v, h1) <- eval n r h e;
      match l with
      | CVar x => or_wrong (assoc x r) (fun l => match nth_error h1 l with Some (CellVar _) => Fine (Next r, set_cell h1 l (CellVar v)) | _ => Wrong end)
      | CField a s x =>
        do (u, h2) <- eval n r h1 a;
        match u with
        | VRef l => match nth_error h2 l with
                    | Some (CellStruct vs) => or_wrong (field_place s x) (fun i =>
                        if i <? length vs then Fine (Next r, set_cell h2 l (CellStruct (set_val vs i v))) else Wrong)
                    | _ => Wrong
                    end
        | _ => Wrong
        end
      | CIndex a b =>
        do (u, h2) <- eval n r h1 a; do (w, h3) <- eval n r h2 b;
        match u, w with
        | VRef l, VInt i => match nth_error h3 l with
                            | Some (CellArr vs) => or_halt (in_bounds i (length vs)) (fun j => Fine (Next r, set_cell h3 l (CellArr (set_val vs j v))))
                            | _ => Wrong
                            end
        | _, _ => Wrong
        end
      | _ => Wrong
      end
    | KWhile c body =>
      do (u, h1) <- eval n r h c;
      match u with
      | VBool true => do (f, h2) <- inner r h1 body; match f with Next _ => exec n r h2 k | Ret v => Fine (Ret v, h2) end
      | VBool false => Fine (Next r, h1)
      | _ => Wrong
      end
    | KForIn x e body =>
      do (u, h1) <- eval n r h e;
      match u with VRef l => rounds (with_var x body) r l n 0 h1 | _ => Wrong end
    | KForRange x a b body =>
      do (u, h1) <- eval n r h a; do (w, h2) <- eval n r h1 b;
      match u, w with VInt i, VInt j => each (with_var x body) r h2 (map VInt (m_range M i j)) | _, _ => Wrong end
    | KIf c body rest =>
      do (u, h1) <- eval n r h c;
      match u with
      | VBool true => inner r h1 body
      | VBool false => match rest with Some k' => do (f, h2) <- exec n r h1 k'; Fine (match f with Next _ => Next r | Ret v => Ret v end, h2) | None => Fine (Next r, h1) end
      | _ => Wrong
      end
    | KElse body => inner r h body
    | KReturn None => Fine (Ret VNothing, h)
    | KReturn (Some e) => do (v, h1) <- eval n r h e; Fine (Ret v, h1)
    | KMatch e _ cases =>
      do (u, h1) <- eval n r h e;
      match u with
      | VRef l =>
        match nth_error h1 l with
        | Some (CellCons tag vs) =>
          match find (fun c => fst (fst c) =? tag) cases with
          | Some (_, xs, body) =>
            or_wrong (new_vars h1 xs vs) (fun '(h2, r1) =>
              do (f, h3) <- block (exec n) (r1 ++ r) h2 body; Fine (match f with Next _ => Next r | Ret v => Ret v end, h3))
          | None => Wrong
          end
        | _ => Wrong
        end
      | _ => Wrong
      end
    | KNone => Wrong
    end
  end
with call (n : nat) (h : heap) (f : val) (vs : list val) {struct n} : run (val * heap) :=
  match n with
  | O => NoFuel
  | S n =>
    let body b h r :=
      match b with
      | CBlock ks => do (f, h1) <- block (exec n) r h ks; Fine (match f with Next _ => VNothing | Ret v => v end, h1)
      | CBody e => eval n r h e
      | _ => Wrong
      end in
    match f with
    | VFun i =>
      match nth_error (p_funs P) i, nth_error bodies i with
      | Some d, Some b =>
        if negb (length vs =? length (f_params d)) then Wrong
        else match b with
             | CStruct _ => Fine (VRef (length h), h ++ [CellStruct vs])
             | CCons _ tag => Fine (VRef (length h), h ++ [CellCons tag vs])
             | CExtern => or_halt (m_extern M i vs) (fun v => Fine (v, h))
             | _ => or_wrong (new_vars h (map fst (f_params d)) vs) (fun '(h1, r) => body b h1 r)
             end
      | _, _ => Wrong
      end
    | VClos xs b r0 => or_wrong (new_vars h xs vs) (fun '(h1, r) => body b h1 (r ++ r0))
    | _ => Wrong
    end
  end.
End Runs.

(* ------------------------------------------------------------------------------- values *)

(** Types of values: no type parameters, no declarations. *)
Inductive sty :=
| SStruct (n : string) (ts : list sty) | SEnum (n : string) (ts : list sty) | SFun (ps : list sty) (r : sty)
| SInt | SBytes | SBool | SString | SNothing | SPointer | SArr (t : sty).
(** A type with types of values for its parameters. *)
Fixpoint at_types (s : nat -> sty) (t : ty) : sty :=
  match t with
  | TStruct _ n ts => SStruct n (map (at_types s) ts)
  | TEnum _ n ts => SEnum n (map (at_types s) ts)
  | TFun _ _ ps r => SFun (map (at_types s) ps) (at_types s r)
  | TInt => SInt | TBytes => SBytes | TBool => SBool | TString => SString | TNothing => SNothing | TPointer => SPointer
  | TArr e => SArr (at_types s e)
  | TParam p => s p
  end.
(** What is known of a cell of the heap. *)
Inductive hty := HArr (t : sty) | HStruct (n : string) (ts : list sty) | HEnum (n : string) (ts : list sty) | HVar (t : sty).

(** Values that come from outside hold no references: an external function gives a number, a
    boolean, a string, bytes or a pointer, whichever its declaration says. *)
Definition plain_val (v : val) (t : ty) : Prop :=
  match t, v with
  | TInt, VInt _ | TBool, VBool _ | TString, VStr _ | TBytes, VBytes _ | TPointer, VPtr _ | TNothing, VNothing => True
  | _, _ => False
  end.
Definition plain_type (t : ty) : Prop :=
  match t with TInt | TBool | TString | TBytes | TPointer | TNothing => True | _ => False end.
Definition externs_ok (M : meaning) (P : program) (bodies : list cbody) : Prop :=
  forall f d vs v, nth_error (p_funs P) f = Some d -> nth_error bodies f = Some CExtern -> m_extern M f vs = Some v -> plain_val v (f_ret d).

(** Declarations are as semantic.go:84-222 leaves them: what a name stands for are functions
    that exist, with their types (the first may be a type instead); structs and enums have
    their constructors. *)
Definition known (P : program) (e : nat * ty) : Prop :=
  exists d i, nth_error (p_funs P) (fst e) = Some d /\ snd e = TFun i (map snd (f_types d)) (map snd (f_params d)) (f_ret d).
Definition declared_ok (P : program) : Prop :=
  (forall x first more, assoc x (g_names (p_env P)) = Some (GFuns (first :: more)) ->
     (is_fun (snd first) = true -> known P first) /\ Forall (known P) more) /\
  (forall f d, nth_error (p_funs P) f = Some d -> NoDup (map snd (f_types d))) /\
  (forall n ps fs, assoc n (g_structs (p_env P)) = Some (ps, fs) -> NoDup ps) /\
  (forall n ps ms, assoc n (g_enums (p_env P)) = Some (ps, ms) -> NoDup ps /\ NoDup ms /\ forall tag f, nth_error ms tag = Some f ->
     exists d, nth_error (p_funs P) f = Some d /\ map snd (f_types d) = ps) /\
  (forall f d, nth_error (p_funs P) f = Some d ->
     match f_body d with
     | BStruct n => exists i fs, assoc n (g_structs (p_env P)) = Some (map snd (f_types d), fs) /\
         map snd fs = map snd (f_params d) /\ f_ret d = TStruct i n (map TParam (map snd (f_types d))) /\
         forall p q, In p (f_params d) -> mentions q (snd p) -> In q (map snd (f_types d))
     | BCons n tag => exists i ms, assoc n (g_enums (p_env P)) = Some (map snd (f_types d), ms) /\
         nth_error ms tag = Some f /\ f_ret d = TEnum i n (map TParam (map snd (f_types d))) /\
         forall p q, In p (f_params d) -> mentions q (snd p) -> In q (map snd (f_types d))
     | _ => True
     end).
