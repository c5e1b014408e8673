(** What the trees given to the code generator mean: an interpreter written from the
    language's point of view.  It knows nothing of registers, stack slots, labels or
    instructions; values are 64-bit words as they are kept in memory.

    An int n is kept as the word 2n+1 (modulo 2^64), true and false as 1 and 0, all
    other values as addresses.  Memory other than variables is a function from
    addresses to bytes. *)
From Coq Require Import ZArith List Bool String.
From Verif Require Import Ints X86 GenModel.
Import ListNotations.
Open Scope Z_scope.

(** The number a word stands for and the word of a number. *)
Definition ival (w : Z) : Z := signed w / 2.
Definition wint (n : Z) : Z := word (2 * n + 1).
Definition wbool (b : bool) : Z := if b then 1 else 0.
Definition as_bool (w : Z) : option bool :=
  if w =? 0 then Some false else if w =? 1 then Some true else None.

Definition sem_arith (op : arith_op) (a b : Z) : option Z :=
  match op with
  | Add => Some (iadd a b)
  | Sub => Some (isub a b)
  | Mul => Some (imul a b)
  | Div => idiv a b
  | BOr => Some (ior a b)
  | BAnd => Some (iand a b)
  | BXor => Some (ixor a b)
  end.
Definition sem_shift (op : shift_op) (a b : Z) : Z :=
  match op with BLeft => ishl a b | BRight => ishr a b end.
Definition sem_cmp (op : cmp_op) (a b : Z) : bool :=
  match op with
  | Gt => a >? b | Gte => a >=? b | Lt => a <? b | Lte => a <=? b | Eq => a =? b
  end.
Definition sem_logic (op : logic_op) (a b : bool) : bool :=
  match op with Or => a || b | And => a && b end.

(** Outcome of an evaluation.
    - [Ioob i a h]: the program stops because [i] is not an index of the array [a];
    - [DivZero]: the program stops by dividing by zero;
    - [Stuck]: the program does something the language gives no meaning to (reads a
      variable that was not assigned, uses a value that is not there, touches memory
      it has no business with, calls something that is not a function);
    - [NoFuel]: the step budget was used up. *)
Inductive res (A : Type) :=
| Val (a : A) | Ioob (i a : Z) (h : memory) | DivZero | Stuck | NoFuel.
Arguments Val {A} a. Arguments Ioob {A} i a h. Arguments DivZero {A}. Arguments Stuck {A}. Arguments NoFuel {A}.
Definition bind {A B} (r : res A) (f : A -> res B) : res B :=
  match r with
  | Val a => f a | Ioob i a h => Ioob i a h | DivZero => DivZero | Stuck => Stuck | NoFuel => NoFuel
  end.

(** Values: a word, or nothing in particular (the value of a function that returns
    nothing, of a type given as an argument, of an argument not given). *)
Notation value := (option Z) (only parsing).
Notation env := (nat -> option Z) (only parsing).
Definition env_set (r : env) (x : nat) (v : Z) : env := fun y => if Nat.eqb x y then Some v else r y.

Inductive outcome := ONormal | OReturn (v : value).

(** Parameters of a call: in order, those without an argument have no value. *)
Fixpoint bind_params (ps : list (nat * ty)) (vs : list value) : env :=
  match ps with
  | [] => fun _ => None
  | (x, _) :: r => fun y => if Nat.eqb x y then hd None vs else bind_params r (tl vs) y
  end.

(** The first [k] arguments. *)
Fixpoint take_args (k : nat) (vs : list value) : list value :=
  match k with O => [] | S k => hd None vs :: take_args k (tl vs) end.

(** Arguments of functions that want C values: strings, arrays and byte arrays
    without their length, ints untagged. *)
Definition raw_arg (t : ty) (v : value) : value :=
  match v with
  | None => None
  | Some w =>
    match ty_kind t with
    | TString | TArray | TBytes => Some (word (w + 8))
    | TInteger => Some (word (ival w))
    | _ => Some w
    end
  end.
Fixpoint raw_args (args : list expr) (vs : list value) : list value :=
  match args, vs with
  | a :: r, v :: q => raw_arg (typ a) v :: raw_args r q
  | _, _ => []
  end.

Section Source.
(** The memory programs may touch; it excludes the stack. *)
Variable heap : Z -> bool.
(** Addresses of string literals and of functions. *)
Variable lit : list Z -> Z.
Variable fun_addr : string -> Z.
Variable fun_at : Z -> option string.
(** Functions not written in Clara, and functions of the program left abstract. *)
Variable extern : string -> list value -> memory -> option (value * memory).
Variable abstract : string -> list value -> memory -> option (value * memory).
(** The function that allocates memory. *)
Variable alloc : string.
Variable prog : list fundef.

Definition find_fun (f : string) : option fundef := find (fun d => String.eqb (f_name d) f) prog.

Definition ok8 (a : Z) : bool :=
  heap a && heap (a + 1) && heap (a + 2) && heap (a + 3) && heap (a + 4) && heap (a + 5) &&
  heap (a + 6) && heap (a + 7).

(** The fields of a new object, from address [p] on. *)
Fixpoint set_fields (vs : list value) (p : Z) (h : memory) : res memory :=
  match vs with
  | [] => Val h
  | Some v :: r => if ok8 (word p) then set_fields r (p + 8) (store h (word p) v) else Stuck
  | None :: _ => Stuck
  end.

Definition need {A} (r : res (value * memory)) (k : Z -> memory -> res A) : res A :=
  bind r (fun '(v, h) => match v with Some w => k w h | None => Stuck end).

Definition object_size (nparams : nat) (tag : option Z) : Z :=
  8 * Z.of_nat nparams + match tag with Some _ => 8 | None => 0 end.
Definition object_fields (tag : option Z) (vs : list value) : list value :=
  match tag with Some t => Some (wint t) :: vs | None => vs end.

(** [n] bounds the number of steps, [d] the depth of nested calls. *)
Fixpoint eval (n d : nat) (r : env) (h : memory) (e : expr) {struct n} : res (value * memory) :=
  match n with
  | O => NoFuel
  | S n =>
    let int2 l rt k := need (eval n d r h l) (fun a h => need (eval n d r h rt) (fun b h => k (ival a) (ival b) h)) in
    match e with
    | ELitInt _ z => Val (Some (wint z), h)
    | ELitBool _ b => Val (Some (wbool b), h)
    | ELitStr _ s => Val (Some (lit s), h)
    | ELogic _ op l rt =>
        need (eval n d r h l) (fun a h => need (eval n d r h rt) (fun b h =>
          match as_bool a, as_bool b with
          | Some x, Some y => Val (Some (wbool (sem_logic op x y)), h)
          | _, _ => Stuck
          end))
    | EArith _ op l rt =>
        int2 l rt (fun a b h =>
          match sem_arith op a b with Some c => Val (Some (wint c), h) | None => DivZero end)
    | ENot _ e =>
        need (eval n d r h e) (fun a h =>
          match as_bool a with Some x => Val (Some (wbool (negb x)), h) | None => Stuck end)
    | EBNot _ e => need (eval n d r h e) (fun a h => Val (Some (wint (inot (ival a))), h))
    | ENeg _ e => need (eval n d r h e) (fun a h => Val (Some (wint (ineg (ival a))), h))
    | ECmp _ op l rt => int2 l rt (fun a b h => Val (Some (wbool (sem_cmp op a b)), h))
    | EShift _ op l rt => int2 l rt (fun a b h => Val (Some (wint (sem_shift op a b)), h))
    | EVar _ x => match r x with Some v => Val (Some v, h) | None => Stuck end
    | EFun _ f ext => Val (Some (if ext then 0 else fun_addr f), h)
    | EOff _ z => Val (Some (word z), h)
    | ECond _ c a b =>
        need (eval n d r h c) (fun w h =>
          match as_bool w with
          | Some x => eval n d r h (if x then a else b)
          | None => Stuck
          end)
    | EArrayLit _ e => eval n d r h e
    | ECall _ fi f args =>
        bind (eval_args n d r h args) (fun '(vs, h) => apply n d fi f args vs h)
    | ECallVar _ fi x args =>
        bind (eval_args n d r h args) (fun '(vs, h) =>
          match r x with
          | None => Stuck
          | Some w => call_ptr n d fi w vs h
          end)
    | ECallExpr _ fi e args =>
        need (eval n d r h e) (fun w h =>
          bind (eval_args n d r h args) (fun '(vs, h) => call_ptr n d fi w vs h))
    | EDot _ _ _ | EIndex _ _ _ =>
        bind (eval_addr n d r h e) (fun '(a, h) =>
          if ok8 a then Val (Some (load h a), h) else Stuck)
    | EType _ => Val (None, h)
    end
  end

(** The address of a field or an array element. *)
with eval_addr (n d : nat) (r : env) (h : memory) (e : expr) {struct n} : res (Z * memory) :=
  match n with
  | O => NoFuel
  | S n =>
    match e with
    | EDot _ l f =>
        need (eval n d r h l) (fun a h => need (eval n d r h f) (fun b h => Val (word (a + b), h)))
    | EIndex _ a i =>
        need (eval n d r h a) (fun a h => need (eval n d r h i) (fun i h =>
          if ok8 a then
            let len := ival (load h a) in
            if len <? 0 then Stuck
            else if (0 <=? ival i) && (ival i <? len) then Val (word (a + 8 * ival i + 8), h)
            else Ioob (ival i) a h
          else Stuck))
    | _ => Stuck
    end
  end

(** Arguments, from left to right. *)
with eval_args (n d : nat) (r : env) (h : memory) (args : list expr) {struct n} : res (list value * memory) :=
  match n with
  | O => NoFuel
  | S n =>
    match args with
    | [] => Val ([], h)
    | a :: rest =>
        bind (eval n d r h a) (fun '(v, h) =>
          bind (eval_args n d r h rest) (fun '(vs, h) => Val (v :: vs, h)))
    end
  end

(** The call of a named function. *)
with apply (n d : nat) (fi : fninfo) (f : string) (args : list expr) (vs : list value) (h : memory)
  {struct n} : res (value * memory) :=
  match n with
  | O => NoFuel
  | S n =>
    if fi_external fi then
      let vs := if fi_raw fi then raw_args args vs else vs in
      match extern f vs h with
      | None => Stuck
      | Some (v, h) =>
        if fi_raw fi && kind_eqb (fi_ret fi) TInteger
        then Val (option_map wint v, h) else Val (v, h)
      end
    else call_fun n d f vs h
  end

(** The call of a function through its address. *)
with call_ptr (n d : nat) (fi : fninfo) (w : Z) (vs : list value) (h : memory) {struct n}
  : res (value * memory) :=
  match n with
  | O => NoFuel
  | S n =>
    match fun_at w with
    | None => Stuck
    | Some f =>
      match find_fun f with
      | None => Stuck
      | Some _ => if fi_external fi then Stuck else call_fun n d f vs h
      end
    end
  end

with call_fun (n d : nat) (f : string) (vs : list value) (h : memory) {struct n} : res (value * memory) :=
  match n with
  | O => NoFuel
  | S n =>
    match find_fun f with
    | None => match abstract f vs h with Some r => Val r | None => Stuck end
    | Some fd =>
      if f_extret fd then Stuck else run_fun n d fd vs h
    end
  end

(** The run of a function's body. *)
with run_fun (n d : nat) (fd : fundef) (vs : list value) (h : memory) {struct n} : res (value * memory) :=
  match n, d with
  | O, _ | _, O => NoFuel
  | S n, S d =>
    let r := bind_params (f_params fd) vs in
    match f_body fd with
    | BExpr e => eval n d r h e
    | BBlock b =>
        bind (exec_list n d r h b) (fun '(o, _, h) =>
          match o with
          | OReturn v => Val (v, h)
          | ONormal => if kind_eqb (f_ret fd) TNothing then Val (None, h) else Stuck
          end)
    | BCons tag id descr =>
        need (call_fun n d alloc [Some (wint (object_size (List.length (f_params fd)) tag));
                                Some (lit descr); Some (wint id)] h) (fun p h =>
          bind (set_fields (object_fields tag (take_args (List.length (f_params fd)) vs)) p h) (fun h =>
            Val (Some p, h)))
    end
  end

with exec_stmt (n d : nat) (r : env) (h : memory) (st : stmt) {struct n} : res (outcome * env * memory) :=
  match n with
  | O => NoFuel
  | S n =>
    match st with
    | SReturn None => Val (OReturn None, r, h)
    | SReturn (Some e) => bind (eval n d r h e) (fun '(v, h) => Val (OReturn v, r, h))
    | SIf bs => exec_if n d r h bs
    | SDas x _ e => need (eval n d r h e) (fun v h => Val (ONormal, env_set r x v, h))
    | SAs (EVar _ x) e => need (eval n d r h e) (fun v h => Val (ONormal, env_set r x v, h))
    | SAs lhs e =>
        need (eval n d r h e) (fun v h =>
          bind (eval_addr n d r h lhs) (fun '(a, h) =>
            if ok8 a then Val (ONormal, r, store h a v) else Stuck))
    | SWhile c b =>
        need (eval n d r h c) (fun w h =>
          match as_bool w with
          | None => Stuck
          | Some false => Val (ONormal, r, h)
          | Some true =>
            bind (exec_list n d r h b) (fun '(o, r, h) =>
              match o with
              | ONormal => exec_stmt n d r h (SWhile c b)
              | OReturn v => Val (OReturn v, r, h)
              end)
          end)
    | SBlock b => exec_list n d r h b
    | SExpr e => bind (eval n d r h e) (fun '(_, h) => Val (ONormal, r, h))
    end
  end

with exec_list (n d : nat) (r : env) (h : memory) (l : list stmt) {struct n} : res (outcome * env * memory) :=
  match n with
  | O => NoFuel
  | S n =>
    match l with
    | [] => Val (ONormal, r, h)
    | st :: rest =>
        bind (exec_stmt n d r h st) (fun '(o, r, h) =>
          match o with
          | ONormal => exec_list n d r h rest
          | OReturn v => Val (OReturn v, r, h)
          end)
    end
  end

(** The first branch whose condition holds. *)
with exec_if (n d : nat) (r : env) (h : memory) (bs : list (option expr * list stmt)) {struct n}
  : res (outcome * env * memory) :=
  match n with
  | O => NoFuel
  | S n =>
    match bs with
    | [] => Val (ONormal, r, h)
    | [(None, b)] => exec_list n d r h b
    | (None, _) :: _ => Stuck
    | (Some c, b) :: rest =>
        need (eval n d r h c) (fun w h =>
          match as_bool w with
          | None => Stuck
          | Some true => exec_list n d r h b
          | Some false => exec_if n d r h rest
          end)
    end
  end.
End Source.

(* -------------------------------------------------- conditions used by the theorems *)

(** Arguments are passed in rdi, rsi, rdx, rcx, r8, r9; those already computed stay in
    their registers while the next one is computed.  Division uses rdx and shifts use
    rcx, so an argument must not divide after the third register is in use nor shift
    after the fourth (unless inside a nested call); [k] is the number of registers in
    use.  A function given by an expression must not be called while registers are in
    use.  Field offsets must fit 32 bits. *)
Fixpoint safe (k : nat) (e : expr) {struct e} : bool :=
  let fix safe_args (i : nat) (args : list expr) {struct args} : bool :=
    match args with [] => true | a :: r => safe i a && safe_args (S i) r end in
  match e with
  | ELogic _ _ l r | ECmp _ _ l r | EDot _ l r | EIndex _ l r => safe k l && safe k r
  | EArith _ Div l r => Nat.leb k 2 && safe k l && safe k r
  | EArith _ _ l r => safe k l && safe k r
  | EShift _ _ l r => Nat.leb k 3 && safe k l && safe k r
  | ENot _ a | EBNot _ a | ENeg _ a | EArrayLit _ a => safe k a
  | ECond _ c a b => safe k c && safe k a && safe k b
  | EOff _ z => imm32 z
  | ECall _ _ _ args | ECallVar _ _ _ args => safe_args 0%nat args
  | ECallExpr _ _ e1 args => Nat.eqb k 0 && safe k e1 && safe_args 0%nat args
  | _ => true
  end.
Fixpoint safe_args (i : nat) (args : list expr) : bool :=
  match args with [] => true | a :: r => safe i a && safe_args (S i) r end.
Fixpoint safe_stmt (st : stmt) : bool :=
  let fix safe_list (l : list stmt) : bool :=
    match l with [] => true | s :: r => safe_stmt s && safe_list r end in
  let fix safe_branches (bs : list (option expr * list stmt)) : bool :=
    match bs with
    | [] => true
    | (c, b) :: r => (match c with Some e => safe 0 e | None => true end) && safe_list b && safe_branches r
    end in
  match st with
  | SReturn (Some e) => safe 0 e
  | SReturn None => true
  | SIf bs => safe_branches bs
  | SDas _ _ e => safe 0 e
  | SAs l e => safe 0 l && safe 0 e
  | SWhile c b => safe 0 c && safe_list b
  | SBlock b => safe_list b
  | SExpr e => safe 0 e
  end.
Fixpoint safe_list (l : list stmt) : bool :=
  match l with [] => true | s :: r => safe_stmt s && safe_list r end.
Fixpoint safe_branches (bs : list (option expr * list stmt)) : bool :=
  match bs with
  | [] => true
  | (c, b) :: r => (match c with Some e => safe 0 e | None => true end) && safe_list b && safe_branches r
  end.
(** The size of a frame must fit 16 bits (the operand of enter), tags 32 bits;
    constructors are not called from C. *)
Definition safe_fun (f : fundef) : bool :=
  (8 * (Z.of_nat (List.length (f_params f)) + Z.of_nat (List.length (body_vars (f_body f))) + 1) <? 65536) &&
  match f_body f with
  | BExpr e => safe 0 e
  | BBlock l => safe_list l
  | BCons tag _ _ => negb (f_extret f) && match tag with Some t => imm32 (2 * t + 1) | None => true end
  end.

(** Words of stack the code of an expression uses above the variables, not counting
    what called functions use. *)
Fixpoint pushes (e : expr) : Z :=
  let fix pushes_args (args : list expr) : Z :=
    match args with [] => 0 | a :: r => Z.max (pushes a) (pushes_args r) end in
  match e with
  | ELogic _ _ l r | EArith _ _ l r | ECmp _ _ l r | EShift _ _ l r | EDot _ l r | EIndex _ l r =>
      Z.max (pushes l) (1 + pushes r)
  | ENot _ a | EBNot _ a | ENeg _ a | EArrayLit _ a => pushes a
  | ECond _ c a b => Z.max (pushes c) (Z.max (pushes a) (pushes b))
  | ECall _ _ _ args | ECallVar _ _ _ args => 7 + pushes_args args
  | ECallExpr _ _ e1 args => Z.max (pushes e1) (8 + pushes_args args)
  | _ => 0
  end.
Fixpoint pushes_args (args : list expr) : Z :=
  match args with [] => 0 | a :: r => Z.max (pushes a) (pushes_args r) end.
Fixpoint pushes_stmt (st : stmt) : Z :=
  let fix pushes_list (l : list stmt) : Z :=
    match l with [] => 0 | s :: r => Z.max (pushes_stmt s) (pushes_list r) end in
  let fix pushes_branches (bs : list (option expr * list stmt)) : Z :=
    match bs with
    | [] => 0
    | (c, b) :: r =>
      Z.max (match c with Some e => pushes e | None => 0 end) (Z.max (pushes_list b) (pushes_branches r))
    end in
  match st with
  | SReturn (Some e) => pushes e
  | SReturn None => 0
  | SIf bs => pushes_branches bs
  | SDas _ _ e => Z.max (pushes e) 1
  | SAs l e => Z.max (pushes e) (1 + pushes l)
  | SWhile c b => Z.max (pushes c) (pushes_list b)
  | SBlock b => pushes_list b
  | SExpr e => pushes e
  end.
Fixpoint pushes_list (l : list stmt) : Z :=
  match l with [] => 0 | s :: r => Z.max (pushes_stmt s) (pushes_list r) end.
Fixpoint pushes_branches (bs : list (option expr * list stmt)) : Z :=
  match bs with
  | [] => 0
  | (c, b) :: r =>
    Z.max (match c with Some e => pushes e | None => 0 end) (Z.max (pushes_list b) (pushes_branches r))
  end.
(** Bytes of stack one activation of a function uses: return address, saved frame
    pointer, variables (one may be wasted for alignment) and temporaries. *)
Definition frame_bytes (f : fundef) : Z :=
  16 + 8 * (Z.of_nat (List.length (f_params f)) + Z.of_nat (List.length (body_vars (f_body f))) + 1) +
  8 * match f_body f with BExpr e => pushes e | BBlock l => pushes_list l | BCons _ _ _ => 0 end.

(* ------------------------------------------------------------------ loaded programs *)

Definition is_addr (z : Z) : Prop := 0 <= z < W.
(** Two memories agree on what programs may touch. *)
Definition agree (heap : Z -> bool) (m h : memory) : Prop := forall a, heap a = true -> m a = h a.
(** The arguments are in their registers. *)
Definition args_in (vs : list value) (rs : regs) : Prop :=
  forall i v r, nth_error vs i = Some (Some v) -> nth_error arg_regs i = Some r -> rs r = v.
(** A function's value is in rax. *)
Definition result_in (v : value) (rs : regs) : Prop :=
  match v with Some w => rs rax = w /\ is_addr w | None => True end.
(** A piece of the program text. *)
Definition code_at (P : list event) (n : nat) (c : list event) : Prop :=
  forall i e, nth_error c i = Some e -> nth_error P (n + i) = Some e.

(** The contract of a function whose code is not generated from a tree, at a place
    [n] where it is called and [n'] where it returns to: it computes what it should,
    changes no memory of the callers' frames and keeps the stack and frame pointers.
    [room] is the number of bytes of stack it may use. *)
Definition contract (P : list event) (run : mstate -> mstate -> Prop) (heap : Z -> bool) (lo hi room : Z)
  (f : string) (vs : list value) (h : memory) (v : value) (h' : memory) (n n' : nat) : Prop :=
  forall rs m fl, nth_error P n = Some (EIns call [OFn f]) ->
    args_in vs rs -> agree heap m h -> rs rsp mod 16 = 0 -> lo + room <= rs rsp <= hi -> is_addr (rs rbp) ->
    exists rs' m' fl', run (MState n (rs, m, fl)) (MState n' (rs', m', fl')) /\
      result_in v rs' /\ rs' rsp = rs rsp /\ rs' rbp = rs rbp /\ agree heap m' h' /\
      (forall a, rs rsp <= a < hi -> m' a = m a).

(** The machine and the language's view of a program belong together: the stack is
    the memory from [lo] to [hi], [lits] are the string literals in the order of
    their labels, and the code [P] contains the code of every function of [prog]. *)
Record linked (laddr : label -> Z) (mext : string -> regs * memory -> option (regs * memory))
  (mskips : string -> bool) (addr : nat -> Z) (place : Z -> option nat) (P : list event)
  (heap : Z -> bool) (lit : list Z -> Z) (fun_addr : string -> Z) (fun_at : Z -> option string)
  (extern abstract : string -> list value -> memory -> option (value * memory))
  (alloc : string) (prog : list fundef) (lits : list (list Z)) (lo hi room : Z) : Prop := Linked {
  lk_stack : 0 <= lo /\ hi < W /\ 0 <= room;
  lk_heap : forall a, heap a = true -> is_addr a /\ (a < lo \/ hi <= a);
  lk_lit : forall n s, nth_error lits n = Some s -> laddr (LLit n) + 8 = lit s /\ is_addr (lit s);
  lk_fun : forall f, laddr (LName f) = fun_addr f /\ is_addr (fun_addr f);
  lk_fun_at : forall w f, fun_at w = Some f -> w = fun_addr f;
  (* labels are unique and places after calls and entries have addresses *)
  lk_labels : forall i l, nth_error P i = Some (ELabel l) -> find_label P l = Some i;
  lk_ioob : exists i, find_label P LIoob = Some i;
  lk_return : forall n o, nth_error P n = Some (EIns call [o]) ->
    is_addr (addr (S n)) /\ place (addr (S n)) = Some (S n) /\
    (forall l, nth_error P (S n) = Some (EAddr l) ->
      is_addr (addr (S n) + 8) /\ place (addr (S n) + 8) = Some (S (S n)));
  lk_entry : forall f i, nth_error P i = Some (EFn f) -> find_fn P f = Some i /\ place (fun_addr f) = Some i;
  (* the code of every function was generated and is there *)
  lk_code : forall fd, In fd prog -> exists s c s' n,
    gen_fn alloc fd s = Some (c, s') /\ code_at P n c /\
    (forall k x, nth_error (g_lits s') k = Some x -> nth_error lits k = Some x);
  lk_extern : forall f vs h v h' n, extern f vs h = Some (v, h') ->
    contract P (steps laddr mext mskips addr place P) heap lo hi room f vs h v h' n (S n);
  lk_abstract : forall f vs h v h' n l, abstract f vs h = Some (v, h') ->
    nth_error P (S n) = Some (EAddr l) ->
    contract P (steps laddr mext mskips addr place P) heap lo hi room f vs h v h' n (S (S n))
}.

Section Activation.
Variable heap : Z -> bool.
Variable lo hi : Z.
(** The memory of the stack from an address on. *)
Definition same (R : Z) (m m' : memory) : Prop := forall a, R <= a < hi -> m' a = m a.
(** The slots of an activation with frame pointer [B] and [T] variables. *)
Record act_ok (slot : nat -> Z) (T B : Z) : Prop := ActOk {
  ao_base : B mod 16 = 0;
  ao_top : B + 16 <= hi;
  ao_temps : 0 <= T /\ T mod 2 = 0;
  ao_low : lo <= B - 8 * T;
  ao_slot : forall x, slot x <> 0 -> 8 <= slot x <= 8 * T /\ slot x mod 8 = 0;
  ao_inj : forall x y, slot x <> 0 -> slot x = slot y -> x = y
}.

Definition env_rel (slot : nat -> Z) (B : Z) (r : env) (m : memory) : Prop :=
  forall x v, r x = Some v -> is_addr v /\ slot x <> 0 /\ load m (B - slot x) = v.

(** The arguments already passed. *)
Definition in_use (us : list value) (rs : regs) : Prop :=
  args_in us rs /\ forall v, In (Some v) us -> is_addr v.

Record inv (slot : nat -> Z) (T B sp : Z) (us : list value) (r : env) (h : memory) (rs : regs) (m : memory)
  : Prop := Inv {
  iv_act : act_ok slot T B;
  iv_rbp : rs rbp = B;
  iv_rsp : rs rsp = B - 8 * sp;
  iv_temps : T <= sp;
  iv_low : lo <= rs rsp;
  iv_env : env_rel slot B r m;
  iv_heap : agree heap m h;
  iv_use : in_use us rs
}.
End Activation.

(** The machine, started in [st], does what the evaluation says: it reaches a state
    as described, or the code that reports a bad index with the index and the array in
    rbx and rax, or a division by zero.  Nothing is said about evaluations without
    meaning. *)
Definition ends (P : list event) (run : mstate -> mstate -> Prop) (heap : Z -> bool) {A} (st : mstate)
  (r : res A) (Q : A -> mstate -> Prop) : Prop :=
  match r with
  | Val a => exists st', run st st' /\ Q a st'
  | Ioob i a h => exists p rs m fl, find_label P LIoob = Some p /\ run st (MState p (rs, m, fl)) /\
      rs rbx = word i /\ rs rax = a /\ agree heap m h
  | DivZero => exists st', run st st' /\ at_division_by_zero P st'
  | Stuck | NoFuel => True
  end.
