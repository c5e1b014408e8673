(** Model of the code generator, codegen.go and the parts of gc.go and asm.go it
    uses.  The trees are those that reach it: after type checking, closure
    conversion and lowering of match and for statements. *)
From Coq Require Import ZArith List Bool String.
From Verif Require Import X86.
Import ListNotations.
Open Scope Z_scope.

(* -------------------------------------------------------------------------- trees *)

(** symtab.go:28-41 (TypeKind) *)
Inductive kind :=
| TStruct | TEnum | TFunction | TInteger | TBytes | TBoolean | TString | TArray
| TParameter | TNothing | TPointer.
Definition kind_eqb (a b : kind) : bool :=
  match a, b with
  | TStruct, TStruct | TEnum, TEnum | TFunction, TFunction | TInteger, TInteger | TBytes, TBytes
  | TBoolean, TBoolean | TString, TString | TArray, TArray | TParameter, TParameter
  | TNothing, TNothing | TPointer, TPointer => true
  | _, _ => false
  end.
(** A type: its kind and the identity of the Go object. *)
Record ty := Ty { ty_kind : kind; ty_id : nat }.
(** symtab.go:179-181 (IsPointer) *)
Definition is_pointer (t : ty) : bool :=
  match ty_kind t with
  | TArray | TStruct | TString | TFunction | TEnum | TParameter | TBytes => true
  | _ => false
  end.

Inductive arith_op := Add | Sub | Mul | Div | BOr | BAnd | BXor.
Inductive logic_op := Or | And.
Inductive cmp_op := Gt | Gte | Lt | Lte | Eq.
Inductive shift_op := BLeft | BRight.

(** What genFnCall looks at in the callee's type (codegen.go:578-584, 597-643). *)
Record fninfo := FnInfo {
  fi_external : bool;
  fi_raw : bool;        (* RawValues *)
  fi_variadic : bool;
  fi_ret : kind
}.

(** Nodes (ast.go) that genExpr accepts.  Every node carries its type.  Variables are
    numbers, standing for the identity of the symbol; named functions are given by
    their assembler name.
    - [ELitInt] carries the number strconv.ParseInt gives for the literal's text;
    - [EOff] is the default case of codegen.go:779-781, a field's offset;
    - [EType] is a type used as an argument (codegen.go:850-851).
    The three kinds of calls are those of codegen.go:576-585 and 624-632. *)
Inductive expr :=
| ELitInt (t : ty) (z : Z)
| ELitBool (t : ty) (b : bool)
| ELitStr (t : ty) (s : list Z)
| ELogic (t : ty) (op : logic_op) (l r : expr)
| EArith (t : ty) (op : arith_op) (l r : expr)
| ENot (t : ty) (e : expr)
| EBNot (t : ty) (e : expr)
| ENeg (t : ty) (e : expr)
| ECmp (t : ty) (op : cmp_op) (l r : expr)
| EShift (t : ty) (op : shift_op) (l r : expr)
| EVar (t : ty) (x : nat)
| EFun (t : ty) (f : string) (external : bool)
| EOff (t : ty) (z : Z)
| ECond (t : ty) (c a b : expr)
| EArrayLit (t : ty) (e : expr)
| ECall (t : ty) (fi : fninfo) (f : string) (args : list expr)
| ECallVar (t : ty) (fi : fninfo) (x : nat) (args : list expr)
| ECallExpr (t : ty) (fi : fninfo) (e : expr) (args : list expr)
| EDot (t : ty) (l r : expr)
| EIndex (t : ty) (a i : expr)
| EType (t : ty).

(** n.typ *)
Definition typ (e : expr) : ty :=
  match e with
  | ELitInt t _ | ELitBool t _ | ELitStr t _ | ELogic t _ _ _ | EArith t _ _ _ | ENot t _ | EBNot t _
  | ENeg t _ | ECmp t _ _ _ | EShift t _ _ _ | EVar t _ | EFun t _ _ | EOff t _ | ECond t _ _ _
  | EArrayLit t _ | ECall t _ _ _ | ECallVar t _ _ _ | ECallExpr t _ _ _ | EDot t _ _ | EIndex t _ _
  | EType t => t
  end.
Definition knd (e : expr) : kind := ty_kind (typ e).

(** Statements (codegen.go:468-493).  An if statement is the chain of its branches;
    the condition is missing in an else branch. *)
Inductive stmt :=
| SReturn (e : option expr)
| SIf (branches : list (option expr * list stmt))
| SDas (x : nat) (t : ty) (e : expr)
| SAs (lhs e : expr)
| SWhile (c : expr) (body : list stmt)
| SBlock (body : list stmt)
| SExpr (e : expr).

(** Function bodies: opBlockFnDcl, opExprFnDcl, and constructors with the tag of an
    enum member, the type id given by AssignId and the text given by Describe. *)
Inductive body :=
| BBlock (b : list stmt)
| BExpr (e : expr)
| BCons (tag : option Z) (id : Z) (descr : list Z).

Record fundef := Fun {
  f_name : string;                (* AsmName *)
  f_params : list (nat * ty);
  f_body : body;
  f_ret : kind;
  f_extret : bool                 (* attribute ExtRet *)
}.

(* -------------------------------------------------------------------------- state *)

(** codegen.go:28-37 (function), gc.go:17-20 (GcState) and the counters of
    gasWriter (asm.go:349-354).  [g_reg] has the innermost call first; [g_lits] is the
    map of string literals, the n-th one labelled .LCn. *)
Record gst := Gst {
  g_sp : Z;
  g_reg : list (list ty);
  g_scopes : list nat;
  g_roots : list (Z * ty);
  g_maps : list (nat * list (Z * ty));
  g_id : nat;
  g_lab : nat;
  g_lits : list (list Z)
}.

(** A generator: what is written and the new state; None: the compiler panics. *)
Notation gen := (gst -> option (list event * gst)) (only parsing).

Definition nop : gen := fun s => Some ([], s).
Definition panic : gen := fun _ => None.
Definition seq (a b : gen) : gen := fun s =>
  match a s with
  | None => None
  | Some (c1, s1) => match b s1 with None => None | Some (c2, s2) => Some (c1 ++ c2, s2) end
  end.
Notation "a ;; b" := (seq a b) (at level 61, right associativity).
Definition emit (e : event) : gen := fun s => Some ([e], s).
Definition ins (i : inst) (ops : list operand) : gen := emit (EIns i ops).
Definition modify (f : gst -> gst) : gen := fun s => Some ([], f s).

Definition set_sp f s := Gst (f (g_sp s)) (g_reg s) (g_scopes s) (g_roots s) (g_maps s) (g_id s) (g_lab s) (g_lits s).
Definition set_reg f s := Gst (g_sp s) (f (g_reg s)) (g_scopes s) (g_roots s) (g_maps s) (g_id s) (g_lab s) (g_lits s).
Definition set_scopes f s := Gst (g_sp s) (g_reg s) (f (g_scopes s)) (g_roots s) (g_maps s) (g_id s) (g_lab s) (g_lits s).
Definition set_roots f s := Gst (g_sp s) (g_reg s) (g_scopes s) (f (g_roots s)) (g_maps s) (g_id s) (g_lab s) (g_lits s).
Definition set_lab f s := Gst (g_sp s) (g_reg s) (g_scopes s) (g_roots s) (g_maps s) (g_id s) (f (g_lab s)) (g_lits s).
Definition set_lits f s := Gst (g_sp s) (g_reg s) (g_scopes s) (g_roots s) (g_maps s) (g_id s) (g_lab s) (f (g_lits s)).

(** codegen.go:48-50 (incSp, decSp, isSpAligned) *)
Definition inc_sp (n : Z) : gen := modify (set_sp (fun sp => sp + n)).
Definition dec_sp (n : Z) : gen := modify (set_sp (fun sp => sp - n)).
Definition sp_aligned (s : gst) : bool := g_sp s mod 2 =? 0.

(** codegen.go:893-901 (save, restore) *)
Definition save (r : reg) : gen := ins pushq [OReg r] ;; inc_sp 1.
Definition restore (r : reg) : gen := ins popq [OReg r] ;; dec_sp 1.

(** gc.go:49-56 (OpenScope, CloseScope); the scope stack is not popped. *)
Definition open_scope : gen := fun s => Some ([], set_scopes (cons (List.length (g_roots s))) s).
Definition close_scope : gen := fun s =>
  match g_scopes s with
  | [] => None
  | n :: _ => Some ([], set_roots (firstn n) s)
  end.
(** gc.go:58-62 (Add) *)
Definition add_root (off : Z) (t : ty) : gen :=
  if is_pointer t then modify (set_roots (fun r => r ++ [(off, t)])) else nop.
(** gc.go:64-74 (Remove) *)
Fixpoint drop_root (off : Z) (t : ty) (l : list (Z * ty)) : option (list (Z * ty)) :=
  match l with
  | [] => None
  | (o, u) :: r =>
    if (o =? off) && kind_eqb (ty_kind u) (ty_kind t) && Nat.eqb (ty_id u) (ty_id t) then Some r
    else option_map (cons (o, u)) (drop_root off t r)
  end.
Definition remove_root (off : Z) (t : ty) : gen := fun s =>
  if is_pointer t then
    match drop_root off t (g_roots s) with
    | None => None
    | Some r => Some ([], set_roots (fun _ => r) s)
    end
  else Some ([], s).
(** codegen.go:56-65 (NewGcMap) followed by asm.addr; asm.go:365-374 *)
Definition gc_map : gen := fun s =>
  match g_roots s with
  | [] => Some ([EAddr LNoGc], s)
  | _ => Some ([EAddr (LMap (g_id s))],
               Gst (g_sp s) (g_reg s) (g_scopes s) (g_roots s) ((g_id s, g_roots s) :: g_maps s)
                   (S (g_id s)) (g_lab s) (g_lits s))
  end.

(** codegen.go:26 *)
Definition arg_regs : list reg := [rdi; rsi; rdx; rcx; r8; r9].
(** regs[i]; Go panics when there are too few registers. *)
Definition with_reg (i : nat) (k : reg -> gen) : gen :=
  match nth_error arg_regs i with None => panic | Some r => k r end.

(** codegen.go:68-77, the loop over [call], from the last register to the first *)
Fixpoint spill (i : nat) (ts : list ty) : gen :=
  match ts with
  | [] => nop
  | t :: rest =>
    spill (S i) rest ;;
    with_reg i (fun r => ins pushq [OReg r]) ;; inc_sp 1 ;;
    (fun s => add_root (g_sp s * 8) t s)
  end.
(** codegen.go:67-81 (SpillRegisters) *)
Definition spill_registers : gen := fun s =>
  (match g_reg s with [] => nop | ts :: _ => spill 0 ts end ;; modify (set_reg (cons []))) s.
(** codegen.go:88-95 *)
Fixpoint unspill (i : nat) (ts : list ty) : gen :=
  match ts with
  | [] => nop
  | t :: rest =>
    with_reg i (fun r => ins popq [OReg r]) ;;
    (fun s => remove_root (g_sp s * 8) t s) ;; dec_sp 1 ;;
    unspill (S i) rest
  end.
(** codegen.go:83-97 (RestoreRegisters) *)
Definition restore_registers : gen :=
  modify (set_reg (@tl _)) ;;
  (fun s => match g_reg s with [] => nop s | ts :: _ => unspill 0 ts s end).
(** codegen.go:99-101 (RegisterInUse) *)
Definition register_in_use (t : ty) : gen := fun s =>
  match g_reg s with
  | [] => None
  | ts :: rest => Some ([], set_reg (fun _ => (ts ++ [t]) :: rest) s)
  end.

(** asm.go:431-435 (newLabel) *)
Definition new_label (p : lprefix) (k : label -> gen) : gen := fun s =>
  (emit EFlush ;; k (LGen p (g_lab s))) (set_lab S s).
(** asm.go:395-407 (stringLit) *)
Fixpoint find_lit (n : nat) (l : list (list Z)) (s : list Z) : option nat :=
  match l with
  | [] => None
  | x :: r => if list_eq_dec Z.eq_dec x s then Some n else find_lit (S n) r s
  end.
Definition string_lit (txt : list Z) (k : operand -> gen) : gen := fun s =>
  match find_lit 0 (g_lits s) txt with
  | Some n => (emit EFlush ;; k (OAddr (LLit n) 8)) s
  | None => (emit EFlush ;; k (OAddr (LLit (List.length (g_lits s))) 8)) (set_lits (fun l => l ++ [txt]) s)
  end.

(** asm.go:208-212 (displace), panics outside 16 bits *)
Definition displace (r : reg) (d : Z) (k : memop -> gen) : gen :=
  if (d <? -32768) || (32767 <? d) then panic else k (Mem r None d 0 false true).

(** asm.go:119-121 (taggedIntOp) *)
Definition tagged_op (z : Z) : operand := OImm (2 * z + 1).
(** asm.go:127-128 *)
Definition false_op : operand := OImm 0.
Definition true_op : operand := OImm 1.

(** codegen.go:875-891 (tagFor, tagLenFor): only ints have a tag, else panic *)
Definition tag_for (k : kind) (g : Z -> gen) : gen := match k with TInteger => g 1 | _ => panic end.
Definition tag_len_for (k : kind) (g : Z -> gen) : gen := match k with TInteger => g 1 | _ => panic end.
(** codegen.go:862-865 (tagAs) *)
Definition tag_as (k : kind) (r : reg) : gen :=
  tag_len_for k (fun n => ins shlq [OImm n; OReg r]) ;; tag_for k (fun t => ins orq [OImm t; OReg r]).
(** codegen.go:871-873 (untagAs) *)
Definition untag_as (k : kind) (r : reg) : gen := tag_len_for k (fun n => ins sarq [OImm n; OReg r]).

(** codegen.go:903-921 (ins) *)
Definition arith_ins (op : arith_op) : inst :=
  match op with
  | Add => addq | Sub => subq | Mul => imulq | Div => idivq | BOr => orq | BAnd => andq | BXor => xorq
  end.
Definition logic_ins (op : logic_op) : inst := match op with Or => orq | And => andq end.
Definition cmp_ins (op : cmp_op) : inst :=
  match op with Eq => sete | Gt => setg | Gte => setge | Lt => setl | Lte => setle end.
Definition shift_ins (op : shift_op) : inst := match op with BLeft => shlq | BRight => sarq end.

(* --------------------------------------------------------------------- expressions *)

(** Where the address of a called function comes from (codegen.go:576-585). *)
Inductive callee := CName (f : string) | CSlot (a : Z) | CSaved.

Section Gen.
(** n.sym.Addr of the function's variables. *)
Variable slot : nat -> Z.

(** codegen.go:592-608: what happens to the i-th argument after its code *)
Definition pass_arg (fi : fninfo) (i : nat) (t : ty) : gen :=
  with_reg i (fun r =>
    ins movq [OReg rax; OReg r] ;;
    register_in_use t ;;
    (if fi_external fi && fi_raw fi then
       match ty_kind t with
       | TString | TArray | TBytes => displace r 8 (fun m => ins leaq [OMem m; OReg r])
       | TInteger => untag_as TInteger r
       | _ => nop
       end
     else nop)).

(** codegen.go:610-650: the call and what follows, once the arguments are passed *)
Definition finish_call (fi : fninfo) (c : callee) : gen :=
  (if fi_variadic fi then ins movq [OImm 0; OReg rax] else nop) ;;
  (match c with CSaved => restore rax | _ => nop end) ;;
  (fun s => (if sp_aligned s then nop else ins subq [OImm 8; OReg rsp]) s) ;;
  (match c with
   | CSaved => ins call [OMem (Mem rax None 0 0 true false)]
   | CSlot a => displace rbp (- a) (fun m => ins call [OMem (Mem rbp None (m_disp m) 0 true true)])
   | CName f => ins call [OFn f]
   end) ;;
  (if fi_external fi && fi_raw fi && kind_eqb (fi_ret fi) TInteger then tag_as TInteger rax else nop) ;;
  (if fi_external fi then nop else gc_map) ;;
  (fun s => (if sp_aligned s then nop else ins addq [OImm 8; OReg rsp]) s) ;;
  restore_registers.

(** codegen.go:653-856 (genExpr) and 574-651 (genFnCall) *)
Fixpoint gen_expr (e : expr) (take_addr : bool) {struct e} : gen :=
  let fix gen_args (fi : fninfo) (i : nat) (args : list expr) {struct args} : gen :=
    match args with
    | [] => nop
    | a :: rest => gen_expr a false ;; pass_arg fi i (typ a) ;; gen_args fi (S i) rest
    end in
  match e with
  | ELitStr _ txt => string_lit txt (fun o => ins movabs [o; OReg rax])
  | ELitInt t z =>
      (if (z <? -9223372036854775808) || (9223372036854775807 <? z) then panic
       else if (z >? 2147483647) || (z <? -2147483648) then ins movabs [OImm z; OReg rax]
       else ins movq [OImm z; OReg rax]) ;;
      tag_as (ty_kind t) rax
  | ELitBool _ b => ins movq [if b then true_op else false_op; OReg rax]
  | ELogic _ op l r =>
      gen_expr l false ;; save rax ;;
      gen_expr r false ;; ins movq [OReg rax; OReg rbx] ;; restore rax ;;
      ins (logic_ins op) [OReg rbx; OReg rax]
  | EArith t op l r =>
      gen_expr l false ;; untag_as (knd l) rax ;; save rax ;;
      gen_expr r false ;; untag_as (knd r) rax ;; ins movq [OReg rax; OReg rbx] ;; restore rax ;;
      (match op with Div => ins cqo [] | _ => nop end) ;;
      ins (arith_ins op) [OReg rbx; OReg rax] ;;
      tag_as (ty_kind t) rax
  | ENot _ e1 =>
      gen_expr e1 false ;; ins notq [OReg rax] ;; ins andq [true_op; OReg rax]
  | EBNot _ e1 =>
      gen_expr e1 false ;; ins notq [OReg rax] ;; tag_for (knd e1) (fun t => ins orq [OImm t; OReg rax])
  | ENeg _ e1 =>
      gen_expr e1 false ;; untag_as (knd e1) rax ;; ins negq [OReg rax] ;; tag_as (knd e1) rax
  | ECmp _ op l r =>
      gen_expr l false ;; untag_as (knd l) rax ;; save rax ;;
      gen_expr r false ;; untag_as (knd r) rax ;; ins movq [OReg rax; OReg rbx] ;; restore rax ;;
      ins cmpq [OReg rbx; OReg rax] ;; ins (cmp_ins op) [OReg8 al] ;; ins andq [true_op; OReg rax]
  | EShift t op l r =>
      gen_expr l false ;; untag_as (knd l) rax ;; save rax ;;
      gen_expr r false ;; untag_as (knd r) rax ;; ins movq [OReg rax; OReg rcx] ;; restore rax ;;
      ins (shift_ins op) [OReg8 cl; OReg rax] ;; tag_as (ty_kind t) rax
  | EVar _ x =>
      displace rbp (- slot x) (fun m => ins (if take_addr then leaq else movq) [OMem m; OReg rax])
  | EFun _ f ext =>
      if ext then ins movq [false_op; OReg rax] else ins movabs [OAddr (LName f) 0; OReg rax]
  | EOff _ z => ins movq [OImm z; OReg rax]
  | ECond _ c a b =>
      gen_expr c false ;;
      new_label PElse (fun els => new_label PExit (fun exit =>
        ins cmpq [true_op; OReg rax] ;; ins jne [OLab els] ;;
        gen_expr a false ;; ins jmp [OLab exit] ;;
        emit (ELabel els) ;; gen_expr b false ;; emit (ELabel exit)))
  | EArrayLit _ e1 => gen_expr e1 false
  | ECall _ fi f args =>
      spill_registers ;; gen_args fi 0%nat args ;; finish_call fi (CName f)
  | ECallVar _ fi x args =>
      spill_registers ;; gen_args fi 0%nat args ;; finish_call fi (CSlot (slot x))
  | ECallExpr _ fi e1 args =>
      gen_expr e1 false ;; save rax ;;
      spill_registers ;; gen_args fi 0%nat args ;; finish_call fi CSaved
  | EDot _ l r =>
      gen_expr l false ;; save rax ;; gen_expr r false ;;
      ins movq [OReg rax; OReg rbx] ;; restore rax ;;
      ins (if take_addr then leaq else movq) [mindex rax rbx; OReg rax]
  | EIndex _ a i =>
      gen_expr a false ;; save rax ;;
      gen_expr i false ;; untag_as (knd i) rax ;; ins movq [OReg rax; OReg rbx] ;;
      ins movq [mderef rsp; OReg rax] ;;
      ins movq [mderef rax; OReg rax] ;; untag_as TInteger rax ;;
      ins cmpq [OReg rax; OReg rbx] ;;
      restore rax ;; ins jae [OLab LIoob] ;;
      ins (if take_addr then leaq else movq) [OMem (Mem rax (Some rbx) 8 8 false true); OReg rax]
  | EType _ => nop
  end.
(** codegen.go:589-609: the arguments of a call, in order *)
Fixpoint gen_args (fi : fninfo) (i : nat) (args : list expr) : gen :=
  match args with
  | [] => nop
  | a :: rest => gen_expr a false ;; pass_arg fi i (typ a) ;; gen_args fi (S i) rest
  end.

(* ---------------------------------------------------------------------- statements *)

(** codegen.go:406-418 (genFnExit) *)
Definition gen_exit (ext_ret : bool) : gen :=
  ins leave [] ;;
  (if ext_ret then ins ret []
   else ins popq [OReg rbx] ;; ins addq [OImm 8; OReg rbx] ;; ins jmp [OMem (Mem rbx None 0 0 true false)]) ;;
  emit EFlush.

(** fn.attrs.isExternalReturn() *)
Variable ext_ret : bool.

(** codegen.go:563-572 (genReturnStmt) *)
Definition gen_return (e : option expr) : gen :=
  (match e with Some e' => gen_expr e' false | None => nop end) ;; gen_exit ext_ret.

(** codegen.go:512-533 (genAssignStmt); [das] is the declared variable, if any *)
Definition gen_assign (das : option (nat * ty)) (lhs e : expr) : gen :=
  gen_expr e false ;; save rax ;;
  gen_expr lhs true ;; restore rbx ;;
  ins movq [OReg rbx; mderef rax] ;;
  match das with Some (x, t) => add_root (slot x) t | None => nop end.

(** codegen.go:468-493 (genStmtList), 495-510 (genWhileStmt), 535-561
    (genIfElseIfElseStmts) *)
Fixpoint gen_stmt (st : stmt) {struct st} : gen :=
  let fix gen_list (l : list stmt) {struct l} : gen :=
    match l with [] => nop | st :: rest => gen_stmt st ;; gen_list rest end in
  let gen_block (l : list stmt) : gen := open_scope ;; gen_list l ;; close_scope in
  let fix gen_branches (exit : label) (bs : list (option expr * list stmt)) {struct bs} : gen :=
    match bs with
    | [] => nop
    | (Some c, b) :: rest =>
        gen_expr c false ;;
        new_label PElse (fun next =>
          ins cmpq [true_op; OReg rax] ;; ins jne [OLab next] ;;
          gen_block b ;; ins jmp [OLab exit] ;; emit (ELabel next)) ;;
        gen_branches exit rest
    | (None, b) :: rest => gen_block b ;; gen_branches exit rest
    end in
  match st with
  | SReturn e => gen_return e
  | SIf bs => new_label PIfEnd (fun exit => gen_branches exit bs ;; emit (ELabel exit))
  | SDas x t e => gen_assign (Some (x, t)) (EVar t x) e
  | SAs lhs e => gen_assign None lhs e
  | SWhile c b =>
      new_label PWhileEnd (fun exit => new_label PWhileStart (fun start =>
        emit (ELabel start) ;;
        gen_expr c false ;; ins cmpq [true_op; OReg rax] ;; ins jne [OLab exit] ;;
        gen_block b ;; ins jmp [OLab start] ;; emit (ELabel exit)))
  | SBlock b => gen_block b
  | SExpr e => gen_expr e false
  end.
Fixpoint gen_list (l : list stmt) : gen :=
  match l with [] => nop | st :: rest => gen_stmt st ;; gen_list rest end.
Definition gen_block (l : list stmt) : gen := open_scope ;; gen_list l ;; close_scope.
Fixpoint gen_branches (exit : label) (bs : list (option expr * list stmt)) : gen :=
  match bs with
  | [] => nop
  | (Some c, b) :: rest =>
      gen_expr c false ;;
      new_label PElse (fun next =>
        ins cmpq [true_op; OReg rax] ;; ins jne [OLab next] ;;
        gen_block b ;; ins jmp [OLab exit] ;; emit (ELabel next)) ;;
      gen_branches exit rest
  | (None, b) :: rest => gen_block b ;; gen_branches exit rest
  end.
End Gen.

(* ----------------------------------------------------------------------- functions *)

(** codegen.go:158-166: the stack symbols in the order WalkPostOrder (walk.go) meets
    them in a body *)
Fixpoint expr_vars (e : expr) : list nat :=
  let fix args_vars (l : list expr) : list nat :=
    match l with [] => [] | a :: r => expr_vars a ++ args_vars r end in
  match e with
  | EVar _ x => [x]
  | ELogic _ _ l r | EArith _ _ l r | ECmp _ _ l r | EShift _ _ l r | EDot _ l r | EIndex _ l r =>
      expr_vars l ++ expr_vars r
  | ENot _ a | EBNot _ a | ENeg _ a | EArrayLit _ a => expr_vars a
  | ECond _ c a b => expr_vars c ++ expr_vars a ++ expr_vars b
  | ECall _ _ _ args => args_vars args
  | ECallVar _ _ x args => x :: args_vars args
  | ECallExpr _ _ e1 args => expr_vars e1 ++ args_vars args
  | _ => []
  end.
Fixpoint stmt_vars (st : stmt) : list nat :=
  let fix list_vars (l : list stmt) : list nat :=
    match l with [] => [] | s :: r => stmt_vars s ++ list_vars r end in
  let fix branches_vars (bs : list (option expr * list stmt)) : list nat :=
    match bs with
    | [] => []
    | (c, b) :: r => (match c with Some e => expr_vars e | None => [] end) ++ list_vars b ++ branches_vars r
    end in
  match st with
  | SReturn (Some e) => expr_vars e
  | SReturn None => []
  | SIf bs => branches_vars bs
  | SDas x _ e => x :: expr_vars e
  | SAs l e => expr_vars l ++ expr_vars e
  | SWhile c b => expr_vars c ++ list_vars b
  | SBlock b => list_vars b
  | SExpr e => expr_vars e
  end.
Fixpoint list_vars (l : list stmt) : list nat :=
  match l with [] => [] | s :: r => stmt_vars s ++ list_vars r end.
Definition body_vars (b : body) : list nat :=
  match b with BBlock l => list_vars l | BExpr e => expr_vars e | BCons _ _ _ => [] end.

(** A symbol's slot; 0: none yet (Addr is 0 before it is assigned). *)
Notation slots := (list (nat * Z)) (only parsing).
Fixpoint get_slot (l : slots) (x : nat) : Z :=
  match l with [] => 0 | (y, a) :: r => if Nat.eqb x y then a else get_slot r x end.

(** codegen.go:159-166: symbols without an address get the next slot.  Parameters are
    not stack symbols yet, so they are passed over ([params]). *)
Fixpoint assign_temps (params : list nat) (vars : list nat) (temps : Z) (l : slots) : Z * slots :=
  match vars with
  | [] => (temps, l)
  | x :: r =>
    if existsb (Nat.eqb x) params || negb (get_slot l x =? 0)
    then assign_temps params r temps l
    else assign_temps params r (temps + 1) ((x, 8 * (temps + 1)) :: l)
  end.
(** codegen.go:172-175: parameters *)
Fixpoint param_slots (i : Z) (ps : list (nat * ty)) : slots :=
  match ps with [] => [] | (x, _) :: r => (x, 8 * (i + 1)) :: param_slots (i + 1) r end.
Definition fn_slots (f : fundef) : Z * slots :=
  let params := f_params f in
  let '(temps, l) := assign_temps (map fst params) (body_vars (f_body f)) (Z.of_nat (List.length params)) [] in
  (temps, param_slots 0 params ++ l).

(** codegen.go:394-404 (genFnEntry) *)
Definition round_temps (t : Z) : Z := if t mod 2 =? 0 then t else t + 1.
Definition gen_entry (name : string) (temps : Z) : gen :=
  emit (EFn name) ;; ins enter [OImm (round_temps temps * 8); OImm 0].

(** codegen.go:171-178: parameters are copied into their slots *)
Fixpoint gen_params (i : nat) (ps : list (nat * ty)) : gen :=
  match ps with
  | [] => nop
  | (_, t) :: rest =>
    let a := 8 * (Z.of_nat i + 1) in
    with_reg i (fun r => displace rbp (- a) (fun m => ins movq [OReg r; OMem m])) ;;
    add_root a t ;; gen_params (S i) rest
  end.

(** codegen.go:433-466 (genConstructor); [alloc] is the label of claralloc *)
Fixpoint gen_fields (i : nat) (off : Z) (n : nat) : gen :=
  match n with
  | O => nop
  | S n' =>
    displace rbp (- (8 * (Z.of_nat i + 1))) (fun m => ins movq [OMem m; OReg rbx]) ;;
    displace rax off (fun m => ins movq [OReg rbx; OMem m]) ;;
    gen_fields (S i) (off + 8) n'
  end.
Definition gen_constructor (alloc : string) (nparams : nat) (tag : option Z) (id : Z) (descr : list Z) : gen :=
  let size := 8 * Z.of_nat nparams + match tag with Some _ => 8 | None => 0 end in
  ins movq [tagged_op size; OReg rdi] ;;
  string_lit descr (fun o => ins movabs [o; OReg rsi]) ;;
  ins movabs [tagged_op id; OReg rdx] ;;
  ins call [OFn alloc] ;; gc_map ;;
  (match tag with
   | Some t => displace rax 0 (fun m => ins movq [tagged_op t; OMem m]) ;; gen_fields 0 8 nparams
   | None => gen_fields 0 0 nparams
   end) ;;
  gen_exit false.

(** ast.go:130-151 (IsReturnLastStmt) *)
Definition return_last (l : list stmt) : bool :=
  match rev l with SReturn _ :: _ => true | _ => false end.

(** codegen.go:39-47 (reset) *)
Definition reset_fn : gen := modify (fun s => Gst 0 [] [] [] [] (g_id s) (g_lab s) (g_lits s)).
(** asm.go:460-470 (gcMap) *)
Definition tagged_word (z : Z) : event := EWord (2 * z + 1).
Definition gc_map_data (l : label) (offs : list Z) : list event :=
  ELabel l :: tagged_word (Z.of_nat (List.length offs)) :: map tagged_word offs ++ [EFlush].
(** codegen.go:198-208: the GC maps.  Go visits a map in any order; here it is that of
    the list. *)
Definition gen_maps : gen := fun s =>
  Some (EFlush :: EData ::
        flat_map (fun m => gc_map_data (LMap (fst m)) (map (fun r => fst r / 8) (snd m))) (g_maps s), s).

(** codegen.go:153-209 (genFunc) *)
Definition gen_fn (alloc : string) (f : fundef) : gen :=
  let '(temps, slots) := fn_slots f in
  let slot := get_slot slots in
  reset_fn ;;
  gen_entry (f_name f) temps ;; inc_sp (round_temps temps) ;;
  gen_params 0 (f_params f) ;;
  (match f_body f with
   | BCons tag id descr => gen_constructor alloc (List.length (f_params f)) tag id descr
   | BBlock l =>
       gen_block slot (f_extret f) l ;;
       (if kind_eqb (f_ret f) TNothing && negb (return_last l) then gen_exit (f_extret f) else nop)
   | BExpr e => gen_return slot (f_extret f) (Some e)
   end) ;;
  gen_maps.

(** codegen.go:119-124: all functions of the program *)
Fixpoint gen_fns (alloc : string) (fs : list fundef) : gen :=
  match fs with [] => nop | f :: r => gen_fn alloc f ;; gen_fns alloc r end.
