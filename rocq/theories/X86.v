(** The x86-64 subset the code generator uses: words, memory, registers,
    instructions as /repo/asm.go represents them, and what they do.

    Simplifications: memory is a total function from addresses to bytes (no page
    faults; an access that starts below 2^64 and ends above it does not wrap); only
    the comparison cmpq defines the flags (every instruction that would set them
    otherwise leaves them undefined, and using undefined flags is stuck). *)
From Coq Require Import ZArith List Bool String.
Import ListNotations.
Open Scope Z_scope.

(* ------------------------------------------------------------------- 64-bit words *)

Notation W := 18446744073709551616 (only parsing).
Notation W63 := 9223372036854775808 (only parsing).

Definition word (z : Z) : Z := z mod W.
(** The signed number a word stands for. *)
Definition signed (w : Z) : Z := if word w <? W63 then word w else word w - W.

Definition w_shl (a c : Z) : Z := word (Z.shiftl a (c mod 64)).
Definition w_sar (a c : Z) : Z := word (Z.shiftr (signed a) (c mod 64)).

(* ------------------------------------------------------------------------- memory *)

Notation memory := (Z -> Z) (only parsing).

(** An 8-byte little-endian load and store. *)
Definition byte_of (v : Z) (i : Z) : Z := v / 2 ^ (8 * i) mod 256.
Definition load (m : memory) (a : Z) : Z :=
  m a mod 256 + 256 * (m (a + 1) mod 256 + 256 * (m (a + 2) mod 256 + 256 * (m (a + 3) mod 256 +
  256 * (m (a + 4) mod 256 + 256 * (m (a + 5) mod 256 + 256 * (m (a + 6) mod 256 +
  256 * (m (a + 7) mod 256))))))).
Definition store (m : memory) (a v : Z) : memory :=
  fun x => if (a <=? x) && (x <? a + 8) then byte_of v (x - a) else m x.
(** A single byte. *)
Definition store8 (m : memory) (a v : Z) : memory := fun x => if x =? a then v mod 256 else m x.

(* ----------------------------------------------------------- instructions (asm.go) *)

(** asm.go:133-163 (reg); the registers the generator uses. *)
Inductive reg := rax | rbx | rcx | rdx | rsi | rdi | rbp | rsp | r8 | r9.
(** asm.go:153-162: 8-bit registers *)
Inductive reg8 := al | cl | dl.

Definition reg_eqb (a b : reg) : bool :=
  match a, b with
  | rax, rax | rbx, rbx | rcx, rcx | rdx, rdx | rsi, rsi | rdi, rdi
  | rbp, rbp | rsp, rsp | r8, r8 | r9, r9 => true
  | _, _ => false
  end.

(** Labels.  asm.go:431-435 (newLabel) makes "prefix_n"; the rest is fixed text or
    text with a number, or made from a name. *)
Inductive lprefix := PWhileEnd | PWhileStart | PIfEnd | PElse | PExit.
Inductive label :=
| LGen (p : lprefix) (n : nat)     (* codegen.go:498-499, 538, 547, 790-791 *)
| LIoob                            (* codegen.go:424 *)
| LNoGc                            (* codegen.go:389 *)
| LMap (n : nat)                   (* codegen.go:60, ".SMn" *)
| LLit (n : nat)                   (* asm.go:407, ".LCn" *)
| LName (s : string)               (* the label of a function *)
| LSym (s : string).               (* codegen.go:211-323, data labelled by a name *)

(** asm.go:20-27 (memOp).  A scale of 0 or 1 is not printed (asm.go:68). *)
Record memop := Mem {
  m_base : reg;
  m_idx : option reg;
  m_disp : Z;
  m_scl : Z;
  m_indir : bool;
  m_deref : bool
}.

(** asm.go:12-130: operands.  [OImm] is litOp with a number, [OAddr] the address of
    a label plus an offset (litOp of stringLit, symOp), [OLab] labelOp, [OFn] fnOp. *)
Inductive operand :=
| OReg (r : reg)
| OReg8 (r : reg8)
| OImm (z : Z)
| OAddr (l : label) (off : Z)
| OMem (m : memop)
| OLab (l : label)
| OFn (f : string).

(** asm.go:242-287 (inst) *)
Inductive inst :=
| movq | movb | movsbq | movabs | popq | pushq | leaq
| notq | negq | orq | xorq | andq | cmpq
| setg | setge | setl | setle | sete | shlq | sarq
| addq | subq | imulq | idivq | cqo
| jmp | jne | jae | je
| leave | enter | ret | call.

(** What is written through an asmWriter (asm.go:327-346), in order.  [EFlush] is a
    call that writes nothing (newLabel, stringLit) but ends the peephole
    optimiser's window; [EFn] is fnStart, [EAddr] an
    8-byte word holding an address, [EWord] one holding a number, [EAscii] the bytes of
    an .ascii directive before the assembler sees them, [EData] any other directive. *)
Inductive event :=
| EIns (i : inst) (ops : list operand)
| ELabel (l : label)
| EFn (f : string)
| EAddr (l : label)
| EFlush
| EWord (z : Z)
| EAscii (b : list Z)
| EData.

(** asm.go:199-211: register operands *)
Definition mdisp (r : reg) (d : Z) : operand := OMem (Mem r None d 0 false true).
Definition mderef (r : reg) : operand := OMem (Mem r None 0 0 false true).
Definition mindex (r i : reg) : operand := OMem (Mem r (Some i) 0 0 false true).

(* ------------------------------------------------------------------------ machine *)

Notation regs := (reg -> Z) (only parsing).
Definition rset (rs : regs) (r : reg) (v : Z) : regs := fun r' => if reg_eqb r r' then v else rs r'.

Definition parent (r : reg8) : reg := match r with al => rax | cl => rcx | dl => rdx end.

Section Machine.
(** The address a label stands for. *)
Variable laddr : label -> Z.

Definition core := (regs * memory * option (Z * Z))%type.

(** Effective address. *)
Definition ea (rs : regs) (m : memop) : Z :=
  word (m_disp m + rs (m_base m) +
        match m_idx m with
        | None => 0
        | Some i => rs i * (if m_scl m <? 2 then 1 else m_scl m)
        end).

(** Immediates of all instructions but movabs are sign extended 32-bit numbers. *)
Definition imm32 (z : Z) : bool := (-2147483648 <=? z) && (z <=? 2147483647).

Definition read (c : core) (o : operand) : option Z :=
  let '(rs, m, _) := c in
  match o with
  | OReg r => Some (rs r)
  | OReg8 r => Some (rs (parent r) mod 256)
  | OImm z => if imm32 z then Some (word z) else None
  | OMem a => if m_deref a && negb (m_indir a) then Some (load m (ea rs a)) else None
  | _ => None
  end.

Definition write (c : core) (o : operand) (v : Z) : option core :=
  let '(rs, m, fl) := c in
  match o with
  | OReg r => Some (rset rs r (word v), m, fl)
  | OMem a => if m_deref a && negb (m_indir a) then Some (rs, store m (ea rs a) v, fl) else None
  | _ => None
  end.

Definition no_flags (c : option core) : option core :=
  match c with Some (rs, m, _) => Some (rs, m, None) | None => None end.

(** Two operand arithmetic: destination := f destination source. *)
Definition arith (c : core) (src dst : operand) (f : Z -> Z -> Z) : option core :=
  match read c src, read c dst with
  | Some s, Some d => no_flags (write c dst (f d s))
  | _, _ => None
  end.

Definition setcc (c : core) (p : Z -> Z -> bool) : option core :=
  let '(rs, m, fl) := c in
  match fl with
  | Some (d, s) => Some (rset rs rax (rs rax / 256 * 256 + (if p d s then 1 else 0)), m, fl)
  | None => None
  end.

Definition push (c : core) (v : Z) : core :=
  let '(rs, m, fl) := c in
  let a := word (rs rsp - 8) in
  (rset rs rsp a, store m a v, fl).

(** The quotient of rdx:rax by a signed divisor; None when it does not exist or
    does not fit (the processor raises a divide error). *)
Definition idiv_quot (rs : regs) (d : Z) : option Z :=
  let q := Z.quot (signed (rs rdx) * W + word (rs rax)) (signed d) in
  if (signed d =? 0) || (q <? - W63) || (W63 <=? q) then None else Some q.

(** Instructions without control transfer. *)
Definition exec (i : inst) (ops : list operand) (c : core) : option core :=
  let '(rs, m, fl) := c in
  match i, ops with
  | movq, [src; dst] => match read c src with Some v => write c dst v | None => None end
  | movb, [OReg8 src; OMem a] =>
      if m_deref a && negb (m_indir a) then Some (rs, store8 m (ea rs a) (rs (parent src)), fl) else None
  | movsbq, [OMem a; OReg dst] =>
      if m_deref a && negb (m_indir a)
      then let b := m (ea rs a) mod 256 in
           Some (rset rs dst (word (if b <? 128 then b else b - 256)), m, fl)
      else None
  | movabs, [OImm z; OReg dst] => Some (rset rs dst (word z), m, fl)
  | movabs, [OAddr l off; OReg dst] => Some (rset rs dst (word (laddr l + off)), m, fl)
  | pushq, [src] => match read c src with Some v => Some (push c v) | None => None end
  | popq, [OReg dst] =>
      Some (rset (rset rs rsp (word (rs rsp + 8))) dst (load m (rs rsp)), m, fl)
  | leaq, [OMem a; OReg dst] =>
      if m_deref a && negb (m_indir a) then Some (rset rs dst (ea rs a), m, fl) else None
  | notq, [OReg dst] => Some (rset rs dst (word (Z.lnot (rs dst))), m, fl)
  | negq, [OReg dst] => Some (rset rs dst (word (- rs dst)), m, None)
  | orq, [src; dst] => arith c src dst Z.lor
  | xorq, [src; dst] => arith c src dst Z.lxor
  | andq, [src; dst] => arith c src dst Z.land
  | addq, [src; dst] => arith c src dst Z.add
  | subq, [src; dst] => arith c src dst Z.sub
  | imulq, [src; dst] => arith c src dst Z.mul
  | cmpq, [src; dst] =>
      match read c src, read c dst with
      | Some s, Some d => Some (rs, m, Some (d, s))
      | _, _ => None
      end
  | setg, [OReg8 al] => setcc c (fun d s => signed s <? signed d)
  | setge, [OReg8 al] => setcc c (fun d s => signed s <=? signed d)
  | setl, [OReg8 al] => setcc c (fun d s => signed d <? signed s)
  | setle, [OReg8 al] => setcc c (fun d s => signed d <=? signed s)
  | sete, [OReg8 al] => setcc c (fun d s => d =? s)
  | shlq, [OImm n; OReg dst] => Some (rset rs dst (w_shl (rs dst) n), m, None)
  | shlq, [OReg8 cl; OReg dst] => Some (rset rs dst (w_shl (rs dst) (rs rcx mod 256)), m, None)
  | sarq, [OImm n; OReg dst] => Some (rset rs dst (w_sar (rs dst) n), m, None)
  | sarq, [OReg8 cl; OReg dst] => Some (rset rs dst (w_sar (rs dst) (rs rcx mod 256)), m, None)
  | cqo, [] => Some (rset rs rdx (if signed (rs rax) <? 0 then W - 1 else 0), m, fl)
  | idivq, [OReg d; OReg rax] =>
      match idiv_quot rs (rs d) with
      | None => None
      | Some q =>
        let r := Z.rem (signed (rs rdx) * W + word (rs rax)) (signed (rs d)) in
        Some (rset (rset rs rax (word q)) rdx (word r), m, None)
      end
  | enter, [OImm n; OImm 0] =>
      let '(rs1, m1, fl1) := push c (rs rbp) in
      let rs2 := rset rs1 rbp (rs1 rsp) in
      if (0 <=? n) && (n <? 65536) then Some (rset rs2 rsp (word (rs2 rsp - n)), m1, fl1) else None
  | leave, [] =>
      Some (rset (rset rs rbp (load m (rs rbp))) rsp (word (rs rbp + 8)), m, fl)
  | _, _ => None
  end.

(** Functions that are called by name but whose code is not in the program (C
    functions, and any function whose code is left abstract): what they do to the
    registers and the memory, and whether they return over the GC word as Clara
    functions do (codegen.go:406-418) or directly. *)
Variable extern : string -> regs * memory -> option (regs * memory).
Variable extern_skips : string -> bool.

(** Addresses of places in the code, as far as they are used: the places after
    calls and the entries of functions.  [place] is their inverse. *)
Variable addr : nat -> Z.
Variable place : Z -> option nat.

Variable P : list event.

Record mstate := MState { pc : nat; mcore : core }.

(** The place of a label and of a function. *)
Definition label_eqb (a b : label) : bool :=
  match a, b with
  | LGen p n, LGen q k =>
      (match p, q with
       | PWhileEnd, PWhileEnd | PWhileStart, PWhileStart | PIfEnd, PIfEnd | PElse, PElse | PExit, PExit => true
       | _, _ => false end) && Nat.eqb n k
  | LIoob, LIoob | LNoGc, LNoGc => true
  | LMap n, LMap k | LLit n, LLit k => Nat.eqb n k
  | LName s, LName t | LSym s, LSym t => String.eqb s t
  | _, _ => false
  end.
Fixpoint find_label_from (i : nat) (p : list event) (l : label) : option nat :=
  match p with
  | [] => None
  | ELabel l' :: t => if label_eqb l l' then Some i else find_label_from (S i) t l
  | _ :: t => find_label_from (S i) t l
  end.
Definition find_label (l : label) : option nat := find_label_from 0 P l.
Fixpoint find_fn_from (i : nat) (p : list event) (f : string) : option nat :=
  match p with
  | [] => None
  | EFn f' :: t => if String.eqb f f' then Some i else find_fn_from (S i) t f
  | _ :: t => find_fn_from (S i) t f
  end.
Definition find_fn (f : string) : option nat := find_fn_from 0 P f.

Definition goto (c : core) (n : option nat) : option mstate :=
  match n with Some p => Some (MState p c) | None => None end.

(** The call of code in the program: push the address after the call. *)
Definition call_code (n : nat) (c : core) (target : option nat) : option mstate :=
  goto (push c (addr (S n))) target.

(** The System V ABI demands an aligned stack at calls. *)
Definition aligned (c : core) : bool := let '(rs, _, _) := c in rs rsp mod 16 =? 0.

Definition call_named (n : nat) (c : core) (f : string) : option mstate :=
  match find_fn f with
  | Some p => call_code n c (Some p)
  | None =>
    let '(rs, m, _) := c in
    match extern f (rs, m) with
    | None => None
    | Some (rs', m') =>
      if extern_skips f then goto (rs', m', None) (place (addr (S n) + 8))
      else Some (MState (S n) (rs', m', None))
    end
  end.

(** The jump target held in an operand "*reg" or "*disp(reg)". *)
Definition target (c : core) (a : memop) : Z :=
  let '(rs, m, _) := c in if m_deref a then load m (ea rs a) else rs (m_base a).

(** One step; None: stuck. *)
Definition step (s : mstate) : option mstate :=
  let '(MState n c) := s in
  let '(rs, m, fl) := c in
  match nth_error P n with
  | None => None
  | Some (ELabel _) | Some (EFn _) | Some EFlush => Some (MState (S n) c)
  | Some (EAddr _) | Some (EWord _) | Some (EAscii _) | Some EData => None
  | Some (EIns i ops) =>
    match i, ops with
    | jmp, [OLab l] => goto c (find_label l)
    | jmp, [OMem a] => if m_indir a then goto c (place (target c a)) else None
    | jne, [OLab l] =>
        match fl with
        | Some (d, s) => if d =? s then Some (MState (S n) c) else goto c (find_label l)
        | None => None
        end
    | jae, [OLab l] =>
        match fl with
        | Some (d, s) => if s <=? d then goto c (find_label l) else Some (MState (S n) c)
        | None => None
        end
    | call, [OFn f] => if aligned c then call_named n c f else None
    | call, [OMem a] =>
        if m_indir a && aligned c then call_code n c (place (target c a)) else None
    | ret, [] =>
        goto (rset rs rsp (word (rs rsp + 8)), m, fl) (place (load m (rs rsp)))
    | _, _ => match exec i ops c with Some c' => Some (MState (S n) c') | None => None end
    end
  end.

(** Any number of steps. *)
Inductive steps : mstate -> mstate -> Prop :=
| steps_refl s : steps s s
| steps_step s s' s'' : step s = Some s' -> steps s' s'' -> steps s s''.

(** The machine raises a divide error by dividing by zero. *)
Definition at_division_by_zero (s : mstate) : Prop :=
  exists d, nth_error P (pc s) = Some (EIns idivq [OReg d; OReg rax]) /\
    let '(rs, _, _) := mcore s in signed (rs d) = 0.

End Machine.
