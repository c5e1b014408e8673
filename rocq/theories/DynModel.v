(** Calls of function values: the functions of the runtime library they go through.
    Every call of a function value is rewritten to a call of invokeDynamic with the value
    as first argument (HoistModel.v, property C60).  The functions below are those of
    install/lib/runtime.clara and install/lib/gc.clara, written as the nodes code
    generation gets: p.f(x) is f(p, x), -8 is one literal (semantic.go:452-457), the
    fields of a struct are offsets and p.deref is the field at offset 0
    (typecheck.go:277-283).  Variables are numbers; so are types, whose numbers are
    chosen here: only their kinds matter. *)
From Coq Require Import ZArith List Bool String Lia.
From Verif Require Import Ints X86 GenModel GenSpec GenWorld.
Import ListNotations.
Open Scope Z_scope.

Definition ty_int : ty := Ty TInteger 1.
Definition ty_bool : ty := Ty TBoolean 2.
Definition ty_pointer : ty := Ty TPointer 3.
Definition ty_nothing : ty := Ty TNothing 4.
Definition ty_function : ty := Ty TFunction 5.
Definition ty_closure : ty := Ty TStruct 6.
Definition ty_env : ty := Ty TStruct 7.

(** runtime.clara:163-178: unsafe is external, without the attribute for raw values *)
Definition unsafe_call (t : ty) (p off : expr) : expr :=
  ECall t (FnInfo true false false TPointer) "unsafe" [p; off; EType t].
Definition own (k : kind) : fninfo := FnInfo false false false k.

(** gc.clara:114 (toRawInt) *)
Definition to_raw_int : fundef := Fun "clara_toRawInt.pointer" [(0%nat, ty_pointer)]
  (BExpr (unsafe_call ty_int (EVar ty_pointer 0) (ELitInt ty_int 0))) TInteger false.
(** gc.clara:121 (inc) *)
Definition inc_pointer : fundef := Fun "clara_inc.pointer.int" [(0%nat, ty_pointer); (1%nat, ty_int)]
  (BExpr (unsafe_call ty_pointer (EVar ty_pointer 0) (EVar ty_int 1))) TPointer false.
(** runtime.clara:128-131 (isClosure) *)
Definition is_closure : fundef := Fun "clara_isClosure.pointer" [(0%nat, ty_pointer)]
  (BBlock [
    SDas 1 ty_int (ECall ty_int (own TInteger) "clara_toRawInt.pointer"
      [EDot ty_pointer (ECall ty_pointer (own TPointer) "clara_inc.pointer.int" [EVar ty_pointer 0; ELitInt ty_int (-8)]) (EOff ty_pointer 0)]);
    SReturn (Some (ECmp ty_bool Eq (EArith ty_int BAnd (EVar ty_int 1) (ELitInt ty_int 2)) (ELitInt ty_int 0)))]) TBoolean false.
(** runtime.clara:117-125 (invokeDynamic); struct closure is runtime.clara:108-111: f at
    offset 0, env at offset 8 *)
Definition dyn_args : list expr := map (EVar ty_int) [1; 2; 3; 4; 5]%nat.
Definition invoke_dynamic : fundef := Fun "clara_invokeDynamic.pointer.int.int.int.int.int"
  ((0%nat, ty_pointer) :: map (fun x => (x, ty_int)) [1; 2; 3; 4; 5]%nat)
  (BBlock [
    SIf [
      (Some (ECall ty_bool (own TBoolean) "clara_isClosure.pointer" [EVar ty_pointer 0]),
       [SDas 6 ty_closure (unsafe_call ty_closure (EVar ty_pointer 0) (ELitInt ty_int 0));
        SExpr (ECallExpr ty_nothing (own TNothing) (EDot ty_function (EVar ty_closure 6) (EOff ty_function 0))
          (EDot ty_env (EVar ty_closure 6) (EOff ty_env 8) :: dyn_args))]);
      (None,
       [SDas 7 ty_function (unsafe_call ty_function (EVar ty_pointer 0) (ELitInt ty_int 0));
        SExpr (ECallVar ty_nothing (own TNothing) 7 dyn_args)])]]) TNothing false.
Definition dyn_functions : list fundef := [to_raw_int; inc_pointer; is_closure; invoke_dynamic].

(** A program with these functions; unsafe adds (codegen.go:359-364). *)
Definition has_dynamic (w : world) : Prop :=
  (forall fd, In fd dyn_functions -> find_fun (w_prog w) (f_name fd) = Some fd) /\
  (forall p i vs h, w_extern w "unsafe" (Some p :: Some i :: vs) h = Some (Some (word (p + ival i)), h)).

(** What tells closures from functions: bit 1 of the int in the word before, which is bit
    2 of that word (runtime.clara:128-131; asm.go:388 and gc.go set it for functions). *)
Definition marked_read_only (h : memory) (p : Z) : bool := Z.testbit (load h (word (p - 8))) 2.
Definition header_in_memory (w : world) (p : Z) : Prop := ok8 (w_heap w) (word (p - 8)) = true.
