(** A loaded program, in one record: what the claims about generated code are about. *)
From Coq Require Import ZArith List Bool String.
From Verif Require Import X86 GenModel GenSpec.
Import ListNotations.
Open Scope Z_scope.

Record world := World {
  w_laddr : label -> Z;                   (* addresses of labels *)
  w_ext : string -> regs * memory -> option (regs * memory);   (* functions not in the file *)
  w_skips : string -> bool;
  w_addr : nat -> Z;                      (* addresses of places in the code *)
  w_place : Z -> option nat;
  w_code : list event;                    (* the file *)
  w_heap : Z -> bool;                     (* memory programs may touch *)
  w_lit : list Z -> Z;                    (* addresses of string literals and functions *)
  w_fun_addr : string -> Z;
  w_fun_at : Z -> option string;
  w_extern : string -> list value -> memory -> option (value * memory);
  w_abstract : string -> list value -> memory -> option (value * memory);
  w_alloc : string;
  w_prog : list fundef;                   (* the functions *)
  w_lits : list (list Z);
  w_lo : Z; w_hi : Z;                     (* the stack *)
  w_room : Z;                             (* stack for functions not in [w_prog] *)
  w_frame : Z                             (* stack for one activation *)
}.

(** It is loaded as it should be, and its functions meet the conditions of GenSpec.v. *)
Definition loaded (w : world) : Prop :=
  linked (w_laddr w) (w_ext w) (w_skips w) (w_addr w) (w_place w) (w_code w) (w_heap w) (w_lit w) (w_fun_addr w)
    (w_fun_at w) (w_extern w) (w_abstract w) (w_alloc w) (w_prog w) (w_lits w) (w_lo w) (w_hi w) (w_room w) /\
  0 <= w_frame w /\
  forall fd, In fd (w_prog w) -> safe_fun fd = true /\ frame_bytes fd <= w_frame w.

(** The machine. *)
Definition runs (w : world) : mstate -> mstate -> Prop :=
  steps (w_laddr w) (w_ext w) (w_skips w) (w_addr w) (w_place w) (w_code w).
Definition one_step (w : world) : mstate -> option mstate :=
  step (w_laddr w) (w_ext w) (w_skips w) (w_addr w) (w_place w) (w_code w).

(** The language. *)
Definition ev (w : world) := eval (w_heap w) (w_lit w) (w_fun_addr w) (w_fun_at w) (w_extern w) (w_abstract w) (w_alloc w) (w_prog w).
Definition ev_args (w : world) := eval_args (w_heap w) (w_lit w) (w_fun_addr w) (w_fun_at w) (w_extern w) (w_abstract w) (w_alloc w) (w_prog w).
Definition ev_call (w : world) := call_fun (w_heap w) (w_lit w) (w_fun_addr w) (w_fun_at w) (w_extern w) (w_abstract w) (w_alloc w) (w_prog w).
Definition ev_fun (w : world) := run_fun (w_heap w) (w_lit w) (w_fun_addr w) (w_fun_at w) (w_extern w) (w_abstract w) (w_alloc w) (w_prog w).
Definition ev_list (w : world) := exec_list (w_heap w) (w_lit w) (w_fun_addr w) (w_fun_at w) (w_extern w) (w_abstract w) (w_alloc w) (w_prog w).

(** The string literals met so far are those of the program. *)
Definition lits_in (w : world) (s : gst) : Prop :=
  forall k x, nth_error (g_lits s) k = Some x -> nth_error (w_lits w) k = Some x.
(** The state in the middle of a function: frame pointer [B], [T] words of variables,
    [sp] words in use, arguments [us] already passed, variables [r], memory [h]. *)
Definition inside (w : world) := inv (w_heap w) (w_lo w) (w_hi w).
(** Stack left for [d] nested calls and [p] words. *)
Definition stack_left (w : world) (d : nat) (p : Z) (rs : regs) : Prop :=
  w_lo w + w_room w + Z.of_nat d * w_frame w + 8 * p <= rs rsp.
(** The caller's part of the stack, from [R] on, is unchanged. *)
Definition stack_kept (w : world) (R : Z) (m m' : memory) : Prop := forall a, R <= a < w_hi w -> m' a = m a.
(** The machine ends as the evaluation does. *)
Definition behaves (w : world) {A} (st : mstate) (r : res A) (Q : A -> mstate -> Prop) : Prop :=
  ends (w_code w) (runs w) (w_heap w) st r Q.
(** How many argument registers are in use where an expression is compiled. *)
Definition regs_in_use (s : gst) : nat := List.length (hd [] (g_reg s)).
(** The code that reports bad indices (codegen.go:420-431) is where its label is. *)
Definition reports_bad_index (w : world) (ioob : string) : Prop :=
  exists p, find_label (w_code w) LIoob = Some p /\
    code_at (w_code w) p
      [ELabel LIoob; EIns andq [OImm (-16); OReg rsp]; EIns movq [OReg rbx; OReg rdi]; EIns shlq [OImm 1; OReg rdi];
       EIns orq [OImm 1; OReg rdi]; EIns movq [mderef rax; OReg rsi]; EIns call [OFn ioob]].
(** About to run the body of a function called with [vs]: the place is that after the
    prologue, and each parameter's slot holds the argument. *)
Definition in_body (w : world) (fd : fundef) (vs : list value) (st : mstate) : Prop :=
  exists k rs m fl, nth_error (w_code w) k = Some (EFn (f_name fd)) /\
    st = MState (k + 2 + List.length (f_params fd)) (rs, m, fl) /\
    forall i x t v, nth_error (f_params fd) i = Some (x, t) -> nth_error vs i = Some (Some v) ->
      load m (rs rbp - 8 * (Z.of_nat i + 1)) = v.
