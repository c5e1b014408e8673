(** What it takes for the peephole optimiser to preserve behaviour: which registers an
    instruction reads and sets, which moves are left out, and runs in which no register
    is read that a left out move should have set. *)
From Coq Require Import ZArith List Bool String.
From Verif Require Import X86 PeepModel.
Import ListNotations.
Open Scope Z_scope.

(* -------------------------------------------------- registers read and set *)

Definition address_regs (m : memop) : list reg :=
  m_base m :: match m_idx m with Some i => [i] | None => [] end.
(** To read an operand; to write to one. *)
Definition source_regs (o : operand) : list reg :=
  match o with OReg r => [r] | OReg8 r => [parent r] | OMem m => address_regs m | _ => [] end.
Definition target_regs (o : operand) : list reg :=
  match o with OMem m => address_regs m | _ => [] end.

(** Registers read other than by reading the first operand of movq and pushq. *)
Definition other_uses (i : inst) (ops : list operand) : list reg :=
  match i, ops with
  | movq, [_; d] => target_regs d
  | pushq, _ => [rsp]
  | (movb | orq | xorq | andq | addq | subq | imulq | cmpq | idivq), [s; d] =>
      source_regs s ++ source_regs d ++ match i with idivq => [rdx] | _ => [] end
  | (movsbq | leaq), [s; _] => source_regs s
  | popq, _ => [rsp]
  | (notq | negq), [d] => source_regs d
  | (setg | setge | setl | setle | sete), _ => [rax]
  | (shlq | sarq), [s; d] => source_regs s ++ source_regs d
  | cqo, _ => [rax]
  | enter, _ => [rbp; rsp]
  | leave, _ => [rbp]
  | jmp, [s] => source_regs s
  | call, [s] => rsp :: source_regs s
  | ret, _ => [rsp]
  | _, _ => []
  end.
Definition uses (i : inst) (ops : list operand) : list reg :=
  match i, ops with
  | movq, s :: _ | pushq, s :: _ => source_regs s
  | _, _ => []
  end ++ other_uses i ops.

Definition set_reg (o : operand) : list reg := match o with OReg r => [r] | _ => [] end.
(** Registers whose value afterwards depends only on what the instruction reads. *)
Definition sets (i : inst) (ops : list operand) : list reg :=
  match i, ops with
  | (movq | movsbq | movabs | leaq | orq | xorq | andq | addq | subq | imulq | shlq | sarq), [_; d] => set_reg d
  | pushq, _ => [rsp]
  | popq, [d] => rsp :: set_reg d
  | (notq | negq), [d] => set_reg d
  | (setg | setge | setl | setle | sete), _ => [rax]
  | cqo, _ => [rdx]
  | idivq, _ => [rax; rdx]
  | enter, _ => [rbp; rsp]
  | leave, _ => [rbp; rsp]
  | call, _ => [rsp]
  | ret, _ => [rsp]
  | _, _ => []
  end.

(** Registers that must hold the right value.  A move between registers passes on a wrong
    value as well. *)
Definition needs (i : inst) (ops : list operand) : list reg :=
  match i, ops with movq, [OReg _; OReg _] => [] | _, _ => uses i ops end.
(** Which registers hold a wrong value afterwards, if those in [D] did before. *)
Definition settled (D : reg -> bool) (i : inst) (ops : list operand) : reg -> bool := fun r =>
  match i, ops with
  | movq, [OReg a; OReg d] => if reg_eqb r d then D a else D r
  | _, _ => if existsb (reg_eqb r) (sets i ops) then false else D r
  end.

(* -------------------------------------------------- what is left out, and where *)

(** For every place of the program: the register that is not set because the instruction
    there is written together with the one before it, and its place in the output. *)
Definition held_size (h : option (inst * list operand)) : nat := match h with Some _ => 1 | None => 0 end.
Definition target_reg (h : option (inst * list operand)) : option reg :=
  match h with Some (_, [_; OReg r]) => Some r | _ => None end.
Fixpoint spots (h : option (inst * list operand)) (k : nat) (P : list event) : list (option (option reg) * nat) :=
  match P with
  | [] => []
  | EIns i ops :: t =>
    match merged h i ops with
    | Some new => (Some (target_reg h), k) :: spots (Some new) k t
    | None => (None, (k + held_size h)%nat) :: spots (Some (i, ops)) (k + held_size h) t
    end
  | _ :: t => (None, (k + held_size h)%nat) :: spots None (S (k + held_size h)) t
  end.
Definition joined (P : list event) (n : nat) : bool :=
  match nth_error (spots None 0 P) n with Some (Some _, _) => true | _ => false end.
Definition dropped (P : list event) (n : nat) : option reg :=
  match nth_error (spots None 0 P) n with Some (Some o, _) => o | _ => None end.
Definition new_place (P : list event) (n : nat) : nat :=
  match nth_error (spots None 0 P) n with Some (_, k) => k | None => List.length (optimise P) end.
(** The place that an instruction of the output comes from; the first if several. *)
Definition old_place (P : list event) (k : nat) : option nat :=
  find (fun n => Nat.eqb (new_place P n) k && negb (joined P n)) (List.seq 0 (List.length P)).

(** The last instruction is followed by something that is not one, so that it is
    written. *)
Definition all_written (P : list event) : Prop :=
  forall n i ops, nth_error P n = Some (EIns i ops) -> (S n < List.length P)%nat.

(* -------------------------------------------------------------------- careful runs *)

Section Runs.
Variable laddr : label -> Z.
Variable extern : string -> (reg -> Z) * (Z -> Z) -> option ((reg -> Z) * (Z -> Z)).
Variable extern_skips : string -> bool.
Variable addr : nat -> Z.
Variable place : Z -> option nat.
(** The registers an external function may read, and those it leaves in a state that
    depends only on them and the memory. *)
Variable takes gives : string -> list reg.
Variable P : list event.

(** Registers read at place [n], other than to be copied. *)
Definition uses_at (n : nat) : list reg :=
  match nth_error P n with
  | Some (EIns call [OFn f]) => rsp :: match find_fn P f with Some _ => [] | None => takes f end
  | Some (EIns i ops) => needs i ops
  | _ => []
  end.
(** [D] tells which registers a left out move should have set.  None of them is read. *)
Definition careful (D : reg -> bool) (n : nat) : Prop :=
  (forall r, In r (uses_at n) -> D r = false) /\
  forall r i ops, dropped P n = Some r -> nth_error P n = Some (EIns i ops) -> ~ In r (other_uses i ops).
Definition mem_reg (r : reg) (l : list reg) : bool := existsb (reg_eqb r) l.
Definition after (D : reg -> bool) (n : nat) : reg -> bool := fun r =>
  match nth_error P n with
  | Some (EIns i ops) =>
    match dropped P n with
    | Some r' => if reg_eqb r r' then true else settled D i ops r
    | None =>
      match i, ops with
      | call, [OFn f] =>
        match find_fn P f with
        | Some _ => if reg_eqb r rsp then false else D r
        | None => negb (mem_reg r (gives f))
        end
      | _, _ => settled D i ops r
      end
    end
  | _ => D r
  end.
Inductive careful_run : mstate -> (reg -> bool) -> mstate -> (reg -> bool) -> Prop :=
| careful_end : forall s D, careful_run s D s D
| careful_more : forall s D s1 s2 D2, careful D (pc s) ->
    step laddr extern extern_skips addr place P s = Some s1 ->
    careful_run s1 (after D (pc s)) s2 D2 -> careful_run s D s2 D2.
End Runs.

(** Equal but for the registers in [D]. *)
Definition same_but (D : reg -> bool) (c1 c2 : core) : Prop :=
  let '(rs1, m1, f1) := c1 in
  let '(rs2, m2, f2) := c2 in
  (forall r, D r = false -> rs1 r = rs2 r) /\ (forall a, m1 a = m2 a) /\ f1 = f2.
(** External functions depend only on what they take. *)
Definition extern_fair (takes gives : string -> list reg)
  (extern : string -> (reg -> Z) * (Z -> Z) -> option ((reg -> Z) * (Z -> Z))) : Prop :=
  forall f rs1 m1 rs2 m2, (forall r, In r (rsp :: takes f) -> rs1 r = rs2 r) -> (forall a, m1 a = m2 a) ->
  match extern f (rs1, m1), extern f (rs2, m2) with
  | Some (rs1', m1'), Some (rs2', m2') => (forall r, In r (gives f) -> rs1' r = rs2' r) /\ forall a, m1' a = m2' a
  | None, None => True
  | _, _ => False
  end.
