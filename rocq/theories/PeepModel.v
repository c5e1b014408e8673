(** Model of the peephole optimiser (/repo/peep.go), which stands between the code
    generator and the assembly writer. *)
From Coq Require Import ZArith List Bool.
From Verif Require Import X86.
Import ListNotations.

(** peep.go:4-8 (peep): the instruction held back, if any. *)
Notation held := (option (inst * list operand)) (only parsing).

(** peep.go:43-47 (regMatches); both kinds of registers are of type reg there. *)
Definition reg8_eqb (a b : reg8) : bool :=
  match a, b with al, al | cl, cl | dl, dl => true | _, _ => false end.
Definition reg_matches (o1 o2 : operand) : bool :=
  match o1, o2 with
  | OReg a, OReg b => reg_eqb a b
  | OReg8 a, OReg8 b => reg8_eqb a b
  | _, _ => false
  end.
(** peep.go:49-52 (mem) *)
Definition is_mem (o : operand) : bool := match o with OMem _ => true | _ => false end.

(** peep.go:35-41 (write) *)
Definition written (h : held) : list event :=
  match h with Some (i, ops) => [EIns i ops] | None => [] end.

(** peep.go:14-28: the instruction that replaces the one held back and the new one.  (The
    new one's operand is indexed only if the first conditions hold; movq has two and
    pushq one operand wherever they are written.) *)
Definition merged (h : held) (i : inst) (ops : list operand) : held :=
  match h, i, ops with
  | Some (movq, [a; b]), movq, [a'; b'] =>
      if reg_matches b a' && negb (is_mem a && is_mem b') then Some (movq, [a; b']) else None
  | Some (movq, [a; b]), pushq, [a'] => if reg_matches b a' then Some (pushq, [a]) else None
  | _, _, _ => None
  end.

(** peep.go:14-33, 54-66: everything written through the optimiser.  Each method but ins
    writes the instruction held back first; flush and taggedInt do not, but taggedInt is
    called on the optimiser itself only right after a label (codegen.go:390) and flush at
    the end (codegen.go:149), where nothing is held back.  What is still held back at the
    end is never written. *)
Fixpoint peep (h : held) (P : list event) : list event :=
  match P with
  | [] => []
  | EIns i ops :: t =>
    match merged h i ops with
    | Some new => peep (Some new) t
    | None => written h ++ peep (Some (i, ops)) t
    end
  | e :: t => written h ++ e :: peep None t
  end.
Definition optimise (P : list event) : list event := peep None P.
