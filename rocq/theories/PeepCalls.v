(** Calls and returns of generated code: how many arguments a call passes and whether
    its value is used; runs in which functions return to where they were called from;
    programs whose calls fit the functions. *)
From Coq Require Import ZArith List Bool String.
From Verif Require Import X86 GenModel GenProgram PeepModel PeepSpec.
Import ListNotations.
Open Scope Z_scope.

(** A call instruction: the number of arguments passed in registers, and whether the code
    after it uses the value returned. *)
Record site := Site { s_args : nat; s_wants : bool }.

Definition is_call (e : event) : bool := match e with EIns call _ => true | _ => false end.
(** The call at place [n]; [sites] are the calls of the whole program in order. *)
Definition site_at (sites : list site) (P : list event) (n : nat) : option site :=
  nth_error sites (List.length (filter is_call (firstn n P))).

(** The number of parameters of a function and whether it returns a value. *)
Definition signature := (nat * bool)%type.
Definition serves (g : signature) (c : site) : Prop :=
  (fst g <= s_args c)%nat /\ (s_wants c = true -> snd g = true).

(** Whether the value that a function is about to return is used: by the call it returns
    to or, if none is left, because the function run first returns a value. *)
Definition used_value (sites : list site) (top : bool) (P : list event) (calls : list nat) : bool :=
  match calls with
  | [] => top
  | n :: _ => match site_at sites P n with Some c => s_wants c | None => false end
  end.
(** Registers that matter at place [n]: those read next, a function's arguments at its
    start, the value where it returns. *)
Definition matters (sites : list site) (sig : string -> signature) (takes : string -> list reg) (top : bool) (P : list event)
  (n : nat) (calls : list nat) : list reg :=
  uses_at takes P n ++
  match nth_error P n with
  | Some (EFn f) => rsp :: rbp :: firstn (fst (sig f)) arg_regs
  | Some (EIns ret []) | Some (EIns jmp [OMem _]) => if used_value sites top P calls then [rax] else []
  | _ => []
  end.

Section Runs.
Variable laddr : label -> Z.
Variable extern : string -> (reg -> Z) * (Z -> Z) -> option ((reg -> Z) * (Z -> Z)).
Variable extern_skips : string -> bool.
Variable addr : nat -> Z.
Variable place : Z -> option nat.
Variable sites : list site.
Variable sig : string -> signature.
Variable P : list event.

(** What a step does to the stack of calls that have not returned.  Only calls and
    returns through computed addresses are restricted: a call enters a function that it
    fits; a function returns to its call, after the word with the address of the GC map
    unless it is left by ret. *)
Definition keeps (s : mstate) (calls : list nat) (s1 : mstate) (calls1 : list nat) : Prop :=
  match nth_error P (pc s) with
  | Some (EIns call [OFn f]) =>
    match find_fn P f with
    | Some _ => calls1 = pc s :: calls
    | None => calls1 = calls /\
        (extern_skips f = true -> pc s1 = S (S (pc s)) /\ exists l, nth_error P (S (pc s)) = Some (EAddr l))
    end
  | Some (EIns call [OMem _]) =>
      calls1 = pc s :: calls /\
      exists g c, nth_error P (pc s1) = Some (EFn g) /\ site_at sites P (pc s) = Some c /\ serves (sig g) c
  | Some (EIns jmp [OMem _]) =>
      exists n, calls = n :: calls1 /\ pc s1 = S (S n) /\ exists l, nth_error P (S n) = Some (EAddr l)
  | Some (EIns ret []) => exists n, calls = n :: calls1 /\ pc s1 = S n
  | _ => calls1 = calls
  end.
Inductive proper_run : mstate -> list nat -> mstate -> list nat -> Prop :=
| proper_end : forall s calls, proper_run s calls s calls
| proper_more : forall s calls s1 calls1 s2 calls2,
    step laddr extern extern_skips addr place P s = Some s1 -> keeps s calls s1 calls1 ->
    proper_run s1 calls1 s2 calls2 -> proper_run s calls s2 calls2.
End Runs.

(* ------------------------------------------------------------------------- programs *)

(** Expressions that compute a value; the others are types and calls of functions that
    return nothing. *)
Fixpoint yields (e : expr) : bool :=
  match e with
  | ECond _ _ a b => yields a && yields b
  | EArrayLit _ e1 => yields e1
  | EType _ => false
  | ECall t _ _ _ | ECallVar t _ _ _ | ECallExpr t _ _ _ => negb (kind_eqb (ty_kind t) TNothing)
  | _ => true
  end.
(** Arguments before the first one that is no value. *)
Fixpoint passed (args : list expr) : nat :=
  match args with [] => 0 | a :: r => if yields a then S (passed r) else 0 end.
Definition own_site (t : ty) (args : list expr) : site := Site (passed args) (negb (kind_eqb (ty_kind t) TNothing)).
(** The calls of an expression in the order of their code. *)
Fixpoint expr_sites (e : expr) : list site :=
  let fix args_sites (l : list expr) : list site :=
    match l with [] => [] | a :: r => expr_sites a ++ args_sites r end in
  match e with
  | ELogic _ _ l r | EArith _ _ l r | ECmp _ _ l r | EShift _ _ l r | EDot _ l r | EIndex _ l r =>
      expr_sites l ++ expr_sites r
  | ENot _ a | EBNot _ a | ENeg _ a | EArrayLit _ a => expr_sites a
  | ECond _ c a b => expr_sites c ++ expr_sites a ++ expr_sites b
  | ECall t _ _ args | ECallVar t _ _ args => args_sites args ++ [own_site t args]
  | ECallExpr t _ e1 args => expr_sites e1 ++ args_sites args ++ [own_site t args]
  | _ => []
  end.
Fixpoint args_sites (l : list expr) : list site :=
  match l with [] => [] | a :: r => expr_sites a ++ args_sites r end.
Fixpoint stmt_sites (st : stmt) : list site :=
  let fix list_sites (l : list stmt) : list site :=
    match l with [] => [] | s :: r => stmt_sites s ++ list_sites r end in
  let fix branches_sites (bs : list (option expr * list stmt)) : list site :=
    match bs with
    | [] => []
    | (c, b) :: r => (match c with Some e => expr_sites e | None => [] end) ++ list_sites b ++ branches_sites r
    end in
  match st with
  | SReturn (Some e) => expr_sites e
  | SReturn None => []
  | SIf bs => branches_sites bs
  | SDas _ _ e => expr_sites e
  | SAs l e => expr_sites e ++ expr_sites l
  | SWhile c b => expr_sites c ++ list_sites b
  | SBlock b => list_sites b
  | SExpr e => expr_sites e
  end.
Fixpoint list_sites (l : list stmt) : list site :=
  match l with [] => [] | s :: r => stmt_sites s ++ list_sites r end.
Fixpoint branches_sites (bs : list (option expr * list stmt)) : list site :=
  match bs with
  | [] => []
  | (c, b) :: r => (match c with Some e => expr_sites e | None => [] end) ++ list_sites b ++ branches_sites r
  end.
Definition body_sites (b : body) : list site :=
  match b with BBlock l => list_sites l | BExpr e => expr_sites e | BCons _ _ _ => [Site 3 true] end.
(** The functions, then the call of the routine for indexes out of bounds and that of the
    program's entry point. *)
Definition program_sites (fs : list fundef) : list site :=
  flat_map (fun f => body_sites (f_body f)) fs ++ [Site 2 false; Site 3 false].

(** What functions take and whether they return a value.  The routines are those of
    codegen.go:124-146. *)
Definition routine_sigs : list (string * signature) :=
  [("readByte", (2%nat, true)); ("readInt", (2%nat, true)); ("writeByte", (3%nat, true)); ("writeInt", (3%nat, true));
   ("getFramePointer", (0%nat, true)); ("unsafe", (2%nat, true)); ("toTaggedInt", (1%nat, true)); ("toUntaggedInt", (1%nat, true));
   ("clara_asm_entrypoint", (3%nat, false)); ("typeInfoTable", (0%nat, true))]%string.
Definition fun_sig (f : fundef) : string * signature :=
  (f_name f, (List.length (f_params f), negb (kind_eqb (f_ret f) TNothing))).
Fixpoint lookup (l : list (string * signature)) (f : string) : option signature :=
  match l with [] => None | (g, x) :: r => if String.eqb f g then Some x else lookup r f end.
Definition program_sigs (fs : list fundef) : list (string * signature) := map fun_sig fs ++ routine_sigs.
Definition program_sig (fs : list fundef) (f : string) : signature :=
  match lookup (program_sigs fs) f with Some x => x | None => (0%nat, false) end.

Section Sound.
Variable takes gives : string -> list reg.
Variable fs : list fundef.

(** A call of a function of the program fits it.  An external function takes only
    registers that the call sets, leaves rsp and rbp as they are and returns a value
    if one is used. *)
Definition callable (f : string) (c : site) (variadic : bool) : Prop :=
  match lookup (program_sigs fs) f with
  | Some g => serves g c
  | None => incl (takes f) (rsp :: rbp :: firstn (s_args c) arg_regs ++ if variadic then [rax] else []) /\
      incl (rsp :: rbp :: if s_wants c then [rax] else []) (gives f)
  end.

(** Values are used where there are some; types are passed as the last arguments. *)
Definition is_type (e : expr) : bool := match e with EType _ => true | _ => false end.
Definition raw_ok (t : ty) (fi : fninfo) : Prop :=
  fi_external fi && fi_raw fi && kind_eqb (fi_ret fi) TInteger = true -> kind_eqb (ty_kind t) TNothing = false.
Fixpoint sound (e : expr) : Prop :=
  let fix sound_args (raw : bool) (l : list expr) : Prop :=
    match l with
    | [] => True
    | a :: r => if yields a then sound a /\ sound_args raw r else raw = false /\ forallb is_type (a :: r) = true
    end in
  match e with
  | ELogic _ _ l r | EArith _ _ l r | ECmp _ _ l r | EShift _ _ l r | EDot _ l r | EIndex _ l r =>
      yields l = true /\ yields r = true /\ sound l /\ sound r
  | ENot _ a | EBNot _ a | ENeg _ a => yields a = true /\ sound a
  | EArrayLit _ a => sound a
  | ECond _ c a b => yields c = true /\ sound c /\ sound a /\ sound b
  | ECall t fi f args =>
      sound_args (fi_external fi && fi_raw fi) args /\ raw_ok t fi /\ callable f (own_site t args) (fi_variadic fi)
  | ECallVar t fi _ args => sound_args (fi_external fi && fi_raw fi) args /\ raw_ok t fi
  | ECallExpr t fi e1 args =>
      yields e1 = true /\ sound e1 /\ sound_args (fi_external fi && fi_raw fi) args /\ raw_ok t fi
  | _ => True
  end.
Fixpoint sound_args (raw : bool) (l : list expr) : Prop :=
  match l with
  | [] => True
  | a :: r => if yields a then sound a /\ sound_args raw r else raw = false /\ forallb is_type (a :: r) = true
  end.
Section Stmts.
(** The function returns a value. *)
Variable v : bool.
Fixpoint sound_stmt (st : stmt) : Prop :=
  let fix sound_list (l : list stmt) : Prop :=
    match l with [] => True | s :: r => sound_stmt s /\ sound_list r end in
  let fix sound_branches (bs : list (option expr * list stmt)) : Prop :=
    match bs with
    | [] => True
    | (c, b) :: r => (match c with Some e => yields e = true /\ sound e | None => True end) /\ sound_list b /\ sound_branches r
    end in
  match st with
  | SReturn (Some e) => sound e /\ (v = true -> yields e = true)
  | SReturn None => v = false
  | SIf bs => sound_branches bs
  | SDas _ _ e => yields e = true /\ sound e
  | SAs l e => yields l = true /\ sound l /\ yields e = true /\ sound e
  | SWhile c b => yields c = true /\ sound c /\ sound_list b
  | SBlock b => sound_list b
  | SExpr e => sound e
  end.
Fixpoint sound_list (l : list stmt) : Prop :=
  match l with [] => True | s :: r => sound_stmt s /\ sound_list r end.
Fixpoint sound_branches (bs : list (option expr * list stmt)) : Prop :=
  match bs with
  | [] => True
  | (c, b) :: r => (match c with Some e => yields e = true /\ sound e | None => True end) /\ sound_list b /\ sound_branches r
  end.
End Stmts.
Definition sound_fn (alloc : string) (f : fundef) : Prop :=
  let v := negb (kind_eqb (f_ret f) TNothing) in
  match f_body f with
  | BBlock l => sound_list v l
  | BExpr e => sound e /\ (v = true -> yields e = true)
  | BCons _ _ _ => callable alloc (Site 3 true) false
  end.
Definition sound_program (alloc ioob entry : string) : Prop :=
  Forall (sound_fn alloc) fs /\ NoDup (map fst (program_sigs fs)) /\
  callable ioob (Site 2 false) false /\ callable entry (Site 3 false) false.
End Sound.
