(** What the GC maps of a function are to list, independently of how gc.go finds it:
    the ways through a function body with the variables in scope that have been
    assigned. *)
From Coq Require Import ZArith List Bool.
From Verif Require Import X86 GenModel.
Import ListNotations.
Local Open Scope nat_scope.

(** The calls in an expression that are followed by a GC map: all but those of external
    functions. *)
Fixpoint calls (e : expr) : nat :=
  let fix sum (l : list expr) : nat := match l with [] => 0 | a :: r => calls a + sum r end in
  match e with
  | ELogic _ _ l r | EArith _ _ l r | ECmp _ _ l r | EShift _ _ l r | EDot _ l r | EIndex _ l r => calls l + calls r
  | ENot _ a | EBNot _ a | ENeg _ a | EArrayLit _ a => calls a
  | ECond _ c a b => calls c + calls a + calls b
  | ECall _ fi _ args | ECallVar _ fi _ args => sum args + (if fi_external fi then 0 else 1)
  | ECallExpr _ fi e1 args => calls e1 + (sum args + (if fi_external fi then 0 else 1))
  | _ => 0
  end.
Fixpoint args_calls (l : list expr) : nat := match l with [] => 0 | a :: r => calls a + args_calls r end.
Definition option_calls (e : option expr) : nat := match e with Some e => calls e | None => 0 end.

(** Calls of statements, counted in the order of the text. *)
Fixpoint stmt_calls (st : stmt) : nat :=
  let fix list_calls (l : list stmt) : nat := match l with [] => 0 | st :: r => stmt_calls st + list_calls r end in
  let fix branches_calls (bs : list (option expr * list stmt)) : nat :=
    match bs with [] => 0 | (c, b) :: r => option_calls c + list_calls b + branches_calls r end in
  match st with
  | SReturn e => option_calls e
  | SIf bs => branches_calls bs
  | SDas _ _ e => calls e
  | SAs l e => calls e + calls l
  | SWhile c b => calls c + list_calls b
  | SBlock b => list_calls b
  | SExpr e => calls e
  end.
Fixpoint list_calls (l : list stmt) : nat := match l with [] => 0 | st :: r => stmt_calls st + list_calls r end.

(** Variables in scope that have been assigned. *)
Notation vars := (list (nat * ty)) (only parsing).
Definition assigned (x : nat) (t : ty) (A : vars) : vars :=
  if existsb (Nat.eqb x) (map fst A) then A else (x, t) :: A.

(** [k] calls from the [n]-th on. *)
Definition at_calls (n k : nat) (A : vars) : list (nat * vars) := map (fun i => (i, A)) (List.seq n k).
(** At the end of a block, what was declared in it goes out of scope; None: returned. *)
Definition leave_block (A : vars) (r : option vars) : option vars := match r with Some _ => Some A | None => None end.

(** [run n A st tr r]: a way through the statement [st], whose first call is the [n]-th
    of the function, when [A] are the variables assigned; [tr] lists the calls met with
    the variables then in scope and assigned, [r] is what is assigned at the end.  Any
    condition may go either way; calls in an expression are all listed. *)
Inductive run : nat -> vars -> stmt -> list (nat * vars) -> option vars -> Prop :=
| run_return : forall n A e, run n A (SReturn e) (at_calls n (option_calls e) A) None
| run_das : forall n A x t e, run n A (SDas x t e) (at_calls n (calls e) A) (Some ((x, t) :: A))
| run_as : forall n A l e, run n A (SAs l e) (at_calls n (calls e + calls l) A)
    (Some (match l with EVar t x => assigned x t A | _ => A end))
| run_expr : forall n A e, run n A (SExpr e) (at_calls n (calls e) A) (Some A)
| run_block : forall n A b tr r, run_list n A b tr r -> run n A (SBlock b) tr (leave_block A r)
| run_while_end : forall n A c b, run n A (SWhile c b) (at_calls n (calls c) A) (Some A)
| run_while_return : forall n A c b tr, run_list (n + calls c) A b tr None ->
    run n A (SWhile c b) (at_calls n (calls c) A ++ tr) None
| run_while_again : forall n A c b tr A' tr' r, run_list (n + calls c) A b tr (Some A') -> run n A (SWhile c b) tr' r ->
    run n A (SWhile c b) (at_calls n (calls c) A ++ tr ++ tr') r
| run_if : forall n A bs tr r, run_branches n A bs tr r -> run n A (SIf bs) tr r
with run_list : nat -> vars -> list stmt -> list (nat * vars) -> option vars -> Prop :=
| run_end : forall n A, run_list n A [] [] (Some A)
| run_stop : forall n A st l tr, run n A st tr None -> run_list n A (st :: l) tr None
| run_next : forall n A st l tr A' tr' r, run n A st tr (Some A') -> run_list (n + stmt_calls st) A' l tr' r ->
    run_list n A (st :: l) (tr ++ tr') r
with run_branches : nat -> vars -> list (option expr * list stmt) -> list (nat * vars) -> option vars -> Prop :=
| run_none : forall n A, run_branches n A [] [] (Some A)
| run_then : forall n A c b bs tr r, run_list (n + calls c) A b tr r ->
    run_branches n A ((Some c, b) :: bs) (at_calls n (calls c) A ++ tr) (leave_block A r)
| run_skip : forall n A c b bs tr r, run_branches (n + calls c + list_calls b) A bs tr r ->
    run_branches n A ((Some c, b) :: bs) (at_calls n (calls c) A ++ tr) r
| run_else : forall n A b bs tr r, run_list n A b tr r ->
    run_branches n A ((None, b) :: bs) tr (leave_block A r).

(** The [n]-th call of a function can be met with [A] the variables in scope that have
    been assigned. *)
Definition reaches (f : fundef) (n : nat) (A : vars) : Prop :=
  match f_body f with
  | BBlock l => exists tr r, run_list 0 (f_params f) l tr r /\ In (n, A) tr
  | BExpr e => (n < calls e)%nat /\ A = f_params f
  | BCons _ _ _ => n = 0%nat /\ A = f_params f
  end.

(** A GC map as the collector reads it (gc.clara): after the label the number of
    entries, then the entries, all tagged; an entry counts words below the frame
    pointer.  [LNoGc] is the empty map. *)
Fixpoint words_at (c : list event) : list Z := match c with EWord w :: r => w :: words_at r | _ => [] end.
Fixpoint at_label (c : list event) (i : nat) : option (list event) :=
  match c with
  | [] => None
  | ELabel (LMap j) :: r => if Nat.eqb i j then Some r else at_label r i
  | _ :: r => at_label r i
  end.
Definition read_map (c : list event) (i : nat) : option (list Z) :=
  match option_map words_at (at_label c i) with
  | Some (n :: ws) => Some (map (fun w => w / 2)%Z (firstn (Z.to_nat (n / 2)) ws))
  | _ => None
  end.
(** The maps at the calls of the code [cf], read in the code [c]. *)
Definition call_maps (c cf : list event) : list (option (list Z)) :=
  flat_map (fun e => match e with EAddr LNoGc => [Some []] | EAddr (LMap i) => [read_map c i] | _ => [] end) cf.

(** Every variable assigned by = has been declared by := before, in scope. *)
Definition declares (D : list nat) (st : stmt) : list nat := match st with SDas x _ _ => x :: D | _ => D end.
Fixpoint declared_first (D : list nat) (st : stmt) {struct st} : Prop :=
  let fix in_list (D : list nat) (l : list stmt) {struct l} : Prop :=
    match l with [] => True | st :: r => declared_first D st /\ in_list (declares D st) r end in
  let fix in_branches (bs : list (option expr * list stmt)) : Prop :=
    match bs with [] => True | (_, b) :: r => in_list D b /\ in_branches r end in
  match st with
  | SAs (EVar _ x) _ => In x D
  | SIf bs => in_branches bs
  | SWhile _ b | SBlock b => in_list D b
  | _ => True
  end.
Fixpoint declared_list (D : list nat) (l : list stmt) : Prop :=
  match l with [] => True | st :: r => declared_first D st /\ declared_list (declares D st) r end.

(** Types whose values are addresses of objects in the heap (TParameter: may be). *)
Definition object (t : ty) : bool :=
  match ty_kind t with TInteger | TBoolean | TNothing | TPointer => false | _ => true end.

(** In a block inside the function's body, no pointer is declared before a block. *)
Definition declares_pointer (st : stmt) : bool := match st with SDas _ t _ => object t | _ => false end.
Definition has_block (st : stmt) : bool := match st with SIf _ | SWhile _ _ | SBlock _ => true | _ => false end.
Fixpoint blocks_first (l : list stmt) : Prop :=
  match l with [] => True | st :: r => (declares_pointer st = true -> forallb (fun s => negb (has_block s)) r = true) /\ blocks_first r end.
Fixpoint shallow (st : stmt) : Prop :=
  let fix all (l : list stmt) : Prop := match l with [] => True | st :: r => shallow st /\ all r end in
  let fix all_branches (bs : list (option expr * list stmt)) : Prop :=
    match bs with [] => True | (_, b) :: r => blocks_first b /\ all b /\ all_branches r end in
  match st with
  | SIf bs => all_branches bs
  | SWhile _ b | SBlock b => blocks_first b /\ all b
  | _ => True
  end.
Fixpoint shallow_list (l : list stmt) : Prop := match l with [] => True | st :: r => shallow st /\ shallow_list r end.
Definition body_list (b : body) : list stmt := match b with BBlock l => l | _ => [] end.
