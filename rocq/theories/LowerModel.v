(** Model of the passes between type checking and code generation that replace match
    and for statements (semantic.go:468-512, 528-607), and of the check for missing
    returns (ast.go:69-128, semantic.go:393-397). *)
From Coq Require Import ZArith List Bool String.
From Verif Require Import X86 GenModel.
Import ListNotations.
Open Scope Z_scope.

(** Statements as they are before these passes.  Expressions are those of GenModel,
    that is, closures have been converted (main.go:115-120); an array literal is
    [EArrayLit] around the calls that build it (semantic.go:514-526).
    - [XIf]: the chain of an if statement; an else branch has no condition;
    - [XRange x t a b zero body]: [for x in a .. b]; [zero]: [b] is a literal written 0;
    - [XArray x t a body]: [for x in a]; [t] is the type of the elements;
    - [XMatch e cases]: every case has the tag of its member (EnumConsFunc), its
      variables and its statements. *)
Inductive xstmt :=
| XReturn (e : option expr)
| XIf (bs : list (option expr * list xstmt))
| XDas (x : nat) (t : ty) (e : expr)
| XAs (l e : expr)
| XWhile (c : expr) (b : list xstmt)
| XExpr (e : expr)
| XRange (x : nat) (t : ty) (a b : expr) (zero : bool) (body : list xstmt)
| XArray (x : nat) (t : ty) (a : expr) (body : list xstmt)
| XMatch (e : expr) (cases : list (Z * list (nat * ty) * list xstmt)).

(* ------------------------------------------------------------------ missing returns *)

(** ast.go:69-128 (isTerminating).  Nodes of other kinds do not terminate. *)
Fixpoint is_terminating (s : xstmt) : bool :=
  let fix last_terminates (l : list xstmt) : bool :=
    match l with [] => false | [s] => is_terminating s | _ :: r => last_terminates r end in
  match s with
  | XReturn _ => true
  | XMatch _ cases =>
    match cases with
    | [] => false
    | _ => (fix all cs := match cs with [] => true | (_, _, b) :: r => if last_terminates b then all r else false end) cases
    end
  | XIf bs =>
    (fix chain bs := match bs with
       | [] => false
       | [(None, b)] => last_terminates b
       | (_, b) :: r => if last_terminates b then chain r else false
       end) bs
  | _ => false
  end.
Fixpoint last_terminates (l : list xstmt) : bool :=
  match l with [] => false | [s] => is_terminating s | _ :: r => last_terminates r end.

(** semantic.go:393-397: a function with a block is accepted if it returns nothing or
    its block terminates (ast.go:117-121). *)
Definition return_checked (ret : kind) (body : list xstmt) : bool :=
  kind_eqb ret TNothing || last_terminates body.

(* ------------------------------------------------------------------------- lowering *)

(** What the passes look up: the types int, bool and []int, the function asEnum
    and the struct enum_ it returns (enums.clara:3-13). *)
Record consts := Consts {
  c_int : ty; c_bool : ty; c_int_array : ty; c_enum : ty;
  c_as_enum : string; c_as_enum_info : fninfo
}.

Section Lower.
Variable K : consts.

(** ast.go:233-235, 272-275 (plus, inc, intLit) *)
Definition int_lit (i : Z) : expr := ELitInt (c_int K) i.
Definition plus (l r : expr) : expr := EArith (typ l) Add l r.
Definition inc (x : expr) (i : Z) : stmt := SAs x (plus x (int_lit i)).
(** ast.go:249-252 (length) *)
Definition length_of (a : expr) : expr := EDot (c_int K) a (EOff (c_int K) 0).

(** semantic.go:472-503 (lowerForStatement), range: the statements that replace the loop. *)
Definition lower_range (x : nat) (t : ty) (a b : expr) (zero : bool) (body : list stmt) : list stmt :=
  let v := EVar t x in
  if zero then
    [SDas x t (plus a (int_lit (-1))); SWhile (ECmp (c_bool K) Lte b v) (body ++ [inc v (-1)])]
  else
    [SDas x t a; SWhile (ECmp (c_bool K) Lt v b) (body ++ [inc v 1])].

(** semantic.go:476-489, array.  [slot] and [idx] are the new variables $arrayLit$ and
    $idx$.  The slot has type []int whatever the elements are. *)
Definition lower_array (slot idx x : nat) (t : ty) (a : expr) (body : list stmt) : list stmt :=
  let i := EVar (c_int K) idx in
  let loop arr elem :=
    [SDas idx (c_int K) (int_lit 0);
     SWhile (ECmp (c_bool K) Lt i (length_of arr)) (SAs (EVar t x) (EIndex elem arr i) :: body ++ [inc i 1])] in
  match a with
  | EArrayLit _ e => SDas slot (c_int_array K) e :: loop (EVar (c_int_array K) slot) (c_int K)
  | _ => loop a t
  end.

(** enums.clara:3-11: the fields _0 .. _4 of enum_ follow the tag; None is the nil
    that GetField gives for other names, which ident dereferences (ast.go:281). *)
Definition enum_field (i : nat) : option Z := if Nat.ltb i 5 then Some (8 * (Z.of_nat i + 1)) else None.

(** asEnum($tmp) *)
Definition as_enum (tmp : nat) (t : ty) : expr := ECall (c_enum K) (c_as_enum_info K) (c_as_enum K) [EVar t tmp].

(** semantic.go:585-594: the declarations of the variables of a case. *)
Fixpoint case_vars (tmp : nat) (t : ty) (i : nat) (vars : list (nat * ty)) : option (list stmt) :=
  match vars with
  | [] => Some []
  | (x, u) :: r =>
    match enum_field i, case_vars tmp t (S i) r with
    | Some o, Some l => Some (SDas x u (EDot u (as_enum tmp t) (EOff (c_int K) o)) :: l)
    | _, _ => None
    end
  end.

(** semantic.go:561-567: the test of a case. *)
Definition case_test (tmp : nat) (t : ty) (tag : Z) : expr :=
  ECmp (c_bool K) Eq (EDot (c_int K) (as_enum tmp t) (EOff (c_int K) 0)) (int_lit tag).

(** One if branch per case; the bodies are lowered already. *)
Fixpoint case_branches (tmp : nat) (t : ty) (cases : list (Z * list (nat * ty) * list stmt))
  : option (list (option expr * list stmt)) :=
  match cases with
  | [] => Some []
  | (tag, vars, b) :: r =>
    match case_vars tmp t 0 vars, case_branches tmp t r with
    | Some vs, Some bs => Some ((Some (case_test tmp t tag), vs ++ b) :: bs)
    | _, _ => None
    end
  end.

(** semantic.go:548-606 (lowerMatchStatement).  [els] is empty in the compiler; LowerSpec
    uses it for a branch taken when no case applies. *)
Definition lower_match (els : list (option expr * list stmt)) (tmp : nat) (e : expr)
  (cases : list (Z * list (nat * ty) * list stmt)) : option stmt :=
  match case_branches tmp (typ e) cases with
  | Some [] => Some (SBlock [SDas tmp (typ e) e])
  | Some bs => Some (SBlock [SDas tmp (typ e) e; SIf (bs ++ els)])
  | None => None
  end.

(** main.go:121-122: both passes over a tree.  New variables (newVar, ast.go:286-289) are
    numbered from [k]; the compiler runs the passes one after the other, bottom up. *)
Fixpoint lower_with (els : list (option expr * list stmt)) (k : nat) (s : xstmt) {struct s} : option (stmt * nat) :=
  let fix all (k : nat) (l : list xstmt) {struct l} : option (list stmt * nat) :=
    match l with
    | [] => Some ([], k)
    | s :: r =>
      match lower_with els k s with
      | Some (s', k1) => match all k1 r with Some (r', k2) => Some (s' :: r', k2) | None => None end
      | None => None
      end
    end in
  match s with
  | XReturn e => Some (SReturn e, k)
  | XDas x t e => Some (SDas x t e, k)
  | XAs l e => Some (SAs l e, k)
  | XExpr e => Some (SExpr e, k)
  | XWhile c b => match all k b with Some (b', k1) => Some (SWhile c b', k1) | None => None end
  | XIf bs =>
    match (fix chain k bs : option (list (option expr * list stmt) * nat) :=
      match bs with
      | [] => Some ([], k)
      | (c, b) :: r =>
        match all k b with
        | Some (b', k1) => match chain k1 r with Some (r', k2) => Some ((c, b') :: r', k2) | None => None end
        | None => None
        end
      end) k bs with
    | Some (bs', k1) => Some (SIf bs', k1)
    | None => None
    end
  | XRange x t a b zero body =>
    match all k body with
    | Some (body', k1) => Some (SBlock (lower_range x t a b zero body'), k1)
    | None => None
    end
  | XArray x t a body =>
    match all (S (S k)) body with
    | Some (body', k1) => Some (SBlock (lower_array k (S k) x t a body'), k1)
    | None => None
    end
  | XMatch e cases =>
    match (fix every k cs : option (list (Z * list (nat * ty) * list stmt) * nat) :=
      match cs with
      | [] => Some ([], k)
      | (tag, vars, b) :: r =>
        match all k b with
        | Some (b', k1) => match every k1 r with Some (r', k2) => Some ((tag, vars, b') :: r', k2) | None => None end
        | None => None
        end
      end) (S k) cases with
    | Some (cases', k1) => match lower_match els k e cases' with Some st => Some (st, k1) | None => None end
    | None => None
    end
  end.

(** The same for lists, chains and cases. *)
Section Lists.
Variable els : list (option expr * list stmt).
Fixpoint lower_list (k : nat) (l : list xstmt) {struct l} : option (list stmt * nat) :=
  match l with
  | [] => Some ([], k)
  | s :: r =>
    match lower_with els k s with
    | Some (s', k1) => match lower_list k1 r with Some (r', k2) => Some (s' :: r', k2) | None => None end
    | None => None
    end
  end.
Fixpoint lower_chain (k : nat) (bs : list (option expr * list xstmt)) : option (list (option expr * list stmt) * nat) :=
  match bs with
  | [] => Some ([], k)
  | (c, b) :: r =>
    match lower_list k b with
    | Some (b', k1) => match lower_chain k1 r with Some (r', k2) => Some ((c, b') :: r', k2) | None => None end
    | None => None
    end
  end.
Fixpoint lower_cases (k : nat) (cs : list (Z * list (nat * ty) * list xstmt))
  : option (list (Z * list (nat * ty) * list stmt) * nat) :=
  match cs with
  | [] => Some ([], k)
  | (tag, vars, b) :: r =>
    match lower_list k b with
    | Some (b', k1) => match lower_cases k1 r with Some (r', k2) => Some ((tag, vars, b') :: r', k2) | None => None end
    | None => None
    end
  end.
End Lists.

(** What the compiler does. *)
Definition lower (k : nat) (s : xstmt) : option (stmt * nat) := lower_with [] k s.
Definition lower_body (k : nat) (l : list xstmt) : option (list stmt * nat) := lower_list [] k l.
End Lower.
