(** What it means to reach everything in a tree, for C56. *)
From Coq Require Import ZArith List Bool Arith.
From Verif Require Import LexModel ParseModel LitModel WalkModel.
Import ListNotations.
Open Scope nat_scope.

(** [child k s m]: [m] is a part of [k].  The type parameters of structs and enums do not
    count. *)
Inductive child (k : node) : step -> node -> Prop :=
| child_left m : n_left k = Some m -> child k Left m
| child_right m : n_right k = Some m -> child k Right m
| child_stmt i m : nth_error (n_stmts k) i = Some m -> child k (Stmt i) m
| child_param i m : nth_error (n_params k) i = Some m -> n_op k <> OpStruct -> n_op k <> OpEnum -> child k (Param i) m.
(** [reach n p m]: [p] is the way from [n] down to [m], last step first. *)
Inductive reach (n : node) : place -> node -> Prop :=
| reach_here : reach n [] n
| reach_step p k s m : reach n p k -> child k s m -> reach n (s :: p) m.
(** [there roots p]: there is something at [p], in a tree whose root has these nodes. *)
Inductive there (roots : list node) : place -> Prop :=
| there_root : there roots []
| there_in i n p m : nth_error roots i = Some n -> reach n p m -> there roots (p ++ [Stmt i]).

(** The places above a place, from there upwards. *)
Fixpoint above (p : place) : list place := match p with [] => [] | _ :: q => q :: above q end.

Definition places (l : list event) : list place := flat_map (fun e => match e with Visit p _ => [p] | Exit => [] end) l.
(** [earlier l a b]: in [l], [a] comes before [b]. *)
Definition earlier {A} (l : list A) (a b : A) : Prop := exists x y z, l = x ++ a :: y ++ b :: z.

(** The calls with nil are such that one who puts each node on a stack, and takes one off at
    nil, always has on the stack what is above the node. *)
Inductive nested (go : place -> bool) : list place -> list event -> Prop :=
| nested_end : nested go [] []
| nested_visit p st l : st = above p -> nested go (if go p then p :: st else st) l -> nested go st (Visit p (go p) :: l)
| nested_exit p st l : nested go st l -> nested go (p :: st) (Exit :: l).

(** Integer literals with a minus before them are one literal, everything else stays. *)
Definition int_lit (n : node) : Prop := n_op n = OpLit /\ tk_kind (n_token n) = KInteger.
Definition negated (t t' : token) : Prop :=
  tk_kind t' = tk_kind t /\ tk_val t' = 45%Z :: tk_val t /\ tk_pos t' = tk_pos t /\ tk_line t' = tk_line t.
Inductive opt_rel {A} (R : A -> A -> Prop) : option A -> option A -> Prop :=
| opt_none : opt_rel R None None
| opt_some x y : R x y -> opt_rel R (Some x) (Some y).
Inductive folded : node -> node -> Prop :=
| folded_neg a t m t' : int_lit m -> negated (n_token m) t' -> folded (Node a OpNeg t (Some m) None [] []) (Node a OpLit t' None None [] [])
| folded_other a o t l r ss ps l1 r1 ss1 ps1 : (o = OpNeg -> forall m, l = Some m -> ~ int_lit m) ->
    opt_rel folded l l1 -> opt_rel folded r r1 -> Forall2 folded ss ss1 ->
    (o = OpStruct \/ o = OpEnum) /\ ps1 = ps \/ Forall2 folded ps ps1 ->
    folded (Node a o t l r ss ps) (Node a o t l1 r1 ss1 ps1).

(** The nodes of a tree whose root has these nodes. *)
Inductive found (roots : list node) : place -> node -> Prop :=
| found_in i n p m : nth_error roots i = Some n -> reach n p m -> found roots (p ++ [Stmt i]) m.
(** An integer literal whose text is no number of 64 bits with a sign (for the numbers, see
    C22). *)
Definition too_big (n : node) : Prop := int_lit n /\ forall z, LitModel.parse_int (tk_val (n_token n)) <> LitModel.POk z.
(** [reported f es]: [es] has the text of each such literal, once for each place. *)
Definition reported (f : place -> node -> Prop) (es : list (list Z)) : Prop :=
  exists ps, NoDup ps /\ (forall p, In p ps <-> exists m, f p m /\ too_big m) /\
    Forall2 (fun p v => exists m, f p m /\ tk_val (n_token m) = v) ps es.

(** The nodes in the tree after the parser has read any number of files. *)
Inductive read (attr_name : list Z -> option bool) : list node -> Prop :=
| read_none : read attr_name []
| read_file roots fuel ts roots' es : read attr_name roots -> parse attr_name fuel ts roots = Some (roots', es) -> read attr_name roots'.
