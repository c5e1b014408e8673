(** What moving function literals out of functions should give, for C60.  Independent of the
    walk. *)
From Coq Require Import ZArith List Bool Arith.
From Verif Require Import ParseModel ClosModel ClosSpec.
Import ListNotations.
Open Scope nat_scope.

(** [m] is in [t]. *)
Inductive inside (m : tree) : tree -> Prop :=
| inside_here : inside m m
| inside_kid k t : In k (parts t) -> inside m k -> inside m t.
Definition every (P : tree -> Prop) (t : tree) : Prop := forall m, inside m t -> P m.
(** The function literals, inner ones before outer ones. *)
Fixpoint literals (t : tree) : list tree :=
  match t with
  | Tree o y l r ss ps sc =>
    concat (pick o (option_map literals l) (option_map literals r) (map literals ss) (map literals ps)) ++ (if is_fn o then [t] else [])
  end.
Definition inner_literals (t : tree) : list tree := flat_map literals (parts t).
(** Calls call something; in the end something global. *)
Definition global_name (t : tree) : Prop := exists x, t_sym t = Some x /\ s_global x = true.
Definition has_callee (m : tree) : Prop := t_op m = OpFuncCall -> t_left m <> None.
Definition calls_global (m : tree) : Prop := t_op m = OpFuncCall -> exists f, t_left m = Some f /\ global_name f.
Definition no_literal (m : tree) : Prop := is_fn (t_op m) = false.
Definition done (m : tree) : Prop := no_literal m /\ calls_global m.
(** A function without literals inside, all calls of which are direct. *)
Definition flat (t : tree) : Prop := calls_global t /\ forall k, In k (parts t) -> every done k.

(** Parts that a node has become something; others stay. *)
Inductive kept (R : tree -> tree -> Prop) (has : bool) : option tree -> option tree -> Prop :=
| kept_none : kept R has None None
| kept_some t t' : has = true -> R t t' -> kept R has (Some t) (Some t')
| kept_same o : has = false -> kept R has o o.
Inductive kept_all (R : tree -> tree -> Prop) (has : bool) : list tree -> list tree -> Prop :=
| kept_all_each l l' : has = true -> Forall2 R l l' -> kept_all R has l l'
| kept_all_same l : has = false -> kept_all R has l l.
Definition has_params (o : op) : bool :=
  match o with OpBlockFn | OpExprFn | OpExternFn | OpConsFn | OpFuncType | OpTypeList | OpFuncCall | OpCase => true | _ => false end.
Inductive kept_parts (R : tree -> tree -> Prop) : tree -> tree -> Prop :=
| kept_parts_intro o y l l' r r' ss ss' ps ps' sc :
    kept R (has_left o) l l' -> kept R (has_right o) r r' -> kept_all R (has_stmts o) ss ss' -> kept_all R (has_params o) ps ps' ->
    kept_parts R (Tree o y l r ss ps sc) (Tree o y l' r' ss' ps' sc).

(** In place of a literal is the name of a function, or the making of a closure of it and of
    the values of the captured variables ([in_place], see C23); it is the function made of
    this literal that is found among those added ([fin]), its id being its place there.  A call
    of a value gets the value as first argument; all else stays. *)
Section Became.
Variables (names_of : nat -> names) (order : list sym -> list sym) (dyn : sym) (fin : list tree).
Inductive became : tree -> tree -> Prop :=
| became_literal fn fn1 vs i : is_fn (t_op fn) = true -> kept_parts became fn fn1 -> free_vars fn1 = Some vs ->
    nth_error fin i = Some (hoisted (names_of (S i)) (order vs) fn1) -> became fn (in_place (names_of (S i)) (order vs))
| became_dynamic t y f r ss ps sc : kept_parts became t (Tree OpFuncCall y (Some f) r ss ps sc) -> ~ global_name f ->
    became t (Tree OpFuncCall y (Some (ident dyn)) r (f :: ss) ps sc)
| became_same t t' : is_fn (t_op t) = false -> kept_parts became t t' -> calls_global t' -> became t t'.
(** Function [h] is what literal [fn] becomes at the top level, as the [id]th: what is inside
    it moved first, then its own variables looked up in an environment. *)
Definition moved (id : nat) (fn h : tree) : Prop :=
  flat h /\ t_sym h = Some (n_fn (names_of id)) /\ exists fn1 vs, kept_parts became fn fn1 /\ no_fns fn1 /\ free_vars fn1 = Some vs /\ h = hoisted (names_of id) (order vs) fn1.
(** The functions of the literals [ls] were added, in this order, with ids after [n]. *)
Definition added_for (n : nat) (ls new : list tree) : Prop :=
  List.length new = List.length ls /\ forall i fn h, nth_error ls i = Some fn -> nth_error new i = Some h -> moved (S n + i) fn h.
(** What becomes of the functions and types of a program: those skipped stay, the others have
    nothing left to move. *)
Variable is_dyn : list Z -> bool.
Definition skipped (d : list Z * tree) : bool := match t_op (snd d) with OpBlockFn => is_dyn (fst d) | _ => false end.
Definition root_done (d d' : list Z * tree) : Prop := fst d' = fst d /\ if skipped d then snd d' = snd d else kept_parts became (snd d) (snd d') /\ flat (snd d').
Definition all_literals (ds : list (list Z * tree)) : list tree := flat_map (fun d => if skipped d then [] else inner_literals (snd d)) ds.
End Became.
