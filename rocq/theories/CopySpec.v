(** What a copy of a tree is. *)
From Coq Require Import List Arith.
From Verif Require Import CopyModel.
Import ListNotations.

(** Trees without pointers. *)
Inductive tree := Tree (d : data) (l r : option tree) (ss ps : list (option tree)).

Fixpoint all_some {A} (l : list (option A)) : option (list A) :=
  match l with
  | [] => Some []
  | Some x :: r => option_map (cons x) (all_some r)
  | None :: _ => None
  end.
(** The tree of height at most [n] that is at [a], if one is. *)
Fixpoint tree_at (n : nat) (h : heap) (a : addr) : option tree :=
  match n with
  | O => None
  | S n =>
      let sub (o : option addr) : option (option tree) := match o with None => Some None | Some b => option_map Some (tree_at n h b) end in
      match nth_error h a with
      | None => None
      | Some c =>
          match sub (c_left c), sub (c_right c), all_some (map sub (c_stmts c)), all_some (map sub (c_params c)) with
          | Some l, Some r, Some ss, Some ps => Some (Tree (c_data c) l r ss ps)
          | _, _, _, _ => None
          end
      end
  end.
(** There is a tree at [a]: no way down from it is endless. *)
Definition holds (h : heap) (a : addr) (t : tree) : Prop := exists n, tree_at n h a = Some t.
(** The cells met on the way through the tree at [a], as often as they are met. *)
Fixpoint cells_of (n : nat) (h : heap) (a : addr) : list addr :=
  match n with
  | O => []
  | S n =>
      let sub (o : option addr) : list addr := match o with None => [] | Some b => cells_of n h b end in
      a :: match nth_error h a with
           | None => []
           | Some c => sub (c_left c) ++ sub (c_right c) ++ flat_map sub (c_params c) ++ flat_map sub (c_stmts c)
           end
  end.

(** What is to be got: the same tree without nil in its lists and without attributes. *)
Definition plain (d : data) : data := Data 0 (d_token d) (d_op d) (d_sym d) (d_typ d) (d_symtab d).
Fixpoint tidy (t : tree) : tree :=
  match t with
  | Tree d l r ss ps =>
      let fix list_of (l : list (option tree)) : list (option tree) :=
        match l with [] => [] | None :: r => list_of r | Some t :: r => Some (tidy t) :: list_of r end in
      Tree (plain d) (option_map tidy l) (option_map tidy r) (list_of ss) (list_of ps)
  end.
(** Nothing to tidy. *)
Inductive tidied : tree -> Prop :=
| Tidied d l r ss ps : d_attrs d = 0 -> (forall t, l = Some t -> tidied t) -> (forall t, r = Some t -> tidied t) ->
    (forall o, In o ss \/ In o ps -> exists t, o = Some t /\ tidied t) -> tidied (Tree d l r ss ps).
