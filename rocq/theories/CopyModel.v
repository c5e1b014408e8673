(** Model of copyNode (ast.go:324-358).

    Go's memory of nodes is a list of cells, a pointer to a node is the cell's number, and
    [&Node{...}] adds a cell at the end.  Cells are never taken away here: the garbage
    collector of Go takes only cells that nothing points to. *)
From Coq Require Import List Arith.
Import ListNotations.

Definition addr := nat.
(** ast.go:14-25, the fields that are no nodes.  What tokens, symbols, types and scopes are
    does not matter: they are known by their pointers. *)
Record data := Data {
  d_attrs : nat; d_token : nat; d_op : nat; d_sym : option nat; d_typ : option nat; d_symtab : option nat
}.
(** ast.go:14-25.  None is nil. *)
Record cell := Cell {
  c_data : data; c_left : option addr; c_right : option addr; c_stmts : list (option addr); c_params : list (option addr)
}.
Definition heap := list cell.

(** x.left = ..., x.right = ..., x.params = ..., x.stmts = ... *)
Definition set_left (v : option addr) (c : cell) : cell := Cell (c_data c) v (c_right c) (c_stmts c) (c_params c).
Definition set_right (v : option addr) (c : cell) : cell := Cell (c_data c) (c_left c) v (c_stmts c) (c_params c).
Definition set_params (v : list (option addr)) (c : cell) : cell := Cell (c_data c) (c_left c) (c_right c) (c_stmts c) v.
Definition set_stmts (v : list (option addr)) (c : cell) : cell := Cell (c_data c) (c_left c) (c_right c) v (c_params c).
Fixpoint change (h : heap) (a : addr) (f : cell -> cell) : heap :=
  match h, a with
  | [], _ => []
  | c :: r, O => f c :: r
  | c :: r, S a => c :: change r a f
  end.

(** ast.go:330.  attrs is not among the fields. *)
Definition fresh (d : data) : cell :=
  Cell (Data 0 (d_token d) (d_op d) (d_sym d) (d_typ d) (d_symtab d)) None None [] [].

Section Children.
Variable f : heap -> addr -> option (addr * heap).
(** ast.go:333-338 *)
Definition copy_one (h : heap) (o : option addr) : option (option addr * heap) :=
  match o with None => Some (None, h) | Some a => match f h a with Some (x, h) => Some (Some x, h) | None => None end end.
(** ast.go:341-346 and 350-355 *)
Fixpoint copy_each (h : heap) (l : list (option addr)) : option (list (option addr) * heap) :=
  match l with
  | [] => Some ([], h)
  | None :: r => copy_each h r
  | Some a :: r =>
      match f h a with
      | Some (x, h) => match copy_each h r with Some (xs, h) => Some (Some x :: xs, h) | None => None end
      | None => None
      end
  end.
End Children.

(** ast.go:328-358.  The fields of n are read once, as nothing is written to old cells.  None:
    out of fuel, or a pointer to no cell, which Go does not have. *)
Fixpoint copy_node (fuel : nat) (h : heap) (n : addr) : option (addr * heap) :=
  match fuel with
  | O => None
  | S fuel =>
      match nth_error h n with
      | None => None
      | Some c =>
          let x := length h in
          let h := h ++ [fresh (c_data c)] in
          match copy_one (copy_node fuel) h (c_left c) with
          | None => None
          | Some (l, h) =>
              let h := change h x (set_left l) in
              match copy_one (copy_node fuel) h (c_right c) with
              | None => None
              | Some (r, h) =>
                  let h := change h x (set_right r) in
                  match copy_each (copy_node fuel) h (c_params c) with
                  | None => None
                  | Some (ps, h) =>
                      let h := change h x (set_params ps) in
                      match copy_each (copy_node fuel) h (c_stmts c) with
                      | None => None
                      | Some (ss, h) => Some (x, change h x (set_stmts ss))
                      end
                  end
              end
          end
      end
  end.
