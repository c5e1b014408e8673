(** Model of the symbol table of symtab.go (478-560): nested tables of symbols.

    Go pointers to tables are indices into a store of tables, to which [new_child]
    adds; pointers to symbols are the numbers [sy_id].  A Go map is a list of its
    entries, newest first, with no two entries for one name ([define] adds an entry
    only when there is none). *)
From Coq Require Import String List Bool PeanoNat.
Import ListNotations.

(** symtab.go:462-476 (Symbol): its identity and its name; the other fields are
    not looked at by the functions below except through [pred] of ResolveAll. *)
Record symbol := Symbol { sy_id : nat; sy_name : string }.

(** symtab.go:489-493 (SymTab). *)
Record table := Table {
  tb_parent : option nat;
  tb_children : list nat;
  tb_symbols : list (string * symbol)
}.

Definition store := list table.

(** symtab.go:495-497 (NewSymtab). *)
Definition new_symtab : store := [Table None [] []].

(** Reading a Go map. *)
Fixpoint map_get (m : list (string * symbol)) (name : string) : option symbol :=
  match m with
  | [] => None
  | (k, s) :: m' => if String.eqb k name then Some s else map_get m' name
  end.

Fixpoint set_nth {A} (l : list A) (i : nat) (x : A) : list A :=
  match l, i with
  | [], _ => []
  | _ :: l', O => x :: l'
  | y :: l', S i' => y :: set_nth l' i' x
  end.

Definition at_table (st : store) (i : nat) : table := nth i st (Table None [] []).

(** symtab.go:499-505 (Define): the symbol now standing for the name, and whether
    the name was already there, in which case nothing changes. *)
Definition define (st : store) (i : nat) (s : symbol) : store * symbol * bool :=
  let t := at_table st i in
  match map_get (tb_symbols t) (sy_name s) with
  | Some s' => (st, s', true)
  | None => (set_nth st i (Table (tb_parent t) (tb_children t) ((sy_name s, s) :: tb_symbols t)), s, false)
  end.

(** symtab.go:507-510 (Owns): pointer equality is equality of [sy_id]. *)
Definition owns (st : store) (i : nat) (s : symbol) : bool :=
  match map_get (tb_symbols (at_table st i)) (sy_name s) with
  | Some s' => sy_id s' =? sy_id s
  | None => false
  end.

(** symtab.go:512-518 (Resolve).  [None] is running out of fuel; the answer
    [Some None] is Go's (nil, false). *)
Fixpoint resolve (fuel : nat) (st : store) (i : nat) (name : string) : option (option symbol) :=
  match fuel with
  | O => None
  | S fuel' =>
    let t := at_table st i in
    match map_get (tb_symbols t) name, tb_parent t with
    | Some s, _ => Some (Some s)
    | None, Some p => resolve fuel' st p name
    | None, None => Some None
    end
  end.

(** symtab.go:520-528 (ResolveAll). *)
Fixpoint resolve_all (fuel : nat) (st : store) (i : nat) (name : string) (pred : symbol -> bool)
  : option (option symbol) :=
  match fuel with
  | O => None
  | S fuel' =>
    let t := at_table st i in
    match map_get (tb_symbols t) name with
    | Some s =>
      if pred s then Some (Some s)
      else match tb_parent t with
           | Some p => resolve_all fuel' st p name pred
           | None => Some None
           end
    | None =>
      match tb_parent t with
      | Some p => resolve_all fuel' st p name pred
      | None => Some None
      end
    end
  end.

(** symtab.go:542-547 (Child): the new table is the last of the store. *)
Definition new_child (st : store) (i : nat) : store * nat :=
  let t := at_table st i in
  (set_nth st i (Table (tb_parent t) (tb_children t ++ [length st]) (tb_symbols t))
     ++ [Table (Some i) [] []],
   length st).

(** symtab.go:538-540 (Parent). *)
Definition parent (st : store) (i : nat) : option nat := tb_parent (at_table st i).

(** What the compiler does with the tables: it holds a current table (the variable
    [symtab] of semantic.go and typecheck.go), opens a scope by moving to a new
    child, closes it by going back to the parent, declares and looks up names.
    Closing the outermost scope does nothing. *)
Inductive op :=
| Open
| Close
| Declare (s : symbol)
| Lookup (name : string)
| LookupAll (name : string) (pred : symbol -> bool)
| Own (s : symbol).

Inductive answer :=
| Done
| Declared (s : symbol) (already : bool)
| Found (s : option symbol)
| Owned (b : bool)
| OutOfFuel.

Definition step (c : store * nat) (o : op) : (store * nat) * answer :=
  let '(st, i) := c in
  match o with
  | Open => (new_child st i, Done)
  | Close => ((st, match parent st i with Some p => p | None => i end), Done)
  | Declare s => let '(st', s', found) := define st i s in ((st', i), Declared s' found)
  | Lookup name =>
    ((st, i), match resolve (length st) st i name with Some r => Found r | None => OutOfFuel end)
  | LookupAll name pred =>
    ((st, i), match resolve_all (length st) st i name pred with Some r => Found r | None => OutOfFuel end)
  | Own s => ((st, i), Owned (owns st i s))
  end.

Fixpoint run (c : store * nat) (ops : list op) : (store * nat) * list answer :=
  match ops with
  | [] => (c, [])
  | o :: ops' =>
    let '(c1, a) := step c o in
    let '(c2, l) := run c1 ops' in
    (c2, a :: l)
  end.
