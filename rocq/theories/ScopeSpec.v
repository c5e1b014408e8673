(** What lexical scoping means, for C10: a stack of scopes, each the list of the
    declarations accepted in it. *)
From Coq Require Import String List Bool.
From Verif Require Import ScopeModel.
Import ListNotations.

Definition scope := list symbol.

(** The declaration of a name in one scope. *)
Definition declared (sc : scope) (name : string) : option symbol :=
  find (fun s => String.eqb (sy_name s) name) sc.

(** What a name means: its declaration in the innermost scope that has one. *)
Fixpoint meaning (scopes : list scope) (name : string) : option symbol :=
  match scopes with
  | [] => None
  | sc :: outer =>
    match declared sc name with
    | Some s => Some s
    | None => meaning outer name
    end
  end.

(** The same, passing over scopes whose declaration is not wanted. *)
Fixpoint meaning_such (scopes : list scope) (name : string) (pred : symbol -> bool) : option symbol :=
  match scopes with
  | [] => None
  | sc :: outer =>
    match declared sc name with
    | Some s => if pred s then Some s else meaning_such outer name pred
    | None => meaning_such outer name pred
    end
  end.

Definition top (scopes : list scope) : scope := hd [] scopes.

Definition spec_step (scopes : list scope) (o : op) : list scope * answer :=
  match o with
  | Open => ([] :: scopes, Done)
  | Close => (match scopes with sc :: (_ :: _) as outer => tl scopes | _ => scopes end, Done)
  | Declare s =>
    match declared (top scopes) (sy_name s) with
    | Some s' => (scopes, Declared s' true)
    | None => ((s :: top scopes) :: tl scopes, Declared s false)
    end
  | Lookup name => (scopes, Found (meaning scopes name))
  | LookupAll name pred => (scopes, Found (meaning_such scopes name pred))
  | Own s =>
    (scopes, Owned match declared (top scopes) (sy_name s) with
                   | Some s' => Nat.eqb (sy_id s') (sy_id s)
                   | None => false
                   end)
  end.

Fixpoint spec_run (scopes : list scope) (ops : list op) : list scope * list answer :=
  match ops with
  | [] => (scopes, [])
  | o :: ops' =>
    let '(sc1, a) := spec_step scopes o in
    let '(sc2, l) := spec_run sc1 ops' in
    (sc2, a :: l)
  end.

(** Histories in which every scope opened is closed and no other one is. *)
Inductive balanced : list op -> Prop :=
| bal_nil : balanced []
| bal_step : forall o h, o <> Open -> o <> Close -> balanced h -> balanced (o :: h)
| bal_scope : forall h h', balanced h -> balanced h' -> balanced (Open :: h ++ Close :: h').
