(** Model of main.go 76-91 and 172-200: how the source files of a program are read.

    Simplified: a file that cannot be opened is left out (the compiler stops there with that
    one error); a file is its bytes. *)
From Coq Require Import ZArith List.
From Verif Require Import LexModel ParseModel.
Import ListNotations.
Open Scope nat_scope.

(** main.go 185: the text of the token is the error; parse.go 583-598. *)
Inductive ferr := LexErr (t : token) | SynErr (t : token) (x : expected).

Section Files.
Variable u : unicode.
Variable attr_name : list Z -> option bool.
(** main.go 172-200 (lexAndParse).  [roots] are the nodes in the tree so far.  A wrong token
    is the only error of its file and nothing of the file is parsed.  The fuel is what C06
    asks for. *)
Definition lex_and_parse (input : list byte) (roots : list node) : option (list node * list ferr) :=
  match lex_filtered u input with
  | None => None
  | Some (inl t) => Some (roots, [LexErr t])
  | Some (inr ts) =>
      match parse attr_name (4 * length ts + 1) ts roots with
      | None => None
      | Some (ns, es) => Some (ns, map (fun e => SynErr (fst e) (snd e)) es)
      end
  end.
(** main.go 78-86: all files are read, whatever the errors. *)
Fixpoint read_files (files : list (list byte)) (roots : list node) (es : list ferr) : option (list node * list ferr) :=
  match files with
  | [] => Some (roots, es)
  | f :: r => match lex_and_parse f roots with None => None | Some (roots', es') => read_files r roots' (es ++ es') end
  end.
(** main.go 87-91: later passes get the tree only if there are no errors. *)
Definition front_end (files : list (list byte)) : option (list node + list ferr) :=
  match read_files files [] [] with
  | None => None
  | Some (ns, []) => Some (inl ns)
  | Some (_, es) => Some (inr es)
  end.
End Files.
