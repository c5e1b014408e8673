(** The words of a source file, by the lexical grammar alone, and how a program is written
    down.  Independent of the compiler. *)
From Coq Require Import Ascii String ZArith List Bool.
From Verif Require Import LexModel LexSpec ParseModel ParseSpec.
Import ListNotations.
Open Scope list_scope.

(** Only names and literals have a text. *)
Definition has_text (k : kind) : bool := match k with KIdentifier | KString | KInteger => true | _ => false end.
Definition word_of (x : kind * list byte) : word := (fst x, if has_text (fst x) then snd x else []).
(** What is left of a file without its blanks, line ends and comments. *)
Definition words_of (u : unicode) (f : list byte) (ws : list word) : Prop :=
  exists cs ts, chars_of f cs /\ lexes u cs ts /\ ws = map word_of (filter (fun x => negb (is_layout (fst x))) ts).
(** A word that is not one. *)
Definition wrong (w : word) : Prop := exists e, fst w = KErr e.

(** How each word that is not a name or a literal is spelled. *)
Definition spelling (k : kind) : list rune :=
  match k with
  | KLParen => text "(" | KRParen => text ")" | KLBrace => text "{" | KRBrace => text "}" | KLBrack => text "[" | KRBrack => text "]"
  | KLGmet => [171%Z] | KRGmet => [187%Z] | KComma => text "," | KColon => text ":" | KAs => text "=" | KDas => text ":="
  | KMul => text "*" | KPlus => text "+" | KMin => text "-" | KDiv => text "/" | KGt => text ">" | KGte => text ">=" | KLt => text "<" | KLte => text "<="
  | KEq => text "==" | KDot => text "." | KDotDot => text ".." | KHash => text "#" | KQuestion => text "?"
  | KBNot => text "~" | KBAnd => text "&" | KBOr => text "|" | KBXor => text "^" | KBLeft => text "<<" | KBRight => text ">>"
  | KFn => text "fn" | KReturn => text "return" | KIf => text "if" | KElseIf => text "elseif" | KElse => text "else"
  | KTrue => text "true" | KFalse => text "false" | KNot => text "not" | KAnd => text "and" | KOr => text "or" | KStruct => text "struct"
  | KWhile => text "while" | KFor => text "for" | KIn => text "in" | KEnum => text "enum" | KMatch => text "match" | KCase => text "case" | KType => text "type"
  | _ => []
  end.
(** A program as a text: its words, each with a blank behind it. *)
Definition spell (w : word) : list byte := (if has_text (fst w) then snd w else concat (map utf8 (spelling (fst w)))) ++ utf8 32.
Definition write (p : list decl) : list byte := flat_map spell (flat_map show_decl p).
(** The names and literals of a program are ones: UTF-8 texts that the lexical grammar
    gives their kind, if a blank follows. *)
Definition writable (u : unicode) (w : word) : Prop :=
  has_text (fst w) = true -> exists rs, Forall scalar rs /\ snd w = concat (map utf8 rs) /\ token_at u (fst w) rs [32%Z].
Definition writable_program (u : unicode) (p : list decl) : Prop := Forall (writable u) (flat_map show_decl p).
