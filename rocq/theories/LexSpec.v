(** What a Clara token is, independently of how lex.go finds it.

    From the model only the data types [kind], [token], [unicode] and the UTF-8
    decoder are used. *)
From Coq Require Import Ascii String ZArith List Bool.
From Verif Require Import LexModel.
Import ListNotations.
Open Scope Z_scope.

Definition is_byte (b : byte) : Prop := 0 <= b < 256.

(** A character of a source text: its rune and the bytes it was written with. *)
Notation uchar := (Z * list Z)%type (only parsing).

(** Cutting a byte string into characters. *)
Inductive chars_of : list byte -> list uchar -> Prop :=
| chars_nil : chars_of [] []
| chars_cons : forall s r w cs,
    s <> [] -> decode_rune s = (r, w) ->
    chars_of (skipn w s) cs ->
    chars_of s ((r, firstn w s) :: cs).

Definition runes (cs : list uchar) : list rune := map fst cs.
Definition bytes_of (cs : list uchar) : list byte := concat (map snd cs).

(** The runes of an ASCII string. *)
Definition ch (c : ascii) : rune := Z.of_N (N_of_ascii c).
Definition text (s : string) : list rune := map ch (list_ascii_of_string s).

Fixpoint assoc {A} (r : rune) (t : list (rune * A)) : option A :=
  match t with
  | [] => None
  | (r', a) :: t' => if r =? r' then Some a else assoc r t'
  end.

(** Tokens made of one character, and of two characters. *)
Definition one_char_tokens : list (rune * kind) :=
  [ (ch "(", KLParen); (ch ")", KRParen); (ch "{", KLBrace); (ch "}", KRBrace);
    (ch "[", KLBrack); (ch "]", KRBrack); (171, KLGmet); (187, KRGmet);
    (ch "#", KHash); (ch "?", KQuestion); (ch ",", KComma); (ch ":", KColon);
    (ch "+", KPlus); (ch "-", KMin); (ch "*", KMul); (ch "/", KDiv);
    (ch "~", KBNot); (ch "^", KBXor); (ch "|", KBOr); (ch "&", KBAnd);
    (ch ">", KGt); (ch "<", KLt); (ch ".", KDot); (ch "=", KAs) ].

Definition two_char_tokens : list (rune * list (rune * kind)) :=
  [ (ch ":", [(ch "=", KDas)]);
    (ch ">", [(ch ">", KBRight); (ch "=", KGte)]);
    (ch "<", [(ch "<", KBLeft); (ch "=", KLte)]);
    (ch ".", [(ch ".", KDotDot)]);
    (ch "=", [(ch "=", KEq)]) ].

Definition two_char (r1 r2 : rune) : option kind :=
  match assoc r1 two_char_tokens with
  | Some t => assoc r2 t
  | None => None
  end.

Definition keywords : list (string * kind) :=
  [ ("fn", KFn); ("return", KReturn); ("if", KIf); ("elseif", KElseIf);
    ("else", KElse); ("true", KTrue); ("false", KFalse); ("not", KNot);
    ("and", KAnd); ("or", KOr); ("struct", KStruct); ("while", KWhile);
    ("for", KFor); ("in", KIn); ("enum", KEnum); ("match", KMatch);
    ("case", KCase); ("type", KType) ]%string.

(** The kind of a word: its keyword if it is one, identifier otherwise. *)
Definition word_kind (w : list rune) (k : kind) : Prop :=
  (exists s, In (s, k) keywords /\ w = text s) \/
  (k = KIdentifier /\ forall s k', In (s, k') keywords -> w <> text s).

(** Letters (or underscore), letters-or-digits, digits, hexadecimal digits. *)
Definition word_start (u : unicode) (r : rune) : Prop :=
  r = ch "_" \/ uc_is_letter u r = true.
Definition digit (u : unicode) (r : rune) : Prop := uc_is_digit u r = true.
Definition word_cont (u : unicode) (r : rune) : Prop := word_start u r \/ digit u r.
Definition hex_digit (u : unicode) (r : rune) : Prop := digit u r \/ In r (text "abcdefABCDEF").

Definition newline (r : rune) : Prop := r = 13 \/ r = 10.

(** The next character, if any, does not satisfy / satisfies P. *)
Definition not_next (P : rune -> Prop) (rest : list rune) : Prop :=
  match rest with [] => True | r :: _ => ~ P r end.
Definition end_or_next (P : rune -> Prop) (rest : list rune) : Prop :=
  match rest with [] => True | r :: _ => P r end.

(** Characters that may directly follow a word. *)
Definition may_follow_word (r : rune) : Prop :=
  In r (text "( :,).+-*/><[]") \/ newline r \/ r = 171 \/ r = 187.

(** What stands between the quotes of a string literal. *)
Inductive string_body : list rune -> Prop :=
| body_nil : string_body []
| body_char : forall r b, r <> ch """" -> r <> ch "\" -> string_body b -> string_body (r :: b)
| body_escape : forall r b,
    In r (ch """" :: text "rn\") -> string_body b -> string_body (ch "\" :: r :: b).

(** [token_at u k t rest]: in a text [t ++ rest] the first token is [t], of kind
    [k].  Longest match is part of each rule. *)
Inductive token_at (u : unicode) : kind -> list rune -> list rune -> Prop :=
| tok_two : forall r1 r2 k rest,
    two_char r1 r2 = Some k -> token_at u k [r1; r2] rest
| tok_one : forall r k rest,
    assoc r one_char_tokens = Some k ->
    not_next (fun r2 => two_char r r2 <> None \/ (r = ch "/" /\ r2 = ch "/")) rest ->
    token_at u k [r] rest
| tok_space : forall n rest,
    not_next (eq (ch " ")) rest ->
    token_at u KSpace (repeat (ch " ") (S n)) rest
| tok_eol : forall r rest, newline r -> token_at u KEOL [r] rest
| tok_comment : forall b rest,
    Forall (fun r => ~ newline r) b -> end_or_next newline rest ->
    token_at u KComment (text "//" ++ b) rest
| tok_string : forall b rest,
    string_body b -> token_at u KString (ch """" :: b ++ [ch """"]) rest
| tok_decimal : forall r ds rest,
    In r (text "123456789") -> Forall (digit u) ds -> not_next (digit u) rest ->
    token_at u KInteger (r :: ds) rest
| tok_zero : forall ds rest,
    Forall (digit u) ds -> not_next (digit u) rest ->
    not_next (eq (ch "x")) (ds ++ rest) ->
    token_at u KInteger (ch "0" :: ds) rest
| tok_hex : forall h hs rest,
    hex_digit u h -> Forall (hex_digit u) hs -> not_next (hex_digit u) rest ->
    token_at u KInteger (text "0x" ++ h :: hs) rest
| tok_word : forall k r w rest,
    word_start u r -> Forall (word_cont u) w -> word_kind (r :: w) k ->
    not_next (word_cont u) rest -> end_or_next may_follow_word rest ->
    token_at u k (r :: w) rest.

(** [error_at u e rs]: no token starts the text [rs], for the reason [e]. *)
Inductive error_at (u : unicode) : lex_error -> list rune -> Prop :=
| err_char : forall r rest,
    assoc r one_char_tokens = None -> r <> ch " " -> r <> ch """" -> ~ newline r ->
    ~ In r (text "0123456789") -> ~ word_start u r ->
    error_at u (UnexpectedCharacter r) (r :: rest)
| err_word : forall r w r' rest,
    word_start u r -> Forall (word_cont u) w ->
    ~ word_cont u r' -> ~ may_follow_word r' ->
    error_at u (UnexpectedCharacter r') ((r :: w) ++ r' :: rest)
| err_unclosed : forall b,
    string_body b -> error_at u UnclosedString (ch """" :: b)
| err_escape : forall b rest,
    string_body b -> not_next (fun r => In r (ch """" :: text "rn\")) rest ->
    error_at u UnknownEscape (ch """" :: b ++ ch "\" :: rest)
| err_hex : forall rest,
    not_next (hex_digit u) rest ->
    error_at u HexWithoutDigits (text "0x" ++ rest).

(** The token stream (kinds and texts) of a text. *)
Inductive lexes (u : unicode) : list uchar -> list (kind * list byte) -> Prop :=
| lexes_eof : lexes u [] [(KEOF, [])]
| lexes_error : forall e cs,
    error_at u e (runes cs) -> lexes u cs [(KErr e, [])]
| lexes_token : forall k t rest ts,
    token_at u k (runes t) (runes rest) -> lexes u rest ts ->
    lexes u (t ++ rest) ((k, bytes_of t) :: ts).

(** Lines and columns: newlines before a place, and characters between the last
    newline and that place. *)
Definition newlines (before : list rune) : nat := length (filter (Z.eqb 10) before).

Fixpoint since_newline (before : list rune) (n : nat) : nat :=
  match before with
  | [] => n
  | r :: t => since_newline t (if r =? 10 then 0 else S n)
  end.
Definition chars_on_line (before : list rune) : nat := since_newline before 0.

(** Layout: blanks, line ends and comments that end with their line. *)
Definition blank (r : rune) : Prop := r = ch " " \/ newline r.

Inductive layout : list rune -> Prop :=
| lay_nil : layout []
| lay_blank : forall r l, blank r -> layout l -> layout (r :: l)
| lay_comment : forall b r l,
    Forall (fun r => ~ newline r) b -> newline r -> layout l ->
    layout (text "//" ++ b ++ r :: l).

(** A gap between two tokens: nothing, or layout that starts with a blank. *)
Definition gap (g : list rune) : Prop :=
  g = [] \/ (layout g /\ exists r g', g = r :: g' /\ blank r).

(** A text cut into tokens and the gap after each. *)
Definition doc := list ((kind * list uchar) * list uchar).
Definition doc_text (d : doc) : list uchar := concat (map (fun '((_, t), g) => t ++ g) d).
Definition doc_tokens (d : doc) : list (kind * list byte) :=
  map (fun '((k, t), _) => (k, bytes_of t)) d.

(** Every token of the document is the first token of the text from there on,
    and no layout token is among them. *)
Inductive doc_ok (u : unicode) : doc -> Prop :=
| doc_nil : doc_ok u []
| doc_cons : forall k t g d,
    is_layout k = false -> token_at u k (runes t) (runes (g ++ doc_text d)) ->
    gap (runes g) -> doc_ok u d ->
    doc_ok u (((k, t), g) :: d).

(** Same tokens; a gap is empty in both or in neither. *)
Inductive same_up_to_layout : doc -> doc -> Prop :=
| same_nil : same_up_to_layout [] []
| same_cons : forall k t g g' d d',
    gap (runes g') -> (g = [] <-> g' = []) -> same_up_to_layout d d' ->
    same_up_to_layout (((k, t), g) :: d) (((k, t), g') :: d').

(** UTF-8 encoding (RFC 3629) of the Unicode scalar values. *)
Definition scalar (r : rune) : Prop := 0 <= r < 55296 \/ 57344 <= r < 1114112.
Definition utf8 (r : rune) : list byte :=
  if r <? 128 then [r]
  else if r <? 2048 then [192 + r / 64; 128 + r mod 64]
  else if r <? 65536 then [224 + r / 4096; 128 + (r / 64) mod 64; 128 + r mod 64]
  else [240 + r / 262144; 128 + (r / 4096) mod 64; 128 + (r / 64) mod 64; 128 + r mod 64].
