(** Model of lex/lex.go: the lexer, function by function.

    Source text is a list of bytes (numbers 0..255), as Go strings are byte
    sequences.  Runes are numbers; [eof] is -1.  Offsets into the text are [nat].
    The channel of tokens is modelled by the list of tokens sent, newest first. *)
From Coq Require Import ZArith List Bool.
Import ListNotations.
Open Scope Z_scope.

Notation byte := Z (only parsing).
Notation rune := Z (only parsing).

(** lex.go:12-98 (Kind).  One constructor per constant of the Go enumeration,
    except the marker [keyword] (79), which separates keywords from the rest, see
    [is_keyword].  The message of an error token is kept as structured data
    ([lex_error]) instead of a formatted string. *)
Inductive lex_error :=
| UnexpectedCharacter (r : rune)   (* lex.go:417, 499 *)
| UnknownEscape                    (* lex.go:440 *)
| UnclosedString                   (* lex.go:450 *)
| HexWithoutDigits.                (* lex.go:470 *)

Inductive kind :=
| KErr (e : lex_error)
| KRBrace | KLBrace | KRParen | KLParen | KRBrack | KLBrack
| KComma | KColon | KDot | KHash | KQuestion
| KComment | KIdentifier | KString | KInteger
| KNeg
| KPlus | KMul | KDiv | KMin
| KLGmet | KRGmet
| KBAnd | KBOr | KBNot | KBXor | KBLeft | KBRight
| KGt | KGte | KLt | KLte | KEq
| KSpace | KEOL | KEOF | KDas | KAs | KDotDot
| KFn | KReturn | KIf | KElseIf | KElse | KTrue | KFalse | KNot | KAnd | KOr
| KStruct | KWhile | KFor | KIn | KEnum | KMatch | KCase | KType.

Definition lex_error_eq_dec : forall a b : lex_error, {a = b} + {a <> b}.
Proof. decide equality; apply Z.eq_dec. Defined.

Definition kind_eq_dec : forall a b : kind, {a = b} + {a <> b}.
Proof. decide equality; apply lex_error_eq_dec. Defined.

Definition kind_eqb (a b : kind) : bool := if kind_eq_dec a b then true else false.

(** lex.go:78-97: [k > keyword]. *)
Definition is_keyword (k : kind) : bool :=
  match k with
  | KFn | KReturn | KIf | KElseIf | KElse | KTrue | KFalse | KNot | KAnd | KOr
  | KStruct | KWhile | KFor | KIn | KEnum | KMatch | KCase | KType => true
  | _ => false
  end.

(** lex.go:100-107 (IsExprStart). *)
Definition is_expr_start (k : kind) : bool :=
  match k with
  | KInteger | KString | KIdentifier | KTrue | KFalse | KNot | KLParen | KFn | KMin | KLBrack => true
  | _ => false
  end.

(** lex.go:109-142 (Precedence). *)
Definition precedence (k : kind) : nat :=
  match k with
  | KLParen | KLGmet => 13
  | KDot | KLBrack => 12
  | KNot | KNeg | KBNot => 11
  | KMul | KDiv => 10
  | KPlus | KMin => 9
  | KBLeft | KBRight => 8
  | KGt | KGte | KLt | KLte => 7
  | KEq => 6
  | KBAnd => 5
  | KBXor => 4
  | KBOr => 3
  | KAnd => 2
  | KOr | KQuestion => 1
  | _ => 0
  end%nat.

(** lex.go:243-249 (Token); the constant field [File] is omitted. *)
Record token := Token {
  tk_kind : kind;
  tk_val : list byte;
  tk_pos : nat;
  tk_line : nat
}.

(** The Unicode tables unicode.Letter and unicode.Digit outside ASCII. *)
Record unicode := Unicode {
  uni_letter : rune -> bool;
  uni_digit : rune -> bool
}.

(** unicode.IsLetter: ASCII fixed, U+00AB and U+00BB are punctuation, the rest is
    taken from the table; negative runes (eof) are not letters. *)
Definition uc_is_letter (u : unicode) (r : rune) : bool :=
  if r <? 0 then false
  else if r <? 128 then ((65 <=? r) && (r <=? 90)) || ((97 <=? r) && (r <=? 122))
  else if (r =? 171) || (r =? 187) then false
  else uni_letter u r.

(** unicode.IsDigit, likewise. *)
Definition uc_is_digit (u : unicode) (r : rune) : bool :=
  if r <? 0 then false
  else if r <? 128 then (48 <=? r) && (r <=? 57)
  else if (r =? 171) || (r =? 187) then false
  else uni_digit u r.

(** unicode/utf8: RuneError, and the continuation byte range 0x80..0xBF. *)
Definition rune_error : rune := 65533.
Definition cont_byte (b : byte) : bool := (128 <=? b) && (b <=? 191).

(** unicode/utf8 [first]/[acceptRanges]: number of bytes of the sequence started
    by a byte and the range allowed for the second byte. *)
Definition utf8_first (b : byte) : option (nat * byte * byte) :=
  if b <? 194 then None
  else if b <=? 223 then Some (2%nat, 128, 191)
  else if b =? 224 then Some (3%nat, 160, 191)
  else if b =? 237 then Some (3%nat, 128, 159)
  else if b <=? 239 then Some (3%nat, 128, 191)
  else if b =? 240 then Some (4%nat, 144, 191)
  else if b <=? 243 then Some (4%nat, 128, 191)
  else if b =? 244 then Some (4%nat, 128, 143)
  else None.

(** unicode/utf8.DecodeRuneInString (called in lex.go:532): rune and width of the
    first UTF-8 sequence; (RuneError, 0) on the empty string, (RuneError, 1) on an
    invalid sequence. *)
Definition decode_rune (s : list byte) : rune * nat :=
  match s with
  | [] => (rune_error, 0%nat)
  | b0 :: t0 =>
    if b0 <? 128 then (b0, 1%nat) else
    match utf8_first b0 with
    | None => (rune_error, 1%nat)
    | Some (sz, lo, hi) =>
      match t0 with
      | [] => (rune_error, 1%nat)
      | b1 :: t1 =>
        if negb (Nat.leb sz (length s)) then (rune_error, 1%nat)
        else if (b1 <? lo) || (hi <? b1) then (rune_error, 1%nat)
        else if Nat.leb sz 2 then (b0 mod 32 * 64 + b1 mod 64, 2%nat)
        else match t1 with
        | [] => (rune_error, 1%nat)
        | b2 :: t2 =>
          if negb (cont_byte b2) then (rune_error, 1%nat)
          else if Nat.leb sz 3
          then (b0 mod 16 * 4096 + b1 mod 64 * 64 + b2 mod 64, 3%nat)
          else match t2 with
          | [] => (rune_error, 1%nat)
          | b3 :: _ =>
            if negb (cont_byte b3) then (rune_error, 1%nat)
            else (b0 mod 8 * 262144 + b1 mod 64 * 4096 + b2 mod 64 * 64 + b3 mod 64, 4%nat)
          end
        end
      end
    end
  end.

(** lex.go:281-294 (Lexer); [lx_tokens] is the history of the channel, newest
    token first.  The current state function is a separate argument of [step]. *)
Record lexer := Lexer {
  lx_input : list byte;
  lx_start : nat;
  lx_pos : nat;
  lx_width : nat;
  lx_tokens : list token
}.

Definition eof : rune := -1.

(** Go slice expression input[a:b]. *)
Definition slice (s : list byte) (a b : nat) : list byte := firstn (b - a) (skipn a s).

(** lex.go:527-536 (next). *)
Definition next (l : lexer) : rune * lexer :=
  if Nat.leb (length (lx_input l)) (lx_pos l)
  then (eof, Lexer (lx_input l) (lx_start l) (lx_pos l) 0 (lx_tokens l))
  else let '(r, w) := decode_rune (skipn (lx_pos l) (lx_input l)) in
       (r, Lexer (lx_input l) (lx_start l) (lx_pos l + w) w (lx_tokens l)).

(** lex.go:521-525 (peek). *)
Definition peek (l : lexer) : rune * lexer :=
  let '(r, l') := next l in
  (r, Lexer (lx_input l') (lx_start l') (lx_pos l' - lx_width l') (lx_width l') (lx_tokens l')).

(** strings.LastIndex(s, "\n") as used in lex.go:549; None for -1. *)
Fixpoint last_newline_from (i : nat) (s : list byte) (acc : option nat) : option nat :=
  match s with
  | [] => acc
  | b :: t => last_newline_from (S i) t (if b =? 10 then Some i else acc)
  end.
Definition last_newline (s : list byte) : option nat := last_newline_from 0 s None.

(** utf8.RuneCountInString; [fuel] is at least the length of [s]. *)
Fixpoint rune_count (fuel : nat) (s : list byte) : nat :=
  match fuel, s with
  | S f, _ :: _ => S (rune_count f (skipn (snd (decode_rune s)) s))
  | _, _ => 0%nat
  end.

(** lex.go:548-554 (linePos). *)
Definition line_pos (l : lexer) (start : nat) : nat :=
  let line_index :=
    match last_newline (firstn start (lx_input l)) with
    | None => 0%nat
    | Some i => i
    end in
  rune_count start (slice (lx_input l) line_index start).

(** strings.Count(s, "\n"). *)
Fixpoint count_newlines (s : list byte) : nat :=
  match s with
  | [] => 0%nat
  | b :: t => if b =? 10 then S (count_newlines t) else count_newlines t
  end.

(** lex.go:556-558 (lineNumber). *)
Definition line_number (l : lexer) : nat :=
  S (count_newlines (firstn (lx_start l) (lx_input l))).

(** lex.go:538-541 (emit). *)
Definition emit (k : kind) (l : lexer) : lexer :=
  Lexer (lx_input l) (lx_pos l) (lx_pos l) (lx_width l)
    (Token k (slice (lx_input l) (lx_start l) (lx_pos l))
       (line_pos l (lx_start l)) (line_number l) :: lx_tokens l).

(** lex.go:543-546 (errorf).  The token's text is the message, which the model
    keeps in the kind. *)
Definition errorf (e : lex_error) (l : lexer) : lexer :=
  Lexer (lx_input l) (lx_start l) (lx_pos l) (lx_width l)
    (Token (KErr e) [] (line_pos l (lx_pos l)) (line_number l) :: lx_tokens l).

(** lex.go:568-588: character classes. *)
Definition is_alphabetic (u : unicode) (r : rune) : bool := (r =? 95) || uc_is_letter u r.
Definition is_numeric (u : unicode) (r : rune) : bool := uc_is_digit u r.
Definition is_alpha_numeric (u : unicode) (r : rune) : bool := is_alphabetic u r || is_numeric u r.
Definition is_hexadecimal (u : unicode) (r : rune) : bool :=
  is_numeric u r
  || (r =? 97) || (r =? 98) || (r =? 99) || (r =? 100) || (r =? 101) || (r =? 102)
  || (r =? 65) || (r =? 66) || (r =? 67) || (r =? 68) || (r =? 69) || (r =? 70).
Definition is_end_of_line (r : rune) : bool := (r =? 13) || (r =? 10).
Definition is_escape (r : rune) : bool := (r =? 114) || (r =? 110) || (r =? 92) || (r =? 34).

(** lex.go:298: the state functions. *)
Inductive state := LText | LComment | LString | LHexOrDec | LDec | LSpace | LIdentifier.

(** Shared shape of the loops of lex.go:424, 458, 484, 495:
    [for l.peek() != eof && p(l.peek()) { l.next() }].  None: out of fuel. *)
Fixpoint accept_while (fuel : nat) (p : rune -> bool) (l : lexer) : option lexer :=
  match fuel with
  | O => None
  | S f =>
    let '(r, l1) := peek l in
    if negb (r =? eof) && p r
    then let '(_, l2) := next l1 in accept_while f p l2
    else Some l1
  end.

(** Enough iterations for any loop that consumes input. *)
Definition loop_fuel (l : lexer) : nat := S (length (lx_input l)).

(** lex.go:423-429 (lexComment). *)
Definition lex_comment (l : lexer) : option (lexer * option state) :=
  match accept_while (loop_fuel l) (fun r => negb (is_end_of_line r)) l with
  | None => None
  | Some l1 => Some (emit KComment l1, Some LText)
  end.

(** lex.go:433-446: the loop of lexString.  The result is None when out of fuel,
    [inl] when an unknown escape was found, [inr] when the loop ended normally. *)
Fixpoint string_loop (fuel : nat) (l : lexer) : option (lexer + lexer) :=
  match fuel with
  | O => None
  | S f =>
    let '(r, l1) := peek l in
    if (r =? eof) || (r =? 34) then Some (inr l1)
    else if r =? 92 then
      let '(_, l2) := next l1 in
      let '(r2, l3) := peek l2 in
      if negb (is_escape r2) then Some (inl l3)
      else let '(_, l4) := next l3 in string_loop f l4
    else let '(_, l2) := next l1 in string_loop f l2
  end.

(** lex.go:432-454 (lexString). *)
Definition lex_string (l : lexer) : option (lexer * option state) :=
  match string_loop (loop_fuel l) l with
  | None => None
  | Some (inl l1) => Some (errorf UnknownEscape l1, None)
  | Some (inr l1) =>
    let '(r, l2) := next l1 in
    if negb (r =? 34) then Some (errorf UnclosedString l2, None)
    else Some (emit KString l2, Some LText)
  end.

(** lex.go:457-463 (lexInteger). *)
Definition lex_integer (p : rune -> bool) (l : lexer) : option (lexer * option state) :=
  match accept_while (loop_fuel l) p l with
  | None => None
  | Some l1 => Some (emit KInteger l1, Some LText)
  end.

(** lex.go:465-476 (lexHexOrDecInteger). *)
Definition lex_hex_or_dec (u : unicode) (l : lexer) : option (lexer * option state) :=
  let '(r, l1) := peek l in
  if r =? 120 then
    let '(_, l2) := next l1 in
    let '(r2, l3) := peek l2 in
    if negb (is_hexadecimal u r2) then Some (errorf HexWithoutDigits l3, None)
    else lex_integer (is_hexadecimal u) l3
  else lex_integer (is_numeric u) l1.

(** lex.go:478-480 (lexDecInteger). *)
Definition lex_dec (u : unicode) (l : lexer) : option (lexer * option state) :=
  lex_integer (is_numeric u) l.

(** lex.go:483-489 (lexSpace). *)
Definition lex_space (l : lexer) : option (lexer * option state) :=
  match accept_while (loop_fuel l) (fun r => r =? 32) l with
  | None => None
  | Some l1 => Some (emit KSpace l1, Some LText)
  end.

(** lex.go:513-519 (atTerminator). *)
Definition terminators : list rune :=
  [40; 32; 58; 44; 41; 13; 10; 46; 43; 45; 42; 47; 62; 60; 91; 93; eof; 171; 187].
Definition at_terminator (l : lexer) : bool * lexer :=
  let '(r, l1) := peek l in
  (existsb (Z.eqb r) terminators, l1).

(** lex.go:164-183 (key), words as bytes. *)
Definition key_table : list (list byte * kind) := [
  ([102;110], KFn);                          (* fn *)
  ([114;101;116;117;114;110], KReturn);      (* return *)
  ([105;102], KIf);                          (* if *)
  ([101;108;115;101;105;102], KElseIf);      (* elseif *)
  ([101;108;115;101], KElse);                (* else *)
  ([116;114;117;101], KTrue);                (* true *)
  ([102;97;108;115;101], KFalse);            (* false *)
  ([110;111;116], KNot);                     (* not *)
  ([97;110;100], KAnd);                      (* and *)
  ([111;114], KOr);                          (* or *)
  ([115;116;114;117;99;116], KStruct);       (* struct *)
  ([119;104;105;108;101], KWhile);           (* while *)
  ([102;111;114], KFor);                     (* for *)
  ([105;110], KIn);                          (* in *)
  ([101;110;117;109], KEnum);                (* enum *)
  ([109;97;116;99;104], KMatch);             (* match *)
  ([99;97;115;101], KCase);                  (* case *)
  ([116;121;112;101], KType)                (* type *)
].

Fixpoint bytes_eqb (a b : list byte) : bool :=
  match a, b with
  | [], [] => true
  | x :: a', y :: b' => (x =? y) && bytes_eqb a' b'
  | _, _ => false
  end.

(** key[word] *)
Fixpoint key_lookup (tbl : list (list byte * kind)) (w : list byte) : option kind :=
  match tbl with
  | [] => None
  | (w', k) :: t => if bytes_eqb w w' then Some k else key_lookup t w
  end.

(** lex.go:492-511 (lexIdentifier). *)
Definition lex_identifier (u : unicode) (l : lexer) : option (lexer * option state) :=
  match accept_while (loop_fuel l) (is_alpha_numeric u) l with
  | None => None
  | Some l1 =>
    let '(ok, l2) := at_terminator l1 in
    if negb ok then
      let '(r, l3) := peek l2 in Some (errorf (UnexpectedCharacter r) l3, None)
    else
      let word := slice (lx_input l2) (lx_start l2) (lx_pos l2) in
      match key_lookup key_table word with
      | Some k => if is_keyword k then Some (emit k l2, Some LText)
                  else Some (emit KIdentifier l2, Some LText)
      | None => Some (emit KIdentifier l2, Some LText)
      end
  end.

(** lex.go:313-420 (lexText): one iteration of its loop.  Staying in the loop is
    modelled as returning the state LText again. *)
Definition lex_text (u : unicode) (l0 : lexer) : option (lexer * option state) :=
  let '(r, l) := next l0 in
  let go k := Some (emit k l, Some LText) in
  if r =? 32 then Some (l, Some LSpace)
  else if r =? 40 then go KLParen
  else if r =? 41 then go KRParen
  else if r =? 123 then go KLBrace
  else if r =? 125 then go KRBrace
  else if r =? 91 then go KLBrack
  else if r =? 93 then go KRBrack
  else if r =? 171 then go KLGmet
  else if r =? 187 then go KRGmet
  else if r =? 35 then go KHash
  else if r =? 63 then go KQuestion
  else if r =? 44 then go KComma
  else if r =? 58 then
    let '(r2, l1) := peek l in
    if r2 =? 61 then Some (emit KDas (snd (next l1)), Some LText)
    else Some (emit KColon l1, Some LText)
  else if r =? 43 then go KPlus
  else if r =? 45 then go KMin
  else if r =? 42 then go KMul
  else if r =? 126 then go KBNot
  else if r =? 94 then go KBXor
  else if r =? 124 then go KBOr
  else if r =? 38 then go KBAnd
  else if r =? 62 then
    let '(r2, l1) := peek l in
    if r2 =? 62 then Some (emit KBRight (snd (next l1)), Some LText)
    else if r2 =? 61 then Some (emit KGte (snd (next l1)), Some LText)
    else Some (emit KGt l1, Some LText)
  else if r =? 60 then
    let '(r2, l1) := peek l in
    if r2 =? 60 then Some (emit KBLeft (snd (next l1)), Some LText)
    else if r2 =? 61 then Some (emit KLte (snd (next l1)), Some LText)
    else Some (emit KLt l1, Some LText)
  else if r =? 46 then
    let '(r2, l1) := peek l in
    if r2 =? 46 then Some (emit KDotDot (snd (next l1)), Some LText)
    else Some (emit KDot l1, Some LText)
  else if r =? 34 then Some (l, Some LString)
  else if r =? 61 then
    let '(r2, l1) := peek l in
    if r2 =? 61 then Some (emit KEq (snd (next l1)), Some LText)
    else Some (emit KAs l1, Some LText)
  else if r =? 47 then
    let '(r2, l1) := peek l in
    if r2 =? 47 then Some (snd (next l1), Some LComment)
    else Some (emit KDiv l1, Some LText)
  else if r =? 48 then Some (l, Some LHexOrDec)
  else if (49 <=? r) && (r <=? 57) then Some (l, Some LDec)
  else if is_alphabetic u r then Some (l, Some LIdentifier)
  else if is_end_of_line r then go KEOL
  else if r =? eof then Some (emit KEOF l, None)
  else Some (errorf (UnexpectedCharacter r) l, None).

(** Dispatch on the current state function (lex.go:308). *)
Definition step (u : unicode) (s : state) (l : lexer) : option (lexer * option state) :=
  match s with
  | LText => lex_text u l
  | LComment => lex_comment l
  | LString => lex_string l
  | LHexOrDec => lex_hex_or_dec u l
  | LDec => lex_dec u l
  | LSpace => lex_space l
  | LIdentifier => lex_identifier u l
  end.

(** lex.go:306-311 (run).  None: out of fuel. *)
Fixpoint run (u : unicode) (fuel : nat) (s : state) (l : lexer) : option lexer :=
  match fuel with
  | O => None
  | S f =>
    match step u s l with
    | None => None
    | Some (l1, None) => Some l1
    | Some (l1, Some s1) => run u f s1 l1
    end
  end.

(** lex.go:300-304 (Lex) and the tokens received through NextToken (560-562),
    in order, until the channel is closed. *)
Definition lex_with (u : unicode) (fuel : nat) (input : list byte) : option (list token) :=
  match run u fuel LText (Lexer input 0 0 0 []) with
  | None => None
  | Some l => Some (rev (lx_tokens l))
  end.

(** Two state transitions per byte always suffice, plus one for the end. *)
Definition lex (u : unicode) (input : list byte) : option (list token) :=
  lex_with u (S (2 * length input)) input.

(** main.go:171-196 (lexAndParse, the token loop): layout tokens are dropped, an
    error token stops with an error, EOF stops.  [inl] is the error token, [inr]
    the tokens handed to the parser; None when the stream ends without EOF or
    error (Go would dereference nil). *)
Definition is_layout (k : kind) : bool :=
  match k with KEOL | KSpace | KComment => true | _ => false end.

Fixpoint filter_tokens (ts : list token) (acc : list token) : option (token + list token) :=
  match ts with
  | [] => None
  | t :: rest =>
    if is_layout (tk_kind t) then filter_tokens rest acc
    else match tk_kind t with
         | KErr _ => Some (inl t)
         | KEOF => Some (inr (rev (t :: acc)))
         | _ => filter_tokens rest (t :: acc)
         end
  end.

Definition lex_filtered (u : unicode) (input : list byte) : option (token + list token) :=
  match lex u input with
  | None => None
  | Some ts => filter_tokens ts []
  end.
