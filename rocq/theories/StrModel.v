(** Model of how the text of a string literal becomes the bytes of a constant: Go's
    strconv.Unquote, which asm.go:413 uses to count them, and the .ascii directive of the
    assembler, which writes them (asm.go:420). *)
From Coq Require Import ZArith List Bool.
From Verif Require Import LexModel.
Import ListNotations.
Open Scope Z_scope.

(** unicode/utf8.AppendRune, used by strconv.Unquote: runes that are not Unicode scalar
    values become RuneError. *)
Definition append_rune (r : rune) : list byte :=
  if (0 <=? r) && (r <? 128) then [r]
  else if (0 <=? r) && (r <? 2048) then [192 + r / 64; 128 + r mod 64]
  else
    let r := if (r <? 0) || (1114111 <? r) || ((55296 <=? r) && (r <? 57344)) then rune_error else r in
    if r <? 65536 then [224 + r / 4096; 128 + r / 64 mod 64; 128 + r mod 64]
    else [240 + r / 262144; 128 + r / 4096 mod 64; 128 + r / 64 mod 64; 128 + r mod 64].

(** strconv.UnquoteChar after a backslash, for a double-quoted text: the escapes of one letter.
    Simplified: the numeric ones (\x, \u, \U, \0..\7) count as errors here; the lexer
    (lex.go:585-588, isEscape) lets none of them through. *)
Definition go_escape (c : byte) : option byte :=
  if c =? 97 then Some 7
  else if c =? 98 then Some 8
  else if c =? 102 then Some 12
  else if c =? 110 then Some 10
  else if c =? 114 then Some 13
  else if c =? 116 then Some 9
  else if c =? 118 then Some 11
  else if c =? 92 then Some 92
  else if c =? 34 then Some 34
  else None.

(** strconv.Unquote on a text that starts with a double quote: the loop of strconv.unquote over
    UnquoteChar, which ends at the closing quote; None is ErrSyntax.  (The short cut for
    valid UTF-8 without backslash returns the same.)  [n] bounds the number of
    characters. *)
Fixpoint unquote_chars (n : nat) (s : list byte) : option (list byte) :=
  match n with
  | O => None
  | S n' =>
    match s with
    | [] => None
    | b :: t =>
      if b =? 34 then match t with [] => Some [] | _ => None end
      else if b =? 10 then None
      else if 128 <=? b then
        let (r, w) := decode_rune s in
        option_map (app (append_rune r)) (unquote_chars n' (skipn w s))
      else if negb (b =? 92) then option_map (cons b) (unquote_chars n' t)
      else match t with
        | [] => None
        | c :: t' =>
          match go_escape c with
          | None => None
          | Some v => option_map (cons v) (unquote_chars n' t')
          end
        end
    end
  end.
Definition unquote (s : list byte) : option (list byte) :=
  match s with
  | 34 :: t => unquote_chars (S (length t)) t
  | _ => None
  end.

(** The GNU assembler on what stands between the quotes of an .ascii directive (not part
    of /repo): escapes of the letters below and of up to three octal digits, every other
    byte as it is.  None where the text would end the string, or where this model does
    not say. *)
Definition octal (b : byte) : bool := (48 <=? b) && (b <=? 55).
Fixpoint assemble (s : list byte) : option (list byte) :=
  match s with
  | [] => Some []
  | b :: t =>
    if (b =? 34) || (b =? 10) then None
    else if negb (b =? 92) then option_map (cons b) (assemble t)
    else match t with
      | [] => None
      | c :: t1 =>
        if c =? 110 then option_map (cons 10) (assemble t1)
        else if c =? 114 then option_map (cons 13) (assemble t1)
        else if c =? 116 then option_map (cons 9) (assemble t1)
        else if c =? 98 then option_map (cons 8) (assemble t1)
        else if c =? 102 then option_map (cons 12) (assemble t1)
        else if c =? 92 then option_map (cons 92) (assemble t1)
        else if c =? 34 then option_map (cons 34) (assemble t1)
        else if octal c then
          match t1 with
          | d :: t2 =>
            if octal d then
              match t2 with
              | e :: t3 =>
                if octal e then option_map (cons ((64 * (c - 48) + 8 * (d - 48) + (e - 48)) mod 256)) (assemble t3)
                else option_map (cons (8 * (c - 48) + (d - 48))) (assemble t2)
              | [] => Some [8 * (c - 48) + (d - 48)]
              end
            else option_map (cons (c - 48)) (assemble t1)
          | [] => Some [c - 48]
          end
        else None
      end
  end.
