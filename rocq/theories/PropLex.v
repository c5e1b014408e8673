(** Properties C01-C05 of the lexer.  Statements use LexModel (the code) and
    LexSpec (the specification) only. *)
From Coq Require Import Ascii String ZArith List Bool Lia.
From Verif Require Import LexModel LexSpec LexProofs LexRun LexDet LexLayout LexLoc.
Import ListNotations.
Open Scope Z_scope.

(** Tables with no letters and digits outside ASCII, for the examples. *)
Definition ascii_only : unicode := Unicode (fun _ => false) (fun _ => false).
Definition b (s : string) : list byte := text s.

(** C01: lexing ends, and the texts of the tokens, in order, are the input; if an
    error was reported they are the part of the input before the error. *)
Theorem C01_lexing_is_lossless : forall u input, Forall is_byte input ->
  exists toks, lex u input = Some toks /\
  exists rest, concat (map tk_val toks) ++ rest = input /\
  (rest = [] \/ exists t e, In t toks /\ tk_kind t = KErr e) /\
  ((forall t e, In t toks -> tk_kind t <> KErr e) -> rest = []).
Proof. exact lossless. Qed.
Print Assumptions C01_lexing_is_lossless.

Example C01_example :
  match lex ascii_only (b "fn main() = x1 + 0x2F // c") with
  | Some toks => concat (map tk_val toks) = b "fn main() = x1 + 0x2F // c"
  | None => False
  end.
Proof. vm_compute. reflexivity. Qed.

(** C02: the stream has exactly one EOF or error token, its last; all others have
    a non-empty text. *)
Theorem C02_one_terminal_token : forall u input, Forall is_byte input ->
  exists toks last, lex u input = Some (toks ++ [last]) /\
  (tk_kind last = KEOF \/ exists e, tk_kind last = KErr e) /\
  Forall (fun t => ~ (tk_kind t = KEOF \/ exists e, tk_kind t = KErr e) /\ tk_val t <> []) toks.
Proof. exact one_terminal. Qed.
Print Assumptions C02_one_terminal_token.

Example C02_example_eof : option_map (map tk_kind) (lex ascii_only (b "f(1)")) =
  Some [KIdentifier; KLParen; KInteger; KRParen; KEOF].
Proof. reflexivity. Qed.
Example C02_example_err : option_map (map tk_kind) (lex ascii_only (b "f(0x)")) =
  Some [KIdentifier; KLParen; KErr HexWithoutDigits].
Proof. reflexivity. Qed.

(** C03: kinds and texts are the ones the lexical grammar gives, which is
    unambiguous: it gives exactly one token stream. *)
Theorem C03_token_classification : forall u input cs, Forall is_byte input -> chars_of input cs ->
  exists toks, lex u input = Some toks /\
    forall ts, lexes u cs ts <-> ts = map (fun t => (tk_kind t, tk_val t)) toks.
Proof.
  exact (fun u input cs Hi Hc =>
    match lex_spec u input cs Hi Hc with
    | ex_intro _ toks (conj E (conj Hl _)) =>
      ex_intro _ toks (conj E (fun ts => conj
        (fun H => lexes_unique u cs ts H _ Hl)
        (fun H => eq_ind_r (lexes u cs) Hl H)))
    end).
Qed.
Print Assumptions C03_token_classification.

(** Every input is a sequence of characters in exactly one way. *)
Theorem C03_characters : forall input, exists cs, forall cs', chars_of input cs' <-> cs' = cs.
Proof.
  exact (fun input => match chars_total input with
    | ex_intro _ cs H => ex_intro _ cs (fun cs' => conj
        (fun H' => chars_functional input cs' H' cs H)
        (fun E => eq_ind_r (chars_of input) H E))
    end).
Qed.
Print Assumptions C03_characters.

(** On a UTF-8 encoded text these are the text's code points. *)
Theorem C03_characters_of_utf8 : forall rs, Forall scalar rs ->
  chars_of (concat (map utf8 rs)) (map (fun r => (r, utf8 r)) rs).
Proof. exact chars_encode. Qed.
Print Assumptions C03_characters_of_utf8.

Example C03_example :
  option_map (map (fun t => (tk_kind t, tk_val t))) (lex ascii_only (b "forx <= 007")) =
  Some [(KIdentifier, b "forx"); (KSpace, b " "); (KLte, b "<="); (KSpace, b " ");
        (KInteger, b "007"); (KEOF, [])].
Proof. reflexivity. Qed.

(** C04 (columns counted alike on all lines is false, see below): a token's line is one more than the number of newlines before it; its
    column counts the characters on its line before it, from 0 on the first line
    and from 1 on all later lines. *)
Theorem C04_token_locations_partial : forall u input toks,
  Forall is_byte input -> lex u input = Some toks ->
  forall pre t post before, toks = pre ++ t :: post ->
  chars_of (concat (map tk_val pre)) before ->
  tk_line t = S (newlines (runes before)) /\
  ((forall e, tk_kind t <> KErr e) ->
   tk_pos t = (chars_on_line (runes before) +
               (if Nat.eqb (newlines (runes before)) 0 then 0 else 1))%nat).
Proof. exact locations. Qed.
Print Assumptions C04_token_locations_partial.

Example C04_example :
  option_map (map (fun t => (tk_line t, tk_pos t))) (lex ascii_only (b "ab 1" ++ [10] ++ b " c")) =
  Some [(1, 0); (1, 2); (1, 3); (1, 4); (2, 1); (2, 2); (2, 3)]%nat.
Proof. reflexivity. Qed.

(** The column is not one fixed function of the text on the line before the token:
    the first line is numbered differently from the others. *)
Theorem C04_uniform_columns_refuted : exists u input t1 t2 toks,
  Forall is_byte input /\ lex u input = Some toks /\
  (* both tokens are the first on their lines *)
  nth_error toks 0 = Some t1 /\ nth_error toks 2 = Some t2 /\
  option_map tk_kind (nth_error toks 1) = Some KEOL /\
  tk_pos t1 <> tk_pos t2.
Proof.
  exists ascii_only, (b "a" ++ [10] ++ b "b"). eexists _, _, _.
  split; [repeat constructor; unfold is_byte; cbn; lia|].
  split; [vm_compute; reflexivity|].
  split; [reflexivity|]. split; [reflexivity|]. split; [reflexivity|]. cbn. discriminate.
Qed.
Print Assumptions C04_uniform_columns_refuted.

(** An error's line and column need not be those of any place in the text: the line
    is that of the token's start, the column that of the place reached. *)
Theorem C04_error_locations_refuted : exists u input t toks,
  Forall is_byte input /\ lex u input = Some toks /\ In t toks /\
  (exists e, tk_kind t = KErr e) /\
  forall n, ~ (tk_line t = S (newlines (firstn n input)) /\
    tk_pos t = (chars_on_line (firstn n input) +
                (if Nat.eqb (newlines (firstn n input)) 0 then 0 else 1))%nat).
Proof.
  exists ascii_only, (b """" ++ [10] ++ b "abc"). eexists _, _.
  split; [repeat constructor; unfold is_byte; cbn; lia|].
  split; [vm_compute; reflexivity|].
  split; [left; reflexivity|].
  split; [eexists; reflexivity|].
  intros n. do 6 (destruct n as [|n]; [cbn; lia|]). cbn. lia.
Qed.
Print Assumptions C04_error_locations_refuted.

(** C05: two texts with the same tokens, separated in both or in neither, give the
    parser the same tokens, whatever the layout is. *)
Theorem C05_layout_is_irrelevant : forall u lead lead' d d' i i',
  Forall is_byte i -> Forall is_byte i' ->
  layout (runes lead) -> layout (runes lead') ->
  doc_ok u d -> same_up_to_layout d d' ->
  chars_of i (lead ++ doc_text d) -> chars_of i' (lead' ++ doc_text d') ->
  exists out out', lex_filtered u i = Some (inr out) /\ lex_filtered u i' = Some (inr out') /\
    map (fun t => (tk_kind t, tk_val t)) out = map (fun t => (tk_kind t, tk_val t)) out' /\
    map (fun t => (tk_kind t, tk_val t)) out = doc_tokens d ++ [(KEOF, [])].
Proof. exact layout_irrelevant. Qed.
Print Assumptions C05_layout_is_irrelevant.

(** A document of four tokens and another layout of it. *)
Definition uc (s : string) : list uchar := map (fun r => (r, [r])) (text s).
Definition ex_doc : doc :=
  [((KReturn, uc "return"), uc " "); ((KIdentifier, uc "x"), []);
   ((KPlus, uc "+"), uc " "); ((KInteger, uc "12"), [])].
Definition ex_doc' : doc :=
  [((KReturn, uc "return"), [(10, [10])] ++ uc " // hm" ++ [(10, [10])]); ((KIdentifier, uc "x"), []);
   ((KPlus, uc "+"), uc "   "); ((KInteger, uc "12"), [])].

Example C05_example : doc_ok ascii_only ex_doc /\ same_up_to_layout ex_doc ex_doc' /\
  ex_doc <> ex_doc' /\ chars_of (b "return x+ 12") ([] ++ doc_text ex_doc).
Proof.
  split; [|split; [|split]].
  - unfold ex_doc. constructor; [reflexivity| | |constructor; [reflexivity| | |
      constructor; [reflexivity| | |constructor; [reflexivity| | |constructor]]]].
    + apply tok_word.
      * right. reflexivity.
      * repeat constructor; right; reflexivity.
      * left. exists "return"%string. split; [cbn; tauto|reflexivity].
      * cbn. intros [[X|X]|X]; discriminate X.
      * cbn. left. right. left. reflexivity.
    + right. split; [repeat constructor|]. exists 32, []. split; [reflexivity|left; reflexivity].
    + apply tok_word.
      * right. reflexivity.
      * constructor.
      * right. split; auto. intros s k H. cbn in H.
        repeat (destruct H as [E|H]; [inversion E; discriminate|]). contradiction.
      * cbn. intros [[X|X]|X]; discriminate X.
      * left. cbn. auto 20.
    + left. reflexivity.
    + apply tok_one; [reflexivity|]. cbn. intros [X|[X _]]; [apply X; reflexivity|discriminate].
    + right. split; [repeat constructor|]. exists 32, []. split; [reflexivity|left; reflexivity].
    + apply tok_decimal; [cbn; auto|repeat constructor|exact I].
    + left. reflexivity.
  - unfold ex_doc, ex_doc'. constructor; [|split; discriminate|constructor; [left; reflexivity|tauto|
      constructor; [|split; discriminate|constructor; [left; reflexivity|tauto|constructor]]]].
    + right. split.
      * apply lay_blank; [right; right; reflexivity|]. apply lay_blank; [left; reflexivity|].
        apply (lay_comment (text " hm") 10 []).
        -- repeat constructor; intros [X|X]; discriminate X.
        -- right. reflexivity.
        -- constructor.
      * eexists _, _. split; [reflexivity|]. right. right. reflexivity.
    + right. split; [repeat constructor|]. eexists _, _. split; [reflexivity|left; reflexivity].
  - discriminate.
  - apply (chars_encode (text "return x+ 12")). repeat constructor; unfold scalar; cbn; lia.
Qed.
