(** The source files of a program: theorems for property C58. *)
From Coq Require Import Ascii String ZArith List Bool Lia.
From Verif Require Import LexModel LexSpec ParseModel ParseSpec FileModel FileSpec FileParse FileShow FileProofs.
Import ListNotations.
Open Scope list_scope.

(* ------------------------------------------------------------------------------- C58 *)
(** All files are read, each on its own: the nodes and the errors are those of the files,
    in their order. *)
Theorem C58_files_are_read : forall u attr_name files, Forall (Forall is_byte) files -> exists rs,
  Forall2 (fun f r => lex_and_parse u attr_name f [] = Some r) files rs /\
  read_files u attr_name files [] [] = Some (flat_map fst rs, flat_map snd rs).
Proof. exact files_are_read. Qed.
Print Assumptions C58_files_are_read.

(** A file with a wrong word has this one error and no nodes. *)
Theorem C58_wrong_words : forall u attr_name f ws, Forall is_byte f -> words_of u f ws -> (exists w, In w ws /\ wrong w) ->
  exists t, lex_and_parse u attr_name f [] = Some ([], [LexErr t]) /\ look t = last ws (sym KEOF) /\ wrong (look t).
Proof.
  intros u attr_name f ws Hb Hw (w & Hi & Hr). destruct (read_one u attr_name f ws Hb Hw) as [(ts & r & _ & N & _)|(t & e & ws0 & E1 & -> & _ & K)].
  - rewrite Forall_forall in N. elim (N w Hi Hr).
  - exists t. split; [apply K|]. rewrite last_last. unfold look, wrong, sym. rewrite E1. cbn. eauto.
Qed.
Print Assumptions C58_wrong_words.

(** Files whose words are those of programs, brackets where needed and nothing that has to
    be told apart (C08): no error, and the tree is that of all the declarations. *)
Theorem C58_programs_are_read_partial : forall u attr_name files progs, Forall (Forall is_byte) files ->
  Forall2 (fun f p => words_of u f (show_program p)) files progs -> Forall (fun p => fits_program true true p = true) progs ->
  exists ns, front_end u attr_name files = Some (inl ns) /\ map erase ns = map (node_decl attr_name) (concat progs).
Proof. exact programs_are_read. Qed.
Print Assumptions C58_programs_are_read_partial.

(** Every such program with proper names and literals can be written down. *)
Theorem C58_programs_can_be_written_partial : forall u attr_name progs, Forall (writable_program u) progs -> Forall (fun p => fits_program true true p = true) progs ->
  exists ns, front_end u attr_name (map write progs) = Some (inl ns) /\ map erase ns = map (node_decl attr_name) (concat progs).
Proof. exact written_are_read. Qed.
Print Assumptions C58_programs_can_be_written_partial.

(** If there are no errors then the files are programs and the tree is theirs (but for
    files that end where an expression has to follow, C09). *)
Theorem C58_only_programs_are_read_partial : forall u attr_name files wss ns, Forall (Forall is_byte) files -> Forall2 (words_of u) files wss ->
  Forall (fun ws => wants (last_word ws) = false) wss -> front_end u attr_name files = Some (inl ns) ->
  exists progs, wss = map show_program progs /\ map erase ns = map (node_decl attr_name) (concat progs).
Proof. exact accepted_files. Qed.
Print Assumptions C58_only_programs_are_read_partial.

(** Every file has its words, and no others; they are those between its gaps. *)
Theorem C58_words : forall u f, Forall is_byte f -> exists ws, forall ws', words_of u f ws' <-> ws' = ws.
Proof.
  intros u f H. destruct (words_exist u f H) as [ws Hw]. exists ws. intros ws'. split; [intros H'; exact (words_unique u f ws' ws H' Hw)|now intros ->].
Qed.
Print Assumptions C58_words.
Theorem C58_words_between_gaps : forall u lead d f, layout (runes lead) -> doc_ok u d -> chars_of f (lead ++ doc_text d) ->
  words_of u f (map word_of (doc_tokens d) ++ [sym KEOF]).
Proof. exact doc_words. Qed.
Print Assumptions C58_words_between_gaps.

(** Blanks, line ends and comments do not matter: files with the same words have the same
    trees and the same errors, but for the places in them. *)
Theorem C58_layout_does_not_matter : forall u attr_name files files' wss, Forall (Forall is_byte) files -> Forall (Forall is_byte) files' ->
  Forall2 (words_of u) files wss -> Forall2 (words_of u) files' wss ->
  exists r r', read_files u attr_name files [] [] = Some r /\ read_files u attr_name files' [] [] = Some r' /\
    map erase (fst r) = map erase (fst r') /\ map bare_err (snd r) = map bare_err (snd r').
Proof.
  intros u attr_name files files' wss H1 H2 H3 H4. destruct (same_files u attr_name files files' wss H1 H2 H3 H4) as (r & r' & A & B & E).
  exists r, r'. split; [exact A|]. split; [exact B|]. unfold bare_file in E. now injection E.
Qed.
Print Assumptions C58_layout_does_not_matter.

(** Two files, fn f(a: i) i = a + 1 and struct s { b: i }; a third that has no meaning. *)
Definition letters : unicode := Unicode (fun _ => false) (fun _ => false).
Definition no_attr (x : list Z) : option bool := None.
Definition p1 : list decl := [DFn [] (text "f") None [(text "a", TyName (text "i") None)] (Some (TyName (text "i") None)) (Some (Expr (Bin BAdd (Id (text "a")) (Lit (LInt (text "1"))))))].
Definition p2 : list decl := [DStruct [] (text "s") None [(text "b", TyName (text "i") None)]].
Definition f1 : list byte := text "fn f(a: i) i =// f" ++ [10%Z] ++ text " a+1".
Definition f2 : list byte := text "struct s {b:i }".
Definition f3 : list byte := text "fn g() { ""a }".
Definition f4 : list byte := text "fn fn".
Ltac bytes := repeat constructor; unfold is_byte; cbn; lia.
Example C58_example_bytes : Forall (Forall is_byte) [f1; f2; f3; f4].
Proof. repeat (constructor; [bytes|]). constructor. Qed.
Example C58_example_read : option_map (fun r => match r with inl ns => map erase ns | inr _ => [] end) (front_end letters no_attr [f1; f2]) = Some (map (node_decl no_attr) (p1 ++ p2)).
Proof. vm_compute. reflexivity. Qed.
Example C58_example_fits : fits_program true true p1 = true /\ fits_program true true p2 = true.
Proof. split; reflexivity. Qed.
Lemma name_writable x : In x ["f"; "a"; "i"; "s"; "b"]%string -> writable letters (KIdentifier, text x).
Proof.
  intros H _. exists (text x). cbn in H. repeat (destruct H as [<-|H]; [split; [repeat constructor; unfold scalar; cbn; lia|]; split; [reflexivity|]; cbn;
    apply tok_word; [right; reflexivity|constructor| |cbn; intros [[E|E]|E]; discriminate|left; cbn; auto 10]; right; split; [reflexivity|]; intros s k K E; cbn in K;
    repeat (destruct K as [K|K]; [injection K as <- <-; discriminate E|]); destruct K|]). destruct H.
Qed.
Example C58_example_writable : Forall (writable_program letters) [p1; p2].
Proof.
  assert (A : forall k, has_text k = false -> writable letters (sym k)) by (intros k E E'; cbn in E'; congruence).
  constructor; [|constructor; [|constructor]]; unfold writable_program; cbn [p1 p2 flat_map show_decl show_attrs opt show_params commas map show_param show_ty show_body show show_lit bin_kind app fst snd];
    repeat (constructor; [first [apply A; reflexivity|apply (name_writable "f"); cbn; tauto|apply (name_writable "a"); cbn; tauto|apply (name_writable "i"); cbn; tauto|apply (name_writable "s"); cbn; tauto|apply (name_writable "b"); cbn; tauto|idtac]|]); try constructor.
  all: intros _; exists (text "1"); split; [repeat constructor; unfold scalar; cbn; lia|]; split; [reflexivity|]; apply tok_decimal; [cbn; tauto|constructor|cbn; discriminate].
Qed.
(** The file with the wrong word and the one with the wrong syntax have an error each; the
    others are still read. *)
Example C58_example_errors : option_map (fun r => (map erase (fst r), map bare_err (snd r))) (read_files letters no_attr [f1; f3; f4; f2] [] []) =
  Some (map (node_decl no_attr) (p1 ++ p2), [LexErr (Token (KErr UnclosedString) [] 0 0); SynErr (Token KFn [] 0 0) (XKind KIdentifier)]).
Proof. vm_compute. reflexivity. Qed.
Example C58_example_rejected : exists es, front_end letters no_attr [f1; f3; f4; f2] = Some (inr es).
Proof. eexists. vm_compute. reflexivity. Qed.

(** A file that ends where an expression has to follow is accepted, and is nothing. *)
Theorem C58_unfinished_file_refuted : exists f ws, Forall is_byte f /\ words_of letters f ws /\ front_end letters no_attr [f] = Some (inl []) /\
  forall p, map (node_decl no_attr) p = [] -> ws <> show_program p.
Proof.
  exists (text "fn f() ="). destruct (words_exist letters (text "fn f() =")) as [ws Hw]; [bytes|]. exists ws. split; [bytes|]. split; [exact Hw|]. split; [vm_compute; reflexivity|].
  intros [|] Hp; [|discriminate]. intros ->.
  destruct (file_tokens letters (text "fn f() =") _ ltac:(bytes) Hw) as [(w0 & eof & E & L & _)|(t & e & ws0 & E & _)].
  - assert (N : List.length (w0 ++ [eof]) = 6) by (apply (f_equal (fun r => match r with Some (inr l) => List.length l | _ => 0 end)) in E; rewrite <- E; vm_compute; reflexivity).
    rewrite <- (map_length look), L in N. discriminate N.
  - exfalso. revert E. vm_compute. discriminate.
Qed.
Print Assumptions C58_unfinished_file_refuted.
