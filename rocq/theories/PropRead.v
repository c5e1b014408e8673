(** From source files to accepted programs: theorems for property C59. *)
From Coq Require Import String Ascii List Bool PeanoNat ZArith Lia.
From Verif Require Import TypeModel TypeSpec TypeGraph CheckModel CheckSpec CheckSafe DeclModel DeclSpec DeclAccept PropDecl PropWritten
  LexModel LexSpec ParseModel ParseSpec FileModel FileSpec FileParse FileProofs ReadModel ReadSpec ReadProofs ReadNames ReadTypes.
Import ListNotations.
Local Open Scope nat_scope.
Local Open Scope list_scope.

(* --------------------------------------------------------------------------------- C59 *)
(** The passes after the parser take the tree of a program for what the program means: each
    child of a node is looked for where the parser put it, and foldConstants changes nothing
    but literals with a minus sign. *)
Theorem C59_nodes_mean_the_program : forall attr_name ns p ds, map erase ns = map (node_decl attr_name) p ->
  decls_of ns = Some (inl ds) <-> mean_program p = Some ds.
Proof. exact program_read. Qed.
Print Assumptions C59_nodes_mean_the_program.

(** So do files whose words are those of programs (C58). *)
Theorem C59_files_mean_programs_partial : forall u attr_name files progs, Forall (Forall is_byte) files ->
  Forall2 (fun f p => words_of u f (show_program p)) files progs -> Forall (fun p => fits_program true true p = true) progs ->
  exists ns, front_end u attr_name files = Some (inl ns) /\ forall ds, decls_of ns = Some (inl ds) <-> mean_program (concat progs) = Some ds.
Proof.
  intros u attr_name files progs B W F. destruct (programs_are_read u attr_name files progs B W F) as (ns & E & H). exists ns. split; [exact E|]. intros ds. exact (program_read attr_name ns _ ds H).
Qed.
Print Assumptions C59_files_mean_programs_partial.

(** Nothing else is taken for a program, and all its names are proper. *)
Theorem C59_only_programs_have_meaning_partial : forall u attr_name files wss ns ds, Forall (Forall is_byte) files -> Forall2 (words_of u) files wss ->
  Forall (fun ws => wants (last_word ws) = false) wss -> front_end u attr_name files = Some (inl ns) -> decls_of ns = Some (inl ds) ->
  exists progs, wss = map show_program progs /\ mean_program (concat progs) = Some ds /\ all_names_ok ds.
Proof.
  intros u attr_name files wss ns ds B W L E D. destruct (accepted_files u attr_name files wss ns B W L E) as (progs & -> & H). exists progs. split; [reflexivity|].
  pose proof (proj1 (program_read attr_name ns _ ds H) D) as M. split; [exact M|]. refine (programs_ok u files progs ds B _ M).
  clear - W. revert progs W. induction files as [|f fs IH]; intros [|p ps] W; inversion W; subst; constructor; auto.
Qed.
Print Assumptions C59_only_programs_have_meaning_partial.

(** Files with a good program whose bodies follow the rules are accepted by every pass. *)
Theorem C59_good_files_are_accepted_partial : forall u attr_name files progs ds cs, Forall (Forall is_byte) files ->
  Forall2 (fun f p => words_of u f (show_program p)) files progs -> Forall (fun p => fits_program true true p = true) progs ->
  mean_program (concat progs) = Some ds -> good ds cs -> (forall P, declare_all ds = Accepted P -> Forall (body_fits P) (p_funs P)) ->
  exists ns P n0, front_end u attr_name files = Some (inl ns) /\ decls_of ns = Some (inl ds) /\ declare_all ds = Accepted P /\ forall n, n0 <= n -> check_program n P = [].
Proof.
  intros u attr_name files progs ds cs B W F M G H. destruct (C59_files_mean_programs_partial u attr_name files progs B W F) as (ns & E & D).
  destruct (C54_good_programs_are_accepted_partial ds cs G H) as (P & n0 & A & C). exists ns, P, n0. split; [exact E|]. split; [now apply D|]. now split.
Qed.
Print Assumptions C59_good_files_are_accepted_partial.

(** Files that every pass accepts do not go wrong when they run; of the conditions of C53 the
    one on names holds by itself. *)
Theorem C59_accepted_files_do_not_go_wrong_partial : forall u attr_name files wss ns ds P n, Forall (Forall is_byte) files -> Forall2 (words_of u) files wss ->
  Forall (fun ws => wants (last_word ws) = false) wss ->
  front_end u attr_name files = Some (inl ns) -> decls_of ns = Some (inl ds) -> declare_all ds = Accepted P -> check_program n P = [] ->
  unshadowed ds -> all_complete ds ->
  forall M, externs_ok M P (checked n P) ->
  forall k f d vs, nth_error (p_funs P) f = Some d -> Forall2 plain_val vs (map snd (f_params d)) ->
  match call M P (checked n P) k [] (VFun f) vs with
  | Wrong => False
  | CheckSpec.Fine (v, _) => plain_type (f_ret d) -> plain_val v (f_ret d)
  | _ => True
  end.
Proof.
  intros u attr_name files wss ns ds P n B W L E D A C U K M X. destruct (C59_only_programs_have_meaning_partial u attr_name files wss ns ds B W L E D) as (progs & _ & _ & N).
  exact (C53_written_programs_do_not_go_wrong_partial M ds P n A N U K X C).
Qed.
Print Assumptions C59_accepted_files_do_not_go_wrong_partial.

(** Where the types in a body are known, the body the type checker gets is the same tree with
    those types in it, and names keep their bytes. *)
Theorem C59_types_are_put_in : forall env, (forall e x, puts env e x -> typed env e = x) /\ (forall l x, puts_block env l x -> map (typed_stmt env) l = x).
Proof. intros env. split; apply (puts_typed env). Qed.
Print Assumptions C59_types_are_put_in.
Theorem C59_names_keep_their_bytes : forall l, Forall is_byte l -> map (fun c => Z.of_nat (nat_of_ascii c)) (list_ascii_of_string (str l)) = l.
Proof. exact str_bytes. Qed.
Print Assumptions C59_names_keep_their_bytes.
(** fn(n: int) { while n - 1 > 0 { n = 2 } } and a name with a byte above 127. *)
Example C59_types_example : forall env, stands env (XNamed "int" None) TInt ->
  typed env (RFn [("n"%string, XNamed "int" None)] None [RWhile (RCmp OGt (RArith OSub (RId "n") (RLit (CheckModel.LInt 1))) (RLit (CheckModel.LInt 0))) [RAs (RId "n") (RLit (CheckModel.LInt 2))]]) =
  EFn [] [("n"%string, TInt)] TNothing [SWhile (ECmp OGt (EArith OSub (EId "n") (ELit (CheckModel.LInt 1))) (ELit (CheckModel.LInt 0))) [SAs (EId "n") (ELit (CheckModel.LInt 2))]].
Proof.
  intros env H. apply (C59_types_are_put_in env). apply pu_fn; [constructor; [split; [reflexivity|exact H]|constructor]|constructor|]. repeat constructor.
Qed.
Example C59_bytes_example : list_ascii_of_string (str [195; 169]%Z) = [ascii_of_nat 195; ascii_of_nat 169].
Proof. reflexivity. Qed.

(** The program of C53 in two files, with a comment. *)
Definition code (s : string) : list byte := flat_map (fun c => if Z.eqb c 60 then [194; 171]%Z else if Z.eqb c 62 then [194; 187]%Z else if Z.eqb c 39 then [34%Z] else [c]) (text s).
Definition file1 : list byte := code "// a program" ++ [10%Z] ++ code "fn main() int { return get(Some(first(Pair(3, 's'))), 0) }" ++ [10%Z] ++
  code "struct pair<A, B> { fst: A snd: B }".
Definition file2 : list byte := code "enum opt<C> { None() Some(x: C) } fn get<T>(o: opt<T>, other: T) T { match o { case None(): return other case Some(v): return v } } fn first(p: pair<int, string>) int = p.fst".
Definition uni : unicode := Unicode (fun _ => false) (fun _ => false).
Definition attr0 (x : list Z) : option bool := None.
Definition nodes0 : list node := match front_end uni attr0 [file1; file2] with Some (inl ns) => ns | _ => [] end.
Example C59_example_read : front_end uni attr0 [file1; file2] = Some (inl nodes0) /\ decls_of nodes0 = Some (inl ds0).
Proof. split; vm_compute; reflexivity. Qed.
Lemma words_by u f l : Forall is_byte f -> lex_filtered u f = Some (inr l) -> words_of u f (map look l).
Proof.
  intros B E. destruct (words_exist u f B) as [ws W]. destruct (file_tokens u f ws B W) as [(w0 & eof & E1 & <- & _)|(t & e & ws0 & E1 & _)]; rewrite E in E1; [|discriminate]. now injection E1 as ->.
Qed.
Definition words0 (f : list byte) : list word := match lex_filtered uni f with Some (inr l) => map look l | _ => [] end.
Example C59_example_words : Forall (Forall is_byte) [file1; file2] /\ Forall2 (words_of uni) [file1; file2] [words0 file1; words0 file2] /\
  Forall (fun ws => wants (last_word ws) = false) [words0 file1; words0 file2].
Proof.
  assert (B : forall f, forallb (fun b => Z.leb 0 b && Z.ltb b 256) f = true -> Forall is_byte f).
  { intros f H. apply Forall_forall. intros b Hb. rewrite forallb_forall in H. specialize (H b Hb). apply andb_true_iff in H as [H1 H2]. split; [now apply Z.leb_le|now apply Z.ltb_lt]. }
  assert (B1 : Forall is_byte file1) by (apply B; vm_compute; reflexivity). assert (B2 : Forall is_byte file2) by (apply B; vm_compute; reflexivity).
  split; [constructor; [exact B1|constructor; [exact B2|constructor]]|]. split.
  - constructor; [|constructor; [|constructor]]; unfold words0.
    + destruct (lex_filtered uni file1) as [[t|l]|] eqn:E; [revert E; vm_compute; discriminate| |revert E; vm_compute; discriminate]. exact (words_by uni file1 l B1 E).
    + destruct (lex_filtered uni file2) as [[t|l]|] eqn:E; [revert E; vm_compute; discriminate| |revert E; vm_compute; discriminate]. exact (words_by uni file2 l B2 E).
  - repeat constructor; vm_compute; reflexivity.
Qed.
(** The programs of the two files; what they mean is accepted and runs (C53, C54). *)
Definition named (x : string) : ParseSpec.ty := TyName (text x) None.
Definition prog1 : list ParseSpec.decl :=
  [ParseSpec.DFn [] (text "main") None [] (Some (named "int")) (Some (Block [Return (Some (Call (Id (text "get"))
     [Call (Id (text "Some")) [Call (Id (text "first")) [Call (Id (text "Pair")) [Lit (ParseSpec.LInt (text "3")); Lit (ParseSpec.LStr (code "'s'"))]]]; Lit (ParseSpec.LInt (text "0"))]))]));
   ParseSpec.DStruct [] (text "pair") (Some [named "A"; named "B"]) [(text "fst", named "A"); (text "snd", named "B")]].
Definition prog2 : list ParseSpec.decl :=
  [ParseSpec.DEnum [] (text "opt") (Some [named "C"]) [(text "None", []); (text "Some", [(text "x", named "C")])];
   ParseSpec.DFn [] (text "get") (Some [named "T"]) [(text "o", TyName (text "opt") (Some [named "T"])); (text "other", named "T")] (Some (named "T"))
     (Some (Block [Match (Id (text "o")) [(text "None", [], [Return (Some (Id (text "other")))]); (text "Some", [text "v"], [Return (Some (Id (text "v")))])]]));
   ParseSpec.DFn [] (text "first") None [(text "p", TyName (text "pair") (Some [named "int"; named "string"]))] (Some (named "int")) (Some (Expr (Bin BDot (Id (text "p")) (Id (text "fst")))))].
Example C59_example_programs : words0 file1 = show_program prog1 /\ words0 file2 = show_program prog2 /\ Forall (fun p => fits_program true true p = true) [prog1; prog2] /\
  mean_program (concat [prog1; prog2]) = Some ds0.
Proof. split; [vm_compute; reflexivity|]. split; [vm_compute; reflexivity|]. split; [repeat constructor|]. vm_compute. reflexivity. Qed.
Example C59_example_accepted : exists ns P n0, front_end uni attr0 [file1; file2] = Some (inl ns) /\ decls_of ns = Some (inl ds0) /\ declare_all ds0 = Accepted P /\ forall n, n0 <= n -> check_program n P = [].
Proof.
  destruct C59_example_words as (B & W & _). destruct C59_example_programs as (E1 & E2 & F & M). rewrite E1, E2 in W. destruct C54_written_case as [G H].
  refine (C59_good_files_are_accepted_partial uni attr0 [file1; file2] [prog1; prog2] ds0 _ B _ F M G H). inversion W as [|? ? ? ? W1 W2]; subst. inversion W2; subst. constructor; [exact W1|constructor; [assumption|constructor]].
Qed.
(** A literal that is too big, and one that is not only because of its sign. *)
Example C59_example_literals :
  (match front_end uni attr0 [code "fn f() int = -9223372036854775808"] with Some (inl ns) => option_map (fun r => match r with inl ds => List.length ds | inr _ => 0 end) (decls_of ns) | _ => None end) = Some 1 /\
  (match front_end uni attr0 [code "fn f() int = 9223372036854775808"] with Some (inl ns) => decls_of ns | _ => None end) = Some (inr [text "9223372036854775808"]).
Proof. split; vm_compute; reflexivity. Qed.
