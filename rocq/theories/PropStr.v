(** Property C34: constants of string literals. *)
From Coq Require Import Ascii String ZArith List Bool Lia.
From Verif Require Import LexModel LexSpec StrModel StrSpec StrProofs X86 GenModel GenProgram GenStatic GenLabels GenSample PropLex.
Import ListNotations.
Open Scope Z_scope.
Open Scope list_scope.

(* ------------------------------------------------------------------------ C34 *)

(** C34 (false for source text that is not UTF-8 and for literals with a line end, see
    below): in the output of every program, at the label of a literal stand the read-only
    header of a string, the number of bytes the literal means (tagged), and an .ascii
    directive for which the assembler writes those bytes and a zero byte; the label is
    nowhere else. *)
Theorem C34_literals_partial : forall alloc ioob entry ts prog P sf,
  gen_program unquote alloc ioob entry ts prog start = Some (P, sf) -> NoDup (map_labels ts) ->
  forall n body bs, nth_error (g_lits sf) n = Some (literal body) -> Forall scalar body -> denotes body bs ->
  exists written,
    stands_at P (LLit n) [EWord (2 * read_only_header 4 + 1); EWord (2 * Z.of_nat (List.length bs) + 1); EAscii written] /\
    assemble written = Some (bs ++ [0]).
Proof. exact literal_stored. Qed.
Print Assumptions C34_literals_partial.

(** Every string token of every source file in UTF-8 is such a literal, and means exactly
    one sequence of bytes. *)
Theorem C34_source_literals : forall u rs toks tok, Forall scalar rs -> lex u (encoded rs) = Some toks ->
  In tok toks -> tk_kind tok = KString ->
  exists body bs, tk_val tok = literal body /\ Forall scalar body /\ denotes body bs /\ forall bs', denotes body bs' -> bs' = bs.
Proof.
  intros u rs toks tok Hs Hl Hi Hk. destruct (source_literal u rs toks tok Hs Hl Hi Hk) as (b & E & Hb & Hr).
  destruct (body_denotes b Hb) as [bs D]. exists b, bs. exact (conj E (conj Hr (conj D (denotes_unique b bs D)))).
Qed.
Print Assumptions C34_source_literals.

(** The constants are written, whatever else the program contains, if and only if no
    literal contains a line end. *)
Theorem C34_written_exactly : forall s,
  (forall txt, In txt (g_lits s) -> exists body, txt = literal body /\ string_body body /\ Forall scalar body) ->
  ((exists P, gen_flush unquote s = Some (P, s)) <-> forall body, In (literal body) (g_lits s) -> string_body body -> Forall scalar body -> ~ In 10 body).
Proof.
  intros s Hall. unfold gen_flush. split.
  - intros [P H] b Hi Hb Hs Hn. apply seq_inv in H as (c1 & s1 & c2 & H1 & H & ->). apply emit_inv in H1 as [-> ->].
    rewrite (lits_panic unquote _ _ Hi) in H; [discriminate|]. destruct (body_denotes b Hb) as [bs D].
    rewrite (unquote_literal b bs D Hs). destruct (in_dec Z.eq_dec 10 b); [reflexivity|contradiction].
  - intros H. destruct (lits_total unquote (g_lits s)) with (n := 0%nat) (s := s) as [c Hc].
    + intros txt Hi. destruct (Hall txt Hi) as (b & -> & Hb & Hs). destruct (body_denotes b Hb) as [bs D].
      rewrite (unquote_literal b bs D Hs). destruct (in_dec Z.eq_dec 10 b) as [X|X]; [elim (H b Hi Hb Hs X)|discriminate].
    + exists ([EData] ++ c). unfold seq, emit. rewrite Hc. reflexivity.
Qed.
Print Assumptions C34_written_exactly.

(** Whatever the bytes: a text is accepted as a constant only if it stands between two
    quotes, of which the second is its end. *)
Theorem C34_only_quoted : forall txt bs, unquote txt = Some bs -> exists body, txt = 34 :: body ++ [34].
Proof.
  assert (L : forall n s bs, unquote_chars n s = Some bs -> exists body, s = body ++ [34]).
  { induction n as [|n IH]; intros s bs H; [discriminate|]. cbn [unquote_chars] in H. destruct s as [|b t]; [discriminate|].
    destruct (b =? 34) eqn:E1. { destruct t; [|discriminate]. exists []. now apply Z.eqb_eq in E1 as ->. }
    destruct (b =? 10); [discriminate|]. destruct (128 <=? b).
    - destruct (decode_rune (b :: t)) as [r w]. destruct (unquote_chars n (skipn w (b :: t))) as [v|] eqn:E; [|discriminate].
      apply IH in E as [body E]. exists (firstn w (b :: t) ++ body). rewrite <- app_assoc, <- E. symmetry. apply firstn_skipn.
    - destruct (negb (b =? 92)).
      + destruct (unquote_chars n t) as [v|] eqn:E; [|discriminate]. apply IH in E as [body ->]. now exists (b :: body).
      + destruct t as [|c t']; [discriminate|]. destruct (go_escape c); [|discriminate].
        destruct (unquote_chars n t') as [v|] eqn:E; [|discriminate]. apply IH in E as [body ->]. now exists (b :: c :: body). }
  intros txt bs H. unfold unquote in H. destruct txt as [|b t]; [discriminate|].
  assert (b = 34 /\ exists n, unquote_chars n t = Some bs) as [-> [n E]].
  { destruct b as [|p|p]; try discriminate. do 6 (destruct p as [p|p|]; try discriminate). split; [reflexivity|eexists; exact H]. }
  apply L in E as [body ->]. now exists body.
Qed.
Print Assumptions C34_only_quoted.

(** The code of a literal loads the address 8 bytes after its label, which is that of the
    length; the label is that of no other literal. *)
Theorem C34_literal_address : forall slot t txt addr s c s', gen_expr slot (ELitStr t txt) addr s = Some (c, s') ->
  exists n, c = [EFlush; EIns movabs [OAddr (LLit n) 8; OReg rax]] /\ nth_error (g_lits s') n = Some txt /\
    (NoDup (g_lits s) -> NoDup (g_lits s')) /\ exists more, g_lits s' = g_lits s ++ more.
Proof.
  intros slot t txt addr s c s' H. cbn [gen_expr] in H.
  unfold string_lit, seq, emit, ins in H. destruct (find_lit 0 (g_lits s) txt) as [n|] eqn:E; injection H as <- <-.
  - apply find_lit_nth in E as [_ E]. rewrite Nat.sub_0_r in E. exists n. repeat split; auto. exists []. now rewrite app_nil_r.
  - eexists. split; [reflexivity|]. cbn. split; [|split].
    + rewrite nth_error_app2, Nat.sub_diag by auto. reflexivity.
    + intros Hd. apply find_lit_none in E. apply NoDup_rev in Hd.
      rewrite <- (rev_involutive (g_lits s ++ [txt])), rev_app_distr. apply NoDup_rev. cbn. constructor; [|exact Hd].
      now rewrite <- in_rev.
    + eexists. reflexivity.
Qed.
Print Assumptions C34_literal_address.

(** A function whose body is the literal of h, an escaped quote, e with an acute accent (2 bytes) and an escaped line end. *)
Definition greet_body : list rune := [104; 92; 34; 233; 92; 110].
Definition greet : fundef := Fun "clara_greet" [] (BExpr (ELitStr (Ty TString 0) (literal greet_body))) TString false.
Example C34_example :
  (exists toks tok, lex ascii_only (encoded (text "= " ++ [34] ++ greet_body ++ [34])) = Some toks /\ In tok toks /\
     tk_kind tok = KString /\ tk_val tok = literal greet_body) /\
  denotes greet_body [104; 34; 195; 169; 10] /\
  option_map (fun out => nth_error (g_lits (snd out)) 0)
    (gen_program unquote "clara_claralloc" "clara_ioob.int.int" "clara_main" sample_types [greet] start) = Some (Some (literal greet_body)).
Proof.
  split; [|split].
  - eexists. eexists. split; [vm_compute; reflexivity|]. split; [right; right; left; reflexivity|]. split; reflexivity.
  - apply (den_char 104); [discriminate|discriminate|]. apply den_quote. apply (den_char 233); [discriminate|discriminate|].
    apply den_newline. constructor.
  - vm_compute. reflexivity.
Qed.

(** The lexer accepts a literal with a line end, but no program with it is written: the
    compiler panics. *)
Theorem C34_newline_refuted : exists text toks tok,
  lex ascii_only text = Some toks /\ In tok toks /\ tk_kind tok = KString /\
  forall alloc ioob entry ts prog P sf, gen_program unquote alloc ioob entry ts prog start = Some (P, sf) ->
    ~ In (tk_val tok) (g_lits sf).
Proof.
  exists [34; 97; 10; 98; 34]. eexists. eexists. split; [vm_compute; reflexivity|]. split; [left; reflexivity|]. split; [reflexivity|].
  intros alloc ioob entry ts prog P sf H Hi. unfold gen_program in H. apply seq_inv in H as (c1 & s1 & c2 & H1 & H & ->).
  apply seq_inv in H as (c3 & s3 & c4 & H3 & H & ->). pose proof (chunk_flush _ _ _ _ H) as [-> _].
  unfold gen_flush in H. apply seq_inv in H as (c5 & s5 & c6 & H5 & H & ->). apply emit_inv in H5 as [-> ->].
  rewrite (lits_panic unquote _ _ Hi) in H; [discriminate|reflexivity].
Qed.
Print Assumptions C34_newline_refuted.

(** The lexer accepts a literal of the single byte 255 (not UTF-8); the length stored for
    it is 3, the bytes stored are 255 and the final zero. *)
Theorem C34_utf8_refuted : exists text toks tok,
  lex ascii_only text = Some toks /\ In tok toks /\ tk_kind tok = KString /\
  forall alloc ioob entry ts prog P sf, gen_program unquote alloc ioob entry ts prog start = Some (P, sf) -> NoDup (map_labels ts) ->
    forall n, nth_error (g_lits sf) n = Some (tk_val tok) -> exists written,
    stands_at P (LLit n) [EWord (2 * read_only_header 4 + 1); EWord (2 * 3 + 1); EAscii written] /\ assemble written = Some [255; 0].
Proof.
  exists [34; 255; 34]. eexists. eexists. split; [vm_compute; reflexivity|]. split; [left; reflexivity|]. split; [reflexivity|].
  intros alloc ioob entry ts prog P sf H Hm n Hn.
  destruct (program_place unquote alloc ioob entry ts prog P sf H n _ Hn Hm) as (raw & E & S).
  assert (X : raw = [239; 191; 189]) by (injection E as <-; reflexivity). subst raw. eexists. split; [exact S|reflexivity].
Qed.
Print Assumptions C34_utf8_refuted.
