(** C06-C09: the parser (parse.go). *)
From Coq Require Import ZArith List Bool Arith Lia.
From Verif Require Import LexModel ParseModel ParseSpec ParseTotal ParseShow ParseExpr ParseProg ParseSound.
Import ListNotations.
Open Scope nat_scope.

(** Names and texts for the examples; there are no attribute names in them. *)
Definition nm (n : Z) : name := [n].
Notation a_ := (nm 97). Notation b_ := (nm 98). Notation c_ := (nm 99). Notation f_ := (nm 102). Notation g_ := (nm 103). Notation int_ := (TyName (nm 105) None).
Definition no_names (v : list Z) : option bool := None.
Definition text (p : list decl) : list token := map bare (show_program p).
Definition fuel_for (ts : list token) : nat := 4 * List.length ts + 1.
Lemma parse_unique attr_name ts root f1 f2 r1 r2 : parse attr_name f1 ts root = Some r1 -> parse attr_name f2 ts root = Some r2 -> r1 = r2.
Proof.
  intros H1 H2. unfold parse in *. apply (more_loop attr_name f1 (max f1 f2) f1 (max f1 f2)) in H1; try lia. apply (more_loop attr_name f2 (max f1 f2) f2 (max f1 f2)) in H2; try lia. congruence.
Qed.
(* ------------------------------------------------------------------------------- C06 *)

(** C06. For every sequence of at least one token, in particular every one that ends in
    EOF, and every tree to add to, the parser ends with a tree and a list of errors, given
    enough fuel; its result does not depend on the fuel.  Running out of fuel, indexing
    outside the sequence and calling a missing function of a table would all be [None]. *)
Theorem C06_parsing_is_total attr_name ts root : ts <> [] ->
  exists ns es, forall fuel, 4 * List.length ts + 1 <= fuel -> parse attr_name fuel ts root = Some (ns, es).
Proof. intros H. destruct (parse_total attr_name ts root H) as [[ns es] K]. exists ns, es. exact K. Qed.
Print Assumptions C06_parsing_is_total.

(** A malformed input with several kinds of recovery: fn fn ( = } else 1 ] EOF. *)
Example C06_example : exists ns es, es <> [] /\
  parse no_names 100 (map (fun k => bare (sym k)) [KFn; KFn; KLParen; KAs; KRBrace; KElse; KRBrack; KEOF]) [] = Some (ns, es).
Proof. vm_compute. do 2 eexists. split; [|reflexivity]. discriminate. Qed.

(* ------------------------------------------------------------------------------- C07 *)

(** An expression without function literals. *)
Fixpoint no_fn (e : expr) : bool :=
  match e with
  | Id _ | Lit _ | TypeOf _ => true
  | Paren e | Pre _ e => no_fn e
  | Bin _ a b | Index a b => no_fn a && no_fn b
  | Cond c a b => no_fn c && no_fn a && no_fn b
  | Call f l | TCall f _ l => no_fn f && forallb no_fn l
  | Arr l => forallb no_fn l
  | Fn _ _ _ _ => false
  end.
Lemma no_fn_wrap b e l : fits false true 0 e = true -> fits false true l (wrap b e) = true.
Proof. intros H. destruct b; cbn [wrap fits]; [exact H|]. rewrite (fits_false e true l 0). exact H. Qed.
Lemma no_fn_fits : forall e, no_fn e = true -> forall l, fits false true l (bracket 9 e) = true.
Proof.
  fix IH 1. intros [x|li|e|u e|o a b|c a b|a i|f args|f ts args|es|t|tps ps r b] H l; cbn [no_fn] in H; cbn [bracket fits if_ negb orb andb]; try reflexivity; try discriminate;
    repeat (apply andb_true_iff in H as [H ?]); repeat (apply andb_true_iff; split); try (apply no_fn_wrap); try (apply IH; assumption).
  - revert args H0. fix IHl 1. intros [|x l0] K; [reflexivity|]. cbn in K |- *. apply andb_true_iff in K as [K1 K2]. apply andb_true_iff. split; [now apply IH|now apply IHl].
  - revert args H0. fix IHl 1. intros [|x l0] K; [reflexivity|]. cbn in K |- *. apply andb_true_iff in K as [K1 K2]. apply andb_true_iff. split; [now apply IH|now apply IHl].
  - revert es H. fix IHl 1. intros [|x l0] K; [reflexivity|]. cbn in K |- *. apply andb_true_iff in K as [K1 K2]. apply andb_true_iff. split; [now apply IH|now apply IHl].
Qed.

(** The program fn f() = e. *)
Definition value_of (f : name) (e : expr) : list decl := [DFn [] f None [] None (Some (Expr e))].

(** C07, for unary minus with the precedence of the binary one (9).  Every expression tree,
    written with brackets where precedence and associativity need them, parses to itself.
    Statements in the bodies of function literals have to be told apart, see C08. *)
Theorem C07_operators_bind_as_written_partial attr_name f e ts fuel :
  map look ts = show_program (value_of f (bracket 9 e)) -> no_fn e = true \/ fits false true 0 (bracket 9 e) = true -> 4 * List.length ts + 1 <= fuel ->
  exists n, parse attr_name fuel ts [] = Some ([n], []) /\ map erase (n_stmts n) = [node_of e].
Proof.
  intros Hw Hf Hl. assert (F : fits true true 0 (bracket 9 e) = true).
  { apply bracketed_0; [apply any_bracketed|]. destruct Hf as [Hf|Hf]; [now apply no_fn_fits|exact Hf]. }
  destruct (program_claim attr_name (value_of f (bracket 9 e)) ts fuel Hw) as (ns & H1 & H2); [|exact Hl|].
  - apply andb_true_iff. split; [reflexivity|]. apply andb_true_iff. split; [exact F|reflexivity].
  - destruct ns as [|[a o t l r ss ps] [|]]; try discriminate. exists (Node a o t l r ss ps). split; [exact H1|]. apply (f_equal (map n_stmts)) in H2.
    cbn in H2 |- *. injection H2 as H2. rewrite H2. f_equal. apply (proj1 (any_bracketed e)).
Qed.
Print Assumptions C07_operators_bind_as_written_partial.

(** a - (b - c), !(a + b) and (a ? b : c) ? a : b ? f(-a) : a.b[c]. *)
Definition tree1 : expr := Bin BSub (Id a_) (Bin BSub (Id b_) (Id c_)).
Definition tree2 : expr := Bin BMul (Pre UNot (Bin BAdd (Id a_) (Id b_))) (Bin BMul (Pre UNeg (Id a_)) (Id c_)).
Definition tree3 : expr := Cond (Cond (Id a_) (Id b_) (Id c_)) (Id a_) (Cond (Id b_) (Call (Id f_) [Pre UNeg (Id a_)]) (Index (Bin BDot (Id a_) (Id b_)) (Id c_))).
Example C07_example :
  forallb no_fn [tree1; tree2; tree3] = true /\
  map fst (show (bracket 9 tree1)) = [KIdentifier; KMin; KLParen; KIdentifier; KMin; KIdentifier; KRParen] /\
  bracket 9 tree3 = Cond (Paren (Cond (Id a_) (Id b_) (Id c_))) (Id a_) (Cond (Id b_) (Call (Id f_) [Pre UNeg (Id a_)]) (Index (Bin BDot (Id a_) (Id b_)) (Id c_))) /\
  forall e, In e [tree1; tree2; tree3] -> exists n, parse no_names 300 (text (value_of f_ (bracket 9 e))) [] = Some ([n], []) /\ map erase (n_stmts n) = [node_of e].
Proof.
  repeat split. intros e [<-|[<-|[<-|[]]]]; vm_compute; eexists; split; reflexivity.
Qed.

(** The table of precedences (lex.go:109-142) gives a token for negation 11, more than
    multiplication's, but the lexer makes no such token, and the parser uses the token of
    the binary operator: the tree of (-a) * b, whose text would need no brackets, is not
    what -a * b parses to. *)
Theorem C07_documented_precedence_refuted :
  let e := Bin BMul (Pre UNeg (Id a_)) (Id b_) in
  precedence KNeg = 11 /\ bracket 11 e = e /\ no_fn e = true /\
  forall fuel n es, parse no_names fuel (text (value_of f_ (bracket 11 e))) [] = Some ([n], es) -> map erase (n_stmts n) <> [node_of e].
Proof.
  cbv zeta. split; [reflexivity|]. split; [reflexivity|]. split; [reflexivity|]. intros fuel n es H.
  set (e := Bin BMul (Pre UNeg (Id a_)) (Id b_)) in *.
  assert (K : exists m, parse no_names 100 (text (value_of f_ (bracket 11 e))) [] = Some ([m], []) /\ map erase (n_stmts m) = [node_of (Pre UNeg (Bin BMul (Id a_) (Id b_)))]).
  { vm_compute. eexists. split; reflexivity. }
  destruct K as (m & K1 & K2). pose proof (parse_unique _ _ _ _ _ _ _ H K1) as E. injection E as -> _. rewrite K2. discriminate.
Qed.
Print Assumptions C07_documented_precedence_refuted.

(* ------------------------------------------------------------------------------- C08 *)

(** C08, for programs in which nothing has to be told apart but what the grammar can:
    [fits_program true true] asks for brackets where they are needed, no statement or
    returned value that begins with ~ or a type, and no statement, field or external
    function without its end that could go on with what follows it.  Every such program
    parses to its tree without an error. *)
Theorem C08_programs_parse_back_partial attr_name p ts fuel :
  map look ts = show_program p -> fits_program true true p = true -> 4 * List.length ts + 1 <= fuel ->
  exists ns, parse attr_name fuel ts [] = Some (ns, []) /\ map erase ns = map (node_decl attr_name) p.
Proof. apply program_claim. Qed.
Print Assumptions C08_programs_parse_back_partial.

(** The same with brackets put in. *)
Theorem C08_programs_with_brackets_partial attr_name p ts fuel :
  map look ts = show_program (map (bracket_decl 9) p) -> fits_program false true (map (bracket_decl 9) p) = true -> 4 * List.length ts + 1 <= fuel ->
  exists ns, parse attr_name fuel ts [] = Some (ns, []) /\ map erase ns = map (node_decl attr_name) p.
Proof.
  intros Hw Hf Hl. destruct (program_bracketed attr_name p) as [H1 H2]. rewrite <- H1. apply program_claim; auto.
Qed.
Print Assumptions C08_programs_with_brackets_partial.

(** #[a] struct a { b: i c: []i }  enum b«a» { c(a: a) f() }
    fn f(a: fn(i) i) i { while a { if a { return } elseif b { a := 1 } else { b = fn() = c } }
      for c in a .. b { f(a) } match a { case c(a): f() return (1 + 2) * 3 case f(): } }
    fn g() i *)
Definition sample : list decl :=
  [DStruct [a_] a_ None [(b_, int_); (c_, TyArr int_)];
   DEnum [] b_ (Some [TyName a_ None]) [(c_, [(a_, TyName a_ None)]); (f_, [])];
   DFn [] f_ None [(a_, TyFn [int_] (Some int_))] (Some int_) (Some (Block [
     While (Id a_) [If (Id a_) [Return None] (ElseIf (Id b_) [Declare (Id a_) (Lit (LInt [49%Z]))]
       (Else [Assign (Id b_) (Fn None [] None (Expr (Id c_)))]))];
     For c_ (Id a_) (Some (Id b_)) [Do (Call (Id f_) [Id a_])];
     Match (Id a_) [(c_, [a_], [Do (Call (Id f_) []); Return (Some (Bin BMul (Bin BAdd (Lit (LInt [49%Z])) (Lit (LInt [50%Z]))) (Lit (LInt [51%Z]))))]); (f_, [], [])]]));
   DFn [] g_ None [] (Some int_) None].
Example C08_example : fits_program false true (map (bracket_decl 9) sample) = true /\
  exists ns, parse no_names 1000 (text (map (bracket_decl 9) sample)) [] = Some (ns, []) /\ List.length ns = 4 /\ map erase ns = map (node_decl no_names) sample.
Proof. split; [reflexivity|]. vm_compute. eexists. repeat split. Qed.

(** Nothing separates statements, fields and declarations, and an expression may not begin
    with ~ where a statement does not have to have one.  None of these programs parses to
    its tree without an error:
    { return ~a }, { a (b) }, { a [b] }, { a - b } of two statements each, { return a }
    of two statements, struct a { b: fn(i) c: i }, fn f() fn g() {}. *)
Definition misread : list (list decl) :=
  [[DFn [] f_ None [] None (Some (Block [Return (Some (Pre UBNot (Id a_)))]))];
   [DFn [] f_ None [] None (Some (Block [Do (Id a_); Do (Paren (Id b_))]))];
   [DFn [] f_ None [] None (Some (Block [Do (Id a_); Do (Arr [Id b_])]))];
   [DFn [] f_ None [] None (Some (Block [Do (Id a_); Do (Pre UNeg (Id b_))]))];
   [DFn [] f_ None [] None (Some (Block [Return None; Do (Id a_)]))];
   [DStruct [] a_ None [(b_, TyFn [int_] None); (c_, int_)]];
   [DFn [] f_ None [] None None; DFn [] g_ None [] None (Some (Block []))]].
Theorem C08_any_program_refuted : forall p, In p misread -> fits_program true false p = true /\
  forall fuel ns, parse no_names fuel (text p) [] = Some (ns, []) -> map erase ns <> map (node_decl no_names) p.
Proof.
  assert (S : forall p, fits_program true false p = true -> forall r, parse no_names 200 (text p) [] = Some r ->
    (snd r = [] -> map n_op (map erase (fst r)) = map n_op (map (node_decl no_names) p) ->
      map (fun n => map n_op (n_stmts n)) (map erase (fst r)) = map (fun n => map n_op (n_stmts n)) (map (node_decl no_names) p) -> False) ->
    fits_program true false p = true /\ forall fuel ns, parse no_names fuel (text p) [] = Some (ns, []) -> map erase ns <> map (node_decl no_names) p).
  { intros p F r H K. split; [exact F|]. intros fuel ns H2 E. pose proof (parse_unique _ _ _ _ _ _ _ H H2) as E2. subst r. cbn [fst snd] in K. apply K; [reflexivity|now rewrite E|now rewrite E]. }
  intros p Hp. cbn in Hp. repeat (destruct Hp as [<-|Hp]; [eapply S; [reflexivity|vm_compute; reflexivity|cbn; discriminate]|]). destruct Hp.
Qed.
Print Assumptions C08_any_program_refuted.

(* ------------------------------------------------------------------------------- C09 *)

(** C09, for inputs whose last token before the end is not one that an expression has to
    follow.  If parsing reports no error then the whole input is the text of some program,
    and the nodes returned are its tree: no token is skipped, no declaration dropped. *)
Theorem C09_no_error_means_all_read_partial attr_name fuel w eof ns :
  tk_kind eof = KEOF -> (forall t, In t w -> tk_kind t <> KEOF) -> (forall w1 t, w = w1 ++ [t] -> wants (tk_kind t) = false) ->
  parse attr_name fuel (w ++ [eof]) [] = Some (ns, []) ->
  exists p, map look (w ++ [eof]) = show_program p /\ map erase ns = map (node_decl attr_name) p.
Proof.
  intros He H Hw. apply program_back; [exact He|exact H|]. destruct (rev w) as [|t r] eqn:E.
  - apply (f_equal (@rev token)) in E. rewrite rev_involutive in E. subst w. reflexivity.
  - apply (f_equal (@rev token)) in E. rewrite rev_involutive in E. cbn in E. subst w. rewrite lastk_app. now apply (Hw (rev r)).
Qed.
Print Assumptions C09_no_error_means_all_read_partial.

(** fn f() = a + b *)
Example C09_example : let w := map bare (removelast (show_program (value_of f_ (Bin BAdd (Id a_) (Id b_))))) in
  map tk_kind w = [KFn; KIdentifier; KLParen; KRParen; KAs; KIdentifier; KPlus; KIdentifier] /\ wants KIdentifier = false /\
  exists ns, parse no_names 200 (w ++ [bare (sym KEOF)]) [] = Some (ns, []) /\ List.length ns = 1.
Proof. cbv zeta. split; [reflexivity|]. split; [reflexivity|]. vm_compute. eexists. split; reflexivity. Qed.

(** When the tokens run out after one that an expression has to follow, next panics and
    the declaration is dropped without an error: fn f() = ; fn f() { a := ; fn f() { g(.
    The tree returned is not that of the text. *)
Definition cut : list (list kind) :=
  [[KFn; KIdentifier; KLParen; KRParen; KAs];
   [KFn; KIdentifier; KLParen; KRParen; KLBrace; KIdentifier; KDas];
   [KFn; KIdentifier; KLParen; KRParen; KLBrace; KIdentifier; KLParen]].
Theorem C09_any_input_refuted : forall ks, In ks cut -> let ts := map (fun k => Token k [] 0 0) (ks ++ [KEOF]) in
  parse no_names 100 ts [] = Some ([], []) /\ forall p, map (node_decl no_names) p = [] -> map look ts <> show_program p.
Proof.
  intros ks Hk ts. split; [cbn in Hk; repeat (destruct Hk as [<-|Hk]; [vm_compute; reflexivity|]); destruct Hk|].
  intros p Hp. destruct p; [|discriminate]. subst ts. intros E. apply (f_equal (@List.length word)) in E. rewrite !map_length, app_length in E. cbn in Hk, E.
  repeat (destruct Hk as [<-|Hk]; [discriminate E|]). destruct Hk.
Qed.
Print Assumptions C09_any_input_refuted.
