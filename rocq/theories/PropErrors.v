(** Syntax errors: theorems for property C55. *)
From Coq Require Import ZArith List Bool Arith Lia.
From Verif Require Import LexModel ParseModel ParseSpec ParseTotal ParseShow ParseExpr ParseProg ErrSpec ParseErrors PropParse.
Import ListNotations.
Open Scope nat_scope.

(* --------------------------------------------------------------------------------- C55 *)

(** Errors are about tokens of the input, in their order, and about each at most once. *)
Theorem C55_errors_in_order : forall attr_name fuel ts root ns es, parse attr_name fuel ts root = Some (ns, es) -> picks (map fst es) ts.
Proof. exact errors_in_order. Qed.
Print Assumptions C55_errors_in_order.

(** Errors in a part of the input do not depend on what comes after it: two inputs that begin
    with [c] have the same errors there, and then each those of its own end. *)
Theorem C55_errors_of_the_start : forall attr_name fuel1 fuel2 c u v root ns1 es1 ns2 es2,
  parse attr_name fuel1 (c ++ u) root = Some (ns1, es1) -> parse attr_name fuel2 (c ++ v) root = Some (ns2, es2) ->
  exists e0 e1 e2, es1 = e0 ++ e1 /\ es2 = e0 ++ e2 /\ picks (map fst e0) c /\ picks (map fst e1) u /\ picks (map fst e2) v.
Proof. exact errors_of_start. Qed.
Print Assumptions C55_errors_of_the_start.

(** The tree that is added to has no influence on the errors. *)
Lemma same_errors : forall attr_name n f r1 r2 s a b a1 b1, parse_loop attr_name n f r1 s = Some (a, b) -> parse_loop attr_name n f r2 s = Some (a1, b1) -> b = b1.
Proof.
  intros attr_name. induction n as [|n IH]; intros f r1 r2 s a b a1 b1 H1 H2; cbn [parse_loop] in *; [discriminate|].
  destruct (is [KEOF] s) as [[|] s1| | |]; try discriminate.
  - destruct (need KEOF s1); congruence.
  - destruct (parse_decl attr_name f s1) as [[x|] s2|s2| |]; try congruence; eauto.
Qed.
(** There are no errors in the beginning of a program: an error is reported only when the
    tokens up to it begin no program.  Missing: the programs that are misread (C08). *)
Theorem C55_no_error_in_the_start_of_a_program_partial : forall attr_name p c u v fuel root ns es,
  map look (c ++ v) = show_program p -> fits_program true true p = true -> parse attr_name fuel (c ++ u) root = Some (ns, es) -> picks (map fst es) u.
Proof.
  intros attr_name p c u v fuel root ns es W F H.
  assert (N : c ++ u <> []) by (intros E; rewrite E in H; destruct fuel; discriminate).
  destruct (C06_parsing_is_total attr_name (c ++ u) [] N) as (ns0 & es0 & T).
  set (f1 := Nat.max fuel (4 * List.length (c ++ u) + 1)). specialize (T f1 ltac:(lia)).
  destruct (C08_programs_parse_back_partial attr_name p (c ++ v) (4 * List.length (c ++ v) + 1) W F ltac:(lia)) as (ns2 & P2 & _).
  destruct (errors_of_start _ _ _ _ _ _ _ _ _ _ _ T P2) as (e0 & e1 & e2 & E1 & E2 & _ & K & _).
  symmetry in E2. apply app_eq_nil in E2 as [-> ->]. cbn in E1. subst es0.
  unfold parse in *. apply (more_loop attr_name fuel f1 fuel f1) in H; [|lia..]. rewrite <- (same_errors _ _ _ _ _ _ _ _ _ _ T H). exact K.
Qed.
Print Assumptions C55_no_error_in_the_start_of_a_program_partial.

(** A message that names what was expected names a token that is not that. *)
Theorem C55_messages_are_right_partial : forall attr_name fuel ts root ns es, parse attr_name fuel ts root = Some (ns, es) ->
  forall t x, In (t, x) es -> would_do x (tk_kind t) = false.
Proof. exact errors_are_right. Qed.
Print Assumptions C55_messages_are_right_partial.

(** Where an expression was expected, the message names the token after the wrong one:
    fn f() = * x.  No program begins with what comes before the token that is named. *)
Definition tok (k : kind) (i : nat) : token := Token k [] i 1.
Theorem C55_token_of_the_error_refuted : exists w t u,
  (forall attr_name, exists n, parse attr_name 100 (w ++ t :: u) [] = Some ([n], [(t, XExpression)])) /\
  is_expr_start (tk_kind t) = true /\ forall p v, fits_program true true p = true -> map look (w ++ v) <> show_program p.
Proof.
  exists [tok KFn 1; tok KIdentifier 4; tok KLParen 5; tok KRParen 6; tok KAs 8; tok KMul 10], (tok KIdentifier 12), [tok KEOF 13].
  split; [intros attr_name; eexists; vm_compute; reflexivity|]. split; [reflexivity|]. intros p v F E.
  destruct v as [|t1 v].
  - unfold show_program in E. apply (f_equal (fun l => last l (sym KEOF))) in E. rewrite last_last in E. discriminate E.
  - set (w := [tok KFn 1; tok KIdentifier 4; tok KLParen 5; tok KRParen 6; tok KAs 8; tok KMul 10]) in *.
    assert (E2 : map look ((w ++ [t1]) ++ v) = show_program p) by (rewrite <- app_assoc; exact E).
    assert (H : parse no_names 100 ((w ++ [t1]) ++ []) [] = Some ([], [(t1, XExpression)])) by reflexivity.
    pose proof (C55_no_error_in_the_start_of_a_program_partial no_names p (w ++ [t1]) [] v 100 [] _ _ E2 F H) as P. inversion P.
Qed.
Print Assumptions C55_token_of_the_error_refuted.

(** After an error the parser goes on with the next argument: each argument that is wrong has
    its error.  The input is fn f() = g(a1, ..., an), in which some arguments begin with a star
    and others do not. *)
Fixpoint args_of (l : list (option token * token * token)) : list token :=
  match l with
  | [] => []
  | (star, a, comma) :: l' => (match star with Some t => [t] | None => [] end) ++ a :: match l' with [] => [] | _ => comma :: args_of l' end
  end.
Definition call_of (l : list (option token * token * token)) : list token :=
  [tok KFn 0; tok KIdentifier 1; tok KLParen 2; tok KRParen 3; tok KAs 4; tok KIdentifier 5; tok KLParen 6] ++ args_of l ++ [tok KRParen 7; tok KEOF 8].
Definition wrong_args (l : list (option token * token * token)) : list (token * expected) :=
  flat_map (fun x => match x with (Some _, a, _) => [(a, XExpression)] | _ => [] end) l.
Definition arg_ok (x : option token * token * token) : Prop :=
  match x with (star, a, comma) => tk_kind a = KIdentifier /\ tk_kind comma = KComma /\ match star with Some t => tk_kind t = KMul | None => True end end.
Lemma good_arg : forall n a b r es d, tk_kind a = KIdentifier -> tk_kind b = KComma \/ tk_kind b = KRParen ->
  parse_expr (S (S n)) 0 (State (a :: b :: r) es d) = Ok (leaf OpIdentifier a) (State (b :: r) es d).
Proof.
  intros n a b r es d A B. cbn [parse_expr]. unfold bind at 1, next at 1. cbn [rest errs discard]. rewrite A. cbv beta iota zeta.
  unfold bind at 1, ret at 1. cbn [infix_loop]. unfold bind at 1, cur_kind at 1. cbn [rest]. destruct B as [-> | ->]; reflexivity.
Qed.
Lemma wrong_arg : forall n t a b r es, tk_kind t = KMul ->
  parse_expr (S n) 0 (State (t :: a :: b :: r) es false) = Ok (leaf OpError a) (State (b :: r) ((a, XExpression) :: es) true).
Proof. intros n t a b r es A. cbn [parse_expr]. unfold bind at 1, next at 1. cbn [rest errs discard]. rewrite A. reflexivity. Qed.
Lemma read_args : forall l n m es e r, l <> [] -> Forall arg_ok l -> List.length l < n -> 
  exists x d, comma_sep n (parse_expr (S (S m)) 0) (State (args_of l ++ tok KRParen 7 :: e :: r) es false) = Ok x (State (tok KRParen 7 :: e :: r) (rev (wrong_args l) ++ es) d).
Proof.
  induction l as [|[[star a] comma] l IH]; intros n m es e r N F L; [contradiction|]. inversion F as [|? ? OK F']; subst. destruct OK as (A & C & T).
  destruct n as [|n]; [lia|]. cbn [comma_sep List.length] in *.
  destruct l as [|x l].
  - exists [match star with Some _ => leaf OpError a | None => leaf OpIdentifier a end], (match star with Some _ => true | None => false end).
    unfold bind at 1. destruct star as [t|]; cbn [args_of app].
    + rewrite wrong_arg by exact T. reflexivity.
    + rewrite good_arg by (auto; right; reflexivity). reflexivity.
  - remember (x :: l) as l1 eqn:E1.
    assert (K : exists y, parse_expr (S (S m)) 0 (State (args_of ((star, a, comma) :: l1) ++ tok KRParen 7 :: e :: r) es false) =
      Ok y (State (comma :: args_of l1 ++ tok KRParen 7 :: e :: r) (match star with Some _ => [(a, XExpression)] | None => [] end ++ es) (match star with Some _ => true | None => false end))).
    { subst l1. cbn [args_of]. destruct star as [t|]; cbn [app].
      - rewrite wrong_arg by exact T. eauto.
      - rewrite good_arg by auto. eauto. }
    destruct K as (y & K). unfold bind at 1. rewrite K.
    unfold bind at 1.
    assert (Mt : forall es d u, u <> [] -> matches KComma (State (comma :: u) es d) = Ok true (State u es false)).
    { intros es1 d [|q u] Nu; [contradiction|]. unfold matches, is, cur_kind, bind, ret, next. cbn. rewrite C. reflexivity. }
    rewrite Mt by (destruct (args_of l1); discriminate). cbv beta iota.
    destruct (IH n m (match star with Some _ => [(a, XExpression)] | None => [] end ++ es) e r ltac:(subst; discriminate) F' ltac:(lia)) as (z & d & Z).
    unfold bind. rewrite Z. exists (y :: z), d. unfold ret. f_equal. f_equal. cbn [wrong_args flat_map]. unfold wrong_args. cbn. rewrite rev_app_distr, <- app_assoc. destruct star; reflexivity.
Qed.
Lemma read_call : forall l n m left t, Forall arg_ok l -> List.length l < n ->
  exists x, parse_call n (parse_expr (S (S m)) 0) left t [] (State (args_of l ++ [tok KRParen 7; tok KEOF 8]) [] false) = Ok x (State [tok KEOF 8] (rev (wrong_args l)) false).
Proof.
  intros l n m left t F L. unfold parse_call, list_until. destruct l as [|x l]; [eexists; reflexivity|].
  assert (Is : is [KRParen] (State (args_of (x :: l) ++ [tok KRParen 7; tok KEOF 8]) [] false) = Ok false (State (args_of (x :: l) ++ [tok KRParen 7; tok KEOF 8]) [] false)).
  { inversion F as [|? ? OK _]; subst. destruct x as [[star a] comma]. destruct OK as (A & _ & T). unfold is, cur_kind, bind, ret. destruct star as [q|]; cbn; [rewrite T|rewrite A]; reflexivity. }
  destruct (read_args (x :: l) n m [] (tok KEOF 8) [] ltac:(discriminate) F L) as (y & d & R). rewrite app_nil_r in R.
  unfold bind at 1 2. rewrite Is. unfold bind at 1. rewrite R. eexists. reflexivity.
Qed.
Lemma bind_ok : forall {A B} (p : parser A) (q : A -> parser B) s a s1, p s = Ok a s1 -> bind p q s = q a s1.
Proof. intros A B p q s a s1 E. unfold bind. rewrite E. reflexivity. Qed.
Lemma next_ok : forall t r es d, r <> [] -> next (State (t :: r) es d) = Ok t (State r es d).
Proof. intros t [|x r] es d N; [contradiction|reflexivity]. Qed.
Ltac go := erewrite bind_ok by reflexivity; cbn [rest errs discard tk_kind tok].
Lemma step_name : forall n i r es d, r <> [] -> parse_expr (S n) 0 (State (tok KIdentifier i :: r) es d) = infix_loop n 0 (leaf OpIdentifier (tok KIdentifier i)) (State r es d).
Proof. intros n i [|x r] es d N; [contradiction|reflexivity]. Qed.
Lemma step_paren : forall n left i r es d, r <> [] ->
  infix_loop (S n) 0 left (State (tok KLParen i :: r) es d) = bind (parse_infix n left (tok KLParen i)) (fun x => infix_loop n 0 x) (State r es d).
Proof. intros n left i [|x r] es d N; [contradiction|reflexivity]. Qed.
Lemma step_end : forall n left i r es d, infix_loop (S n) 0 left (State (tok KEOF i :: r) es d) = Ok left (State (tok KEOF i :: r) es d).
Proof. reflexivity. Qed.
Lemma step_infix : forall n left i, parse_infix (S n) left (tok KLParen i) = parse_call n (parse_expr n 0) left (tok KLParen i) [].
Proof. reflexivity. Qed.
Lemma read_value : forall l m, Forall arg_ok l -> List.length l <= m ->
  exists x, parse_expr (6 + m) 0 (State (tok KIdentifier 5 :: tok KLParen 6 :: args_of l ++ [tok KRParen 7; tok KEOF 8]) [] false) = Ok x (State [tok KEOF 8] (rev (wrong_args l)) false).
Proof.
  intros l m F L. destruct (read_call l (3 + m) (1 + m) (leaf OpIdentifier (tok KIdentifier 5)) (tok KLParen 6) F ltac:(lia)) as (x & R).
  exists x. cbn [Nat.add] in *. rewrite step_name by discriminate. rewrite step_paren by (destruct (args_of l); discriminate). rewrite step_infix.
  rewrite (bind_ok _ _ _ _ _ R). apply step_end.
Qed.
Lemma step_fn : forall n a r es, r <> [] ->
  parse_fn (S n) a (tok KFn 0) false (State (tok KIdentifier 1 :: tok KLParen 2 :: tok KRParen 3 :: tok KAs 4 :: r) es false) =
  bind (parse_expr n 0) (fun e => ret (Node a OpExprFn (tok KIdentifier 1) None None [e] [])) (State r es false).
Proof. intros n a [|x r] es N; [contradiction|reflexivity]. Qed.
Theorem C55_errors_in_each_argument : forall attr_name l fuel ns es, Forall arg_ok l -> parse attr_name fuel (call_of l) [] = Some (ns, es) ->
  es = wrong_args l.
Proof.
  intros attr_name l fuel ns es F H. set (m := List.length l).
  assert (K : exists n, parse attr_name (12 + m) (call_of l) [] = Some ([n], wrong_args l)).
  { destruct (read_value l (5 + m) F ltac:(subst m; lia)) as (x & R). cbn [Nat.add] in R.
    assert (D : exists n, parse_decl attr_name (12 + m) (State (call_of l) [] false) = Ok (Some n) (State [tok KEOF 8] (rev (wrong_args l)) false)).
    { eexists. unfold parse_decl, call_of. cbn [app]. go. go. go. erewrite bind_ok; [reflexivity|]. cbn [Nat.add].
      rewrite step_fn by discriminate. rewrite (bind_ok _ _ _ _ _ R). reflexivity. }
    destruct D as (n & D). exists n. unfold parse. cbn [Nat.add parse_loop] in *. change (is [KEOF] (State (call_of l) [] false)) with (Ok false (State (call_of l) [] false)).
    cbv iota beta. rewrite D. change (S (S (S (S (S (S (S (S (S (S (S m))))))))))) with (11 + m). cbn [Nat.add parse_loop app]. cbn -[wrong_args].
    rewrite rev_involutive. reflexivity. }
  destruct K as (n & K). pose proof (parse_unique attr_name _ _ _ _ _ _ H K) as E. congruence.
Qed.
Print Assumptions C55_errors_in_each_argument.
Example C55_arguments_case : let l := [(Some (tok KMul 10), tok KIdentifier 11, tok KComma 12); (None, tok KIdentifier 13, tok KComma 14); (Some (tok KMul 15), tok KIdentifier 16, tok KComma 17)] in
  Forall arg_ok l /\ exists n, parse no_names 100 (call_of l) [] = Some ([n], [(tok KIdentifier 11, XExpression); (tok KIdentifier 16, XExpression)]).
Proof. split; [repeat constructor|]. eexists. vm_compute. reflexivity. Qed.

(** fn ( ) enum e }: the name of the function is missing, and what comes after the name that is
    found. *)
Example C55_case : exists ns, let ts := map (fun p => tok (fst p) (snd p)) [(KFn, 1); (KLParen, 2); (KRParen, 3); (KEnum, 4); (KIdentifier, 5); (KRBrace, 6); (KEOF, 7)] in
  parse no_names 100 ts [] = Some (ns, [(tok KLParen 2, XKind KIdentifier); (tok KRBrace 6, XKind KLParen)]).
Proof. eexists. vm_compute. reflexivity. Qed.
(** fn f() = a is a program; fn f() = ) has its error in what is not its beginning. *)
Example C55_start_case : let p := value_of f_ (Id a_) in let c := firstn 5 (text p) in
  map look (c ++ skipn 5 (text p)) = show_program p /\ fits_program true true p = true /\
  exists ns, parse no_names 100 (c ++ [tok KRParen 7; tok KEOF 8]) [] = Some (ns, [(tok KEOF 8, XExpression)]).
Proof. split; [reflexivity|]. split; [reflexivity|]. eexists. vm_compute. reflexivity. Qed.
