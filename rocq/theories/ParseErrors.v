(** Lemmas about the errors of the parser, for C55. *)
From Coq Require Import List Bool PeanoNat ZArith Lia.
From Verif Require Import LexModel ParseModel ParseTotal ErrSpec.
Import ListNotations.
Local Open Scope nat_scope.
Local Open Scope list_scope.

Lemma picks_nil : forall {A} (w : list A), picks [] w.
Proof. induction w; constructor; auto. Qed.
Lemma picks_app : forall {A} (l w : list A), picks l w -> forall m v, picks m v -> picks (l ++ m) (w ++ v).
Proof. induction 1; intros; cbn; auto; constructor; auto. Qed.
Lemma picks_more : forall {A} (l w : list A) v, picks l w -> picks l (w ++ v).
Proof. intros. rewrite <- (app_nil_r l). apply picks_app; [assumption|apply picks_nil]. Qed.

(* ------------------------------------------------------------- one run: where errors are *)

Definition toks (e : list (token * expected)) : list token := rev (map fst e).
(** The parser has read a part of [w], the errors after the first [es0] are in it; in discard
    mode the last may be the token that comes next. *)
Definition seen (w : list token) (es0 : list (token * expected)) (s : state) : Prop :=
  exists e pre, errs s = e ++ es0 /\ w = pre ++ rest s /\ picks (toks e) (if discard s then pre ++ firstn 1 (rest s) else pre).
Definition over (w : list token) (es0 : list (token * expected)) (s : state) : Prop :=
  exists e, errs s = e ++ es0 /\ picks (toks e) w.
Definition keeps {A} (p : parser A) : Prop := forall w es0 s, seen w es0 s ->
  match p s with Ok _ s1 => seen w es0 s1 | Stop s1 => over w es0 s1 | _ => True end.

Lemma seen_over : forall w es0 s, seen w es0 s -> over w es0 s.
Proof.
  intros w es0 s (e & pre & E & -> & P). exists e. split; [exact E|]. destruct (discard s); [|apply picks_more, P].
  apply (picks_more _ _ (skipn 1 (rest s))) in P. rewrite <- app_assoc, firstn_skipn in P. exact P.
Qed.
Lemma keeps_bind : forall {A B} (p : parser A) (q : A -> parser B), keeps p -> (forall a, keeps (q a)) -> keeps (bind p q).
Proof. intros A B p q P Q w es0 s S. unfold bind. specialize (P w es0 s S). destruct (p s); auto. apply Q, P. Qed.
Lemma keeps_ret : forall {A} (a : A), keeps (ret a).
Proof. intros A a w es0 s S. exact S. Qed.
Lemma keeps_kind : keeps cur_kind.
Proof. intros w es0 s S. unfold cur_kind. destruct (rest s) eqn:E; auto. Qed.
Lemma seen_next : forall w es0 t r es d, seen w es0 (State (t :: r) es d) -> seen w es0 (State r es d) /\ seen w es0 (State r es false).
Proof.
  intros w es0 t r es d (e & pre & E & -> & P). cbn in E, P. split; exists e, (pre ++ [t]); cbn; (split; [exact E|]); (split; [rewrite <- app_assoc; reflexivity|]);
  destruct d; auto using picks_more.
Qed.
Lemma keeps_next : keeps next.
Proof.
  intros w es0 [r es d] S. unfold next. cbn. destruct r as [|t [|u r]]; auto using seen_over. apply seen_next in S. apply S.
Qed.
Lemma seen_error : forall w es0 t r es x, seen w es0 (State (t :: r) es false) -> seen w es0 (State (t :: r) ((t, x) :: es) true).
Proof.
  intros w es0 t r es x (e & pre & E & -> & P). exists ((t, x) :: e), pre. cbn in *. rewrite E. split; [reflexivity|]. split; [reflexivity|].
  unfold toks. cbn. apply picks_app; [exact P|repeat constructor].
Qed.
Lemma keeps_error : forall x, keeps (syntax_error x).
Proof. intros x w es0 [r es d] S. unfold syntax_error. cbn. destruct d; [exact S|]. destruct r; auto. apply seen_error, S. Qed.
Lemma keeps_need : forall k, keeps (need k).
Proof.
  intros k w es0 [r es d] S. unfold need. cbn. revert es d S. induction r as [|t r IH]; intros es d S; cbn; auto.
  destruct (kind_eqb (tk_kind t) k).
  - destruct r as [|u r]; [|eapply seen_next; eauto]. apply seen_over in S. destruct S as (e & E & P). exists e. auto.
  - assert (S1 : seen w es0 (State (t :: r) (if d then es else (t, XKind k) :: es) true)) by (destruct d; [exact S|apply seen_error, S]).
    destruct r as [|u r]; [apply seen_over, S1|]. apply IH. eapply seen_next, S1.
Qed.
Lemma keeps_is : forall ks, keeps (is ks).
Proof. intros ks. apply keeps_bind; [apply keeps_kind|intros k; apply keeps_ret]. Qed.
Lemma keeps_matches : forall k, keeps (matches k).
Proof.
  intros k w es0 [r es d] S. unfold matches, bind, is, cur_kind, ret, bind, next. cbn.
  destruct r as [|t r]; auto. destruct (kind_eqb (tk_kind t) k); cbn; [|exact S].
  destruct r as [|u r]; [apply seen_over, S|]. eapply seen_next, S.
Qed.

(* ----------------------------------------------------- two runs with the same beginning *)

Section Two.
Variables c u v : list token.
(** Both runs are still in [c], or they have left it with the same errors. *)
Definition together (s1 s2 : state) : Prop :=
  exists a, a <> [] /\ rest s1 = a ++ u /\ rest s2 = a ++ v /\ errs s1 = errs s2 /\ discard s1 = discard s2 /\ seen c [] (State a (errs s1) (discard s1)).
Definition left_with (w : list token) (es0 : list (token * expected)) {A} (r : result A) : Prop :=
  match r with Ok _ s => seen w es0 s | Stop s => over w es0 s | _ => True end.
Definition parted {A} (r1 r2 : result A) : Prop :=
  exists es0, picks (toks es0) c /\ left_with u es0 r1 /\ left_with v es0 r2.
Definition alike {A} (r1 r2 : result A) : Prop :=
  match r1, r2 with
  | Ok x s1, Ok y s2 => x = y /\ together s1 s2 \/ parted r1 r2
  | Crash, _ | NoFuel, _ | _, Crash | _, NoFuel => True
  | _, _ => parted r1 r2
  end.
Definition agrees {A} (p : parser A) : Prop := keeps p /\ forall s1 s2, together s1 s2 -> alike (p s1) (p s2).

Lemma parted_bind : forall {A B} (p : parser A) (q : A -> parser B) s1 s2, (forall a, keeps (q a)) -> parted (p s1) (p s2) -> parted (bind p q s1) (bind p q s2).
Proof.
  intros A B p q s1 s2 K (es0 & P & L1 & L2). exists es0. split; [exact P|]. unfold bind.
  split; [destruct (p s1) as [a t| | |]|destruct (p s2) as [a t| | |]]; cbn in *; auto; apply K; assumption.
Qed.
Lemma agrees_bind : forall {A B} (p : parser A) (q : A -> parser B), agrees p -> (forall a, agrees (q a)) -> agrees (bind p q).
Proof.
  intros A B p q [Kp Ap] Q. split; [apply keeps_bind; [exact Kp|intros a; apply Q]|]. intros s1 s2 T. specialize (Ap s1 s2 T).
  assert (Pt : parted (p s1) (p s2) -> parted (bind p q s1) (bind p q s2)) by (apply parted_bind; intros a; apply Q).
  assert (Al : forall r1 r2 : result B, parted r1 r2 -> alike r1 r2) by (intros [] [] H; cbn; auto).
  unfold bind in *. destruct (p s1) as [x t1| | |] eqn:E1, (p s2) as [y t2| | |] eqn:E2; cbn in Ap; try (exact I); auto.
  - destruct Ap as [[-> Ap]|Ap]; [apply Q, Ap|apply Al, Pt, Ap].
  - destruct (q x t1); exact I.
  - destruct (q x t1); exact I.
Qed.
Lemma agrees_ret : forall {A} (a : A), agrees (ret a).
Proof. intros A a. split; [apply keeps_ret|]. intros s1 s2 T. left. auto. Qed.
Lemma agrees_fuel : forall {A}, agrees (@no_fuel A).
Proof. intros A. split; [intros w es0 s _; exact I|]. intros s1 s2 T. exact I. Qed.
Lemma agrees_crash : forall {A}, agrees (fun _ => @Crash A).
Proof. intros A. split; [intros w es0 s _; exact I|]. intros s1 s2 T. exact I. Qed.
Lemma agrees_kind : agrees cur_kind.
Proof.
  split; [apply keeps_kind|]. intros [r1 e1 d1] [r2 e2 d2] T. pose proof T as (a & N & E1 & E2 & _). cbn in E1, E2. subst r1 r2.
  destruct a as [|t a]; [contradiction|]. cbn. left. auto.
Qed.
Lemma agrees_is : forall ks, agrees (is ks).
Proof. intros ks. apply agrees_bind; [apply agrees_kind|intros k; apply agrees_ret]. Qed.
(** One token is read: the runs stay together or part. *)
Lemma step : forall t a es d d1, seen c [] (State (t :: a) es d) -> d1 = d \/ d1 = false ->
  a <> [] /\ together (State (a ++ u) es d1) (State (a ++ v) es d1) \/
  a = [] /\ (forall A B (r1 : result A) (r2 : result B), (r1 = Stop (State (t :: u) es d1) \/ exists x, r1 = Ok x (State u es d1)) ->
    (r2 = Stop (State (t :: v) es d1) \/ exists x, r2 = Ok x (State v es d1)) -> exists es0, picks (toks es0) c /\ left_with u es0 r1 /\ left_with v es0 r2).
Proof.
  intros t a es d d1 S D. assert (S1 : seen c [] (State a es d1)) by (destruct D as [->| ->]; eapply seen_next, S).
  destruct a as [|x a]; [right|left].
  - split; [reflexivity|]. intros A B r1 r2 R1 R2. exists es. split.
    + apply seen_over in S1 as (e & E & P). cbn in E. rewrite app_nil_r in E. subst. exact P.
    + assert (L : forall w (C : Type) (r : result C), (r = Stop (State (t :: w) es d1) \/ exists x, r = Ok x (State w es d1)) -> left_with w es r).
      { intros w C r [->|[x ->]]; cbn; [exists []; split; [reflexivity|apply picks_nil]|exists [], []; repeat split; apply picks_nil]. }
      split; apply L; assumption.
  - split; [discriminate|]. exists (x :: a). cbn. repeat split; auto. discriminate.
Qed.
Lemma alike_parted : forall {A} (r1 r2 : result A), parted r1 r2 -> alike r1 r2.
Proof. intros A [] [] H; cbn; auto. Qed.
Lemma one_more : forall {A} (x : A) t w es d, (match w with [] => Stop (State (t :: w) es d) | _ => Ok x (State w es d) end) = Stop (State (t :: w) es d) \/
  exists y, (match w with [] => Stop (State (t :: w) es d) | _ => Ok x (State w es d) end) = Ok y (State w es d).
Proof. intros A x t [|y w] es d; eauto. Qed.
Lemma agrees_next : agrees next.
Proof.
  split; [apply keeps_next|]. intros [r1 e1 d1] [r2 e2 d2] (a & N & E1 & E2 & E3 & E4 & S). cbn in E1, E2, E3, E4, S. subst r1 r2 e2 d2.
  destruct a as [|t a]; [contradiction|].
  assert (X : forall w, next (State (t :: w) e1 d1) = match w with [] => Stop (State (t :: w) e1 d1) | _ => Ok t (State w e1 d1) end) by (intros [|x w]; reflexivity).
  cbn [app]. rewrite !X. destruct (step t a e1 d1 d1 S (or_introl eq_refl)) as [[Na T]|[-> P]].
  - destruct a as [|x a]; [contradiction|]. cbn. left. auto.
  - apply alike_parted. cbn [app]. apply P; apply one_more.
Qed.
Lemma agrees_error : forall x, agrees (syntax_error x).
Proof.
  intros x. split; [apply keeps_error|]. intros [r1 e1 d1] [r2 e2 d2] T. pose proof T as (a & N & E1 & E2 & E3 & E4 & S). cbn in E1, E2, E3, E4, S. subst r1 r2 e2 d2.
  unfold syntax_error. cbn. destruct d1; [left; auto|]. destruct a as [|t a]; [contradiction|]. cbn. left. split; [reflexivity|].
  exists (t :: a). cbn. repeat split; auto. apply seen_error, S.
Qed.
Lemma agrees_need : forall k, agrees (need k).
Proof.
  intros k. split; [apply keeps_need|]. intros [r1 e1 d1] [r2 e2 d2] (a & N & E1 & E2 & E3 & E4 & S). cbn in E1, E2, E3, E4, S. subst r1 r2 e2 d2.
  unfold need. cbn [rest errs discard]. revert N e1 d1 S. induction a as [|t a IH]; intros N e1 d1 S; [contradiction|].
  cbn [app skip_to]. destruct (kind_eqb (tk_kind t) k).
  - destruct (step t a e1 d1 false S (or_intror eq_refl)) as [[Na T]|[-> P]].
    + destruct a as [|x a]; [contradiction|]. cbn. left. auto.
    + apply alike_parted. cbn [app]. apply P; apply one_more.
  - set (es1 := if d1 then e1 else (t, XKind k) :: e1).
    assert (S1 : seen c [] (State (t :: a) es1 true)) by (unfold es1; destruct d1; [exact S|apply seen_error, S]). cbv zeta.
    destruct (step t a es1 true true S1 (or_introl eq_refl)) as [[Na T]|[-> P]].
    + destruct a as [|x a]; [contradiction|]. cbn [app]. apply (IH Na es1 true). eapply seen_next, S1.
    + apply alike_parted. cbn [app].
      assert (Q : exists es0, picks (toks es0) c /\ seen u es0 (State u es1 true) /\ seen v es0 (State v es1 true)).
      { destruct (P unit unit (Ok tt (State u es1 true)) (Ok tt (State v es1 true))) as (es0 & ? & ? & ?); eauto. }
      assert (L : forall w es0, seen w es0 (State w es1 true) ->
        left_with w es0 match w with [] => Stop (State (t :: w) es1 true) | _ :: _ => skip_to k w es1 true end).
      { intros w es0 H. destruct w as [|x w]; [destruct (seen_over _ _ _ H) as (e & E & Pk); exists e; auto|]. exact (keeps_need k _ _ _ H). }
      destruct Q as (es0 & Q & Q1 & Q2). exists es0. split; [exact Q|]. split; apply L; assumption.
Qed.
Lemma agrees_matches : forall k, agrees (matches k).
Proof.
  intros k. split; [apply keeps_matches|]. intros [r1 e1 d1] [r2 e2 d2] T. pose proof T as (a & N & E1 & E2 & E3 & E4 & S). cbn in E1, E2, E3, E4, S. subst r1 r2 e2 d2.
  destruct a as [|t a]; [contradiction|].
  assert (X : forall w, matches k (State (t :: w) e1 d1) = if kind_eqb (tk_kind t) k then match w with [] => Stop (State (t :: w) e1 d1) | _ => Ok true (State w e1 false) end
    else Ok false (State (t :: w) e1 d1)).
  { intros w. unfold matches, is, cur_kind, bind, ret, next. cbn. rewrite orb_false_r. destruct (kind_eqb (tk_kind t) k); [|reflexivity]. destruct w; reflexivity. }
  cbn [app] in *. rewrite !X. destruct (kind_eqb (tk_kind t) k); [|cbn; left; auto].
  destruct (step t a e1 d1 false S (or_intror eq_refl)) as [[Na T1]|[-> P]].
  - destruct a as [|x a]; [contradiction|]. cbn. left. auto.
  - apply alike_parted. cbn [app].
    destruct (P unit unit (Ok tt (State u e1 false)) (Ok tt (State v e1 false))) as (es0 & Pk & L1 & L2); eauto.
    assert (L : forall w, seen w es0 (State w e1 false) -> left_with w es0 match w with [] => Stop (State (t :: w) e1 d1) | _ :: _ => Ok true (State w e1 false) end).
    { intros w H. destruct w as [|x w]; [destruct (seen_over _ _ _ H) as (e & E & Q); exists e; auto|exact H]. }
    exists es0. split; [exact Pk|]. split; apply L; assumption.
Qed.

Lemma agrees_comma : forall {A} n (p : parser A), agrees p -> agrees (comma_sep n p).
Proof.
  intros A n p G. induction n as [|n IH]; cbn [comma_sep]; [apply agrees_fuel|]. apply agrees_bind; [exact G|intros x].
  apply agrees_bind; [apply agrees_matches|intros [|]]; [|apply agrees_ret]. apply agrees_bind; [exact IH|intros; apply agrees_ret].
Qed.
Lemma agrees_many : forall {A} n ks (p : parser A), agrees p -> agrees (many n ks p).
Proof.
  intros A n ks p G. induction n as [|n IH]; cbn [many]; [apply agrees_fuel|]. apply agrees_bind; [apply agrees_is|intros [|]]; [apply agrees_ret|].
  apply agrees_bind; [exact G|intros x]. apply agrees_bind; [exact IH|intros; apply agrees_ret].
Qed.
Lemma agrees_list : forall {A} n k (p : parser A), agrees p -> agrees (list_until n k p).
Proof.
  intros A n k p G. unfold list_until. apply agrees_bind; [apply agrees_is|intros b]. apply agrees_bind; [destruct b; [apply agrees_ret|apply agrees_comma, G]|intros l].
  apply agrees_bind; [apply agrees_need|intros; apply agrees_ret].
Qed.
Ltac agree := lazymatch goal with
  | |- agrees (bind _ _) => apply agrees_bind; [agree|intros; agree]
  | |- agrees (ret _) => apply agrees_ret
  | |- agrees no_fuel => apply agrees_fuel
  | |- agrees (fun _ => Crash) => apply agrees_crash
  | |- agrees cur_kind => apply agrees_kind
  | |- agrees (is _) => apply agrees_is
  | |- agrees next => apply agrees_next
  | |- agrees (syntax_error _) => apply agrees_error
  | |- agrees (need _) => apply agrees_need
  | |- agrees (matches _) => apply agrees_matches
  | |- agrees (comma_sep _ _) => apply agrees_comma; agree
  | |- agrees (many _ _ _) => apply agrees_many; agree
  | |- agrees (list_until _ _ _) => apply agrees_list; agree
  | |- agrees (match ?b with _ => _ end) => destruct b; agree
  | |- _ => auto
  end.
Lemma agrees_type_list : forall n p, agrees p -> agrees (type_list n p).
Proof. intros. unfold type_list. agree. Qed.
Lemma agrees_type : forall n, agrees (parse_type n).
Proof. induction n as [|n IH]; cbn [parse_type]; [agree|]. pose proof (agrees_type_list n _ IH). agree. Qed.
Hint Resolve agrees_type agrees_type_list : core.
Lemma agrees_parameter : forall n, agrees (parse_parameter n).
Proof. intros n. unfold parse_parameter. agree. Qed.
Hint Resolve agrees_parameter : core.
Lemma agrees_parameters : forall n, agrees (parse_parameters n).
Proof. intros n. unfold parse_parameters, paren_list. agree. Qed.
Lemma agrees_ids : forall n, agrees (parse_identifiers n).
Proof. intros n. unfold parse_identifiers, paren_list. agree. Qed.
Lemma agrees_tparams : forall n, agrees (type_params n).
Proof. intros n. unfold type_params. agree. Qed.
Lemma agrees_call : forall n p l t ts, agrees p -> agrees (parse_call n p l t ts).
Proof. intros. unfold parse_call. agree. Qed.
Hint Resolve agrees_parameters agrees_ids agrees_tparams agrees_call : core.

Variable attr_name : list Z -> option bool.
Lemma agrees_walk : forall n,
  (forall prec, agrees (parse_expr n prec)) /\ (forall prec l, agrees (infix_loop n prec l)) /\ (forall l t, agrees (parse_infix n l t)) /\
  (forall a i b, agrees (parse_fn n a i b)) /\ agrees (parse_block n) /\ agrees (parse_statement n) /\ agrees (parse_else n) /\ agrees (parse_case n).
Proof.
  induction n as [|n (E & L & X & F & B & S & El & C)]; [repeat split; intros; apply agrees_fuel|].
  refine (conj _ (conj _ (conj _ (conj _ (conj _ (conj _ (conj _ _))))))); intros; cbn [parse_expr infix_loop parse_infix parse_fn parse_block parse_statement parse_else parse_case].
  - apply agrees_bind; [agree|]. intros t. cbv zeta. destruct (tk_kind t); agree.
  - agree.
  - destruct (tk_kind t); cbn [is_binary]; agree.
  - agree.
  - agree.
  - agree.
  - agree.
  - agree.
Qed.
Lemma agrees_decl : forall n, agrees (parse_decl attr_name n).
Proof.
  intros n. pose proof (proj1 (proj2 (proj2 (proj2 (agrees_walk n))))) as F. unfold parse_decl, parse_attributes, parse_struct, parse_enum, parse_cons. agree.
Qed.
End Two.

(* ------------------------------------------------------------------------ whole inputs *)

Lemma picks_rev_app : forall (e es0 : list (token * expected)), rev (e ++ es0) = rev es0 ++ rev e.
Proof. intros. apply rev_app_distr. Qed.
Lemma toks_rev : forall e, toks e = map fst (rev e).
Proof. intros e. unfold toks. symmetry. apply map_rev. Qed.

Section Runs.
Variable attr_name : list Z -> option bool.

Lemma keeps_decl : forall n, keeps (parse_decl attr_name n).
Proof. intros n. exact (proj1 (agrees_decl [] [] [] attr_name n)). Qed.
Lemma over_end : forall w es0 s, over w es0 s -> exists e, rev (errs s) = rev es0 ++ e /\ picks (map fst e) w.
Proof. intros w es0 s (e & E & P). exists (rev e). rewrite E, picks_rev_app. split; [reflexivity|]. rewrite <- toks_rev. exact P. Qed.
Lemma loop_keeps : forall fuel n root w es0 s ns es, seen w es0 s -> parse_loop attr_name n fuel root s = Some (ns, es) ->
  exists e, es = rev es0 ++ e /\ picks (map fst e) w.
Proof.
  intros fuel. induction n as [|n IH]; intros root w es0 s ns es S H; cbn [parse_loop] in H; [discriminate|].
  pose proof (keeps_is [KEOF] w es0 s S) as K. destruct (is [KEOF] s) as [[|] s1| | |]; try discriminate.
  - pose proof (keeps_need KEOF w es0 s1 K) as K2. destruct (need KEOF s1) as [t s2|s2| |]; try discriminate; injection H as <- <-;
    apply over_end; [apply seen_over|]; exact K2.
  - pose proof (keeps_decl fuel w es0 s1 K) as K2. destruct (parse_decl attr_name fuel s1) as [[x|] s2|s2| |]; try discriminate; eauto.
    injection H as <- <-. apply over_end, K2.
Qed.

Section Two.
Variables c u v : list token.
Definition split_at (es1 es2 : list (token * expected)) : Prop :=
  exists e0 e1 e2, es1 = e0 ++ e1 /\ es2 = e0 ++ e2 /\ picks (map fst e0) c /\ picks (map fst e1) u /\ picks (map fst e2) v.
Lemma parted_end : forall es0 (es1 es2 e1 e2 : list (token * expected)), picks (toks es0) c -> es1 = rev es0 ++ e1 -> picks (map fst e1) u ->
  es2 = rev es0 ++ e2 -> picks (map fst e2) v -> split_at es1 es2.
Proof. intros es0 es1 es2 e1 e2 P -> P1 -> P2. exists (rev es0), e1, e2. rewrite <- toks_rev. auto 6. Qed.
Definition goes_on (n fuel : nat) (root : list node) (r : result (option node)) : option (list node * list (token * expected)) :=
  match r with
  | Ok (Some x) s2 => parse_loop attr_name n fuel (root ++ [x]) s2
  | Ok None s2 => parse_loop attr_name n fuel root s2
  | Stop s2 => Some (root, rev (errs s2))
  | _ => None
  end.
Lemma goes_on_keeps : forall n fuel root r w es0 ns es, left_with w es0 r -> goes_on n fuel root r = Some (ns, es) ->
  exists e, es = rev es0 ++ e /\ picks (map fst e) w.
Proof.
  intros n fuel root [[x|] s|s| |] w es0 ns es L H; try discriminate; cbn in L, H; eauto using loop_keeps. injection H as <- <-. apply over_end, L.
Qed.
Lemma loop_agrees : forall fuel n root s1 s2 ns1 es1 ns2 es2, together c u v s1 s2 ->
  parse_loop attr_name n fuel root s1 = Some (ns1, es1) -> parse_loop attr_name n fuel root s2 = Some (ns2, es2) -> split_at es1 es2.
Proof.
  intros fuel. induction n as [|n IH]; intros root s1 s2 ns1 es1 ns2 es2 T H1 H2; cbn [parse_loop] in H1, H2; [discriminate|].
  assert (X : exists b, is [KEOF] s1 = Ok b s1 /\ is [KEOF] s2 = Ok b s2).
  { destruct T as (a & N & E1 & E2 & _). destruct a as [|t a]; [contradiction|]. unfold is, cur_kind, bind, ret. rewrite E1, E2. cbn. eauto. }
  destruct X as (b & X1 & X2). rewrite X1 in H1. rewrite X2 in H2. destruct b.
  - pose proof (proj2 (agrees_need c u v KEOF) s1 s2 T) as A.
    assert (Z : parted c u v (need KEOF s1) (need KEOF s2) -> split_at es1 es2).
    { intros (es0 & P & L1 & L2). destruct (need KEOF s1) as [t1 q1|q1| |], (need KEOF s2) as [t2 q2|q2| |]; try discriminate; injection H1 as <- <-; injection H2 as <- <-; cbn in L1, L2;
      repeat match goal with H : seen _ _ _ |- _ => apply seen_over in H end;
      destruct (over_end _ _ _ L1) as (e1 & E1 & P1); destruct (over_end _ _ _ L2) as (e2 & E2 & P2); eapply parted_end; eauto. }
    destruct (need KEOF s1) as [t1 q1|q1| |], (need KEOF s2) as [t2 q2|q2| |]; try discriminate; cbn in A; auto.
    destruct A as [[_ A]|A]; [|auto]. injection H1 as <- <-; injection H2 as <- <-. destruct A as (a & _ & _ & _ & E & _ & S).
    rewrite <- E. apply seen_over in S. destruct (over_end _ _ _ S) as (e & E1 & P). cbn in E1. exists e, [], []. rewrite app_nil_r. repeat split; auto; apply picks_nil.
  - change (goes_on n fuel root (parse_decl attr_name fuel s1) = Some (ns1, es1)) in H1.
    change (goes_on n fuel root (parse_decl attr_name fuel s2) = Some (ns2, es2)) in H2.
    pose proof (proj2 (agrees_decl c u v attr_name fuel) s1 s2 T) as A.
    assert (Z : parted c u v (parse_decl attr_name fuel s1) (parse_decl attr_name fuel s2) -> split_at es1 es2).
    { intros (es0 & P & L1 & L2). destruct (goes_on_keeps _ _ _ _ _ _ _ _ L1 H1) as (e1 & E1 & P1). destruct (goes_on_keeps _ _ _ _ _ _ _ _ L2 H2) as (e2 & E2 & P2). eapply parted_end; eauto. }
    destruct (parse_decl attr_name fuel s1) as [o1 q1|q1| |], (parse_decl attr_name fuel s2) as [o2 q2|q2| |]; try discriminate; cbn in A; auto.
    destruct A as [[-> A]|A]; [|auto]. destruct o2; cbn in H1, H2; eauto.
Qed.
End Two.

Lemma start : forall w, seen w [] (State w [] false).
Proof. intros w. exists [], []. repeat split. apply picks_nil. Qed.
(** The errors are tokens of the input, in their order and each at most once. *)
Theorem errors_in_order : forall fuel ts root ns es, parse attr_name fuel ts root = Some (ns, es) -> picks (map fst es) ts.
Proof. intros fuel ts root ns es H. destruct (loop_keeps _ _ _ _ _ _ _ _ (start ts) H) as (e & -> & P). exact P. Qed.
(** Errors in a part of the input do not depend on what comes after it. *)
Theorem errors_of_start : forall fuel1 fuel2 c u v root ns1 es1 ns2 es2,
  parse attr_name fuel1 (c ++ u) root = Some (ns1, es1) -> parse attr_name fuel2 (c ++ v) root = Some (ns2, es2) -> split_at c u v es1 es2.
Proof.
  intros fuel1 fuel2 c u v root ns1 es1 ns2 es2 H1 H2.
  destruct c as [|t c]; [exists [], es1, es2; repeat split; [apply picks_nil|exact (errors_in_order _ _ _ _ _ H1)|exact (errors_in_order _ _ _ _ _ H2)]|].
  set (f := Nat.max fuel1 fuel2). unfold parse in *. apply (more_loop attr_name fuel1 f fuel1 f) in H1; [|lia..]. apply (more_loop attr_name fuel2 f fuel2 f) in H2; [|lia..].
  eapply loop_agrees; [|exact H1|exact H2]. exists (t :: c). cbn. repeat split; auto; [discriminate|]. apply start.
Qed.
End Runs.

(* ------------------------------------------------------------- what should have been there *)

Definition rightly (s : state) : Prop := Forall (fun e => would_do (snd e) (tk_kind (fst e)) = false) (errs s).
Definition result_ok {A} (r : result A) : Prop := match r with Ok _ s | Stop s => rightly s | _ => True end.
Definition right {A} (p : parser A) : Prop := forall s, rightly s -> result_ok (p s).
(** The same when the next token is of kind [k]. *)
Definition right_at {A} (k : kind) (p : parser A) : Prop := forall s t r, rest s = t :: r -> tk_kind t = k -> rightly s -> result_ok (p s).

Lemma right_bind : forall {A B} (p : parser A) (q : A -> parser B), right p -> (forall a, right (q a)) -> right (bind p q).
Proof. intros A B p q P Q s S. unfold bind. specialize (P s S). destruct (p s); auto. apply Q, P. Qed.
Lemma right_kind_bind : forall {B} (q : kind -> parser B), (forall k, right_at k (q k)) -> right (bind cur_kind q).
Proof. intros B q Q s S. unfold bind, cur_kind. destruct (rest s) eqn:E; [exact I|]. eapply Q; eauto. Qed.
Lemma right_any : forall {A} k (p : parser A), right p -> right_at k p.
Proof. intros A k p P s t r _ _ S. apply P, S. Qed.
Lemma right_error : forall {B} k x (q : parser B), would_do x k = false -> right q -> right_at k (syntax_error x;; q).
Proof.
  intros B k x q W Q [r0 es d] t r E K S. cbn in E. subst. unfold bind, syntax_error. cbn. destruct d; [apply Q, S|]. apply Q. constructor; auto.
Qed.
Lemma right_expression : right (syntax_error XExpression).
Proof. intros [r es d] S. unfold syntax_error. cbn. destruct d; [exact S|]. destruct r; [exact I|]. constructor; auto. Qed.
Lemma right_ret : forall {A} (a : A), right (ret a).
Proof. intros A a s S. exact S. Qed.
Lemma right_fuel : forall {A}, right (@no_fuel A).
Proof. intros A s S. exact I. Qed.
Lemma right_is : forall ks, right (is ks).
Proof. intros ks. apply right_kind_bind. intros k. apply right_any, right_ret. Qed.
Lemma right_next : right next.
Proof. intros [r es d] S. unfold next. cbn. destruct r as [|t [|u r]]; exact S. Qed.
Lemma right_need : forall k, right (need k).
Proof.
  intros k [r es d] S. unfold need. cbn. revert es d S. induction r as [|t r IH]; intros es d S; cbn; [exact I|].
  destruct (kind_eqb (tk_kind t) k) eqn:E; [destruct r; exact S|].
  assert (S1 : forall r d1, rightly (State r (if d then es else (t, XKind k) :: es) d1)) by (intros r0 d1; destruct d; [exact S|constructor; [exact E|exact S]]).
  destruct r; [apply S1|]. apply IH, S1.
Qed.
Lemma right_matches : forall k, right (matches k).
Proof. intros k. apply right_bind; [apply right_is|]. intros [|]; [|apply right_ret]. apply right_bind; [apply right_next|]. intros t s S. exact S. Qed.
Lemma right_comma : forall {A} n (p : parser A), right p -> right (comma_sep n p).
Proof.
  intros A n p G. induction n as [|n IH]; cbn [comma_sep]; [apply right_fuel|]. apply right_bind; [exact G|intros x].
  apply right_bind; [apply right_matches|intros [|]]; [|apply right_ret]. apply right_bind; [exact IH|intros; apply right_ret].
Qed.
Lemma right_many : forall {A} n ks (p : parser A), right p -> right (many n ks p).
Proof.
  intros A n ks p G. induction n as [|n IH]; cbn [many]; [apply right_fuel|]. apply right_bind; [apply right_is|intros [|]]; [apply right_ret|].
  apply right_bind; [exact G|intros x]. apply right_bind; [exact IH|intros; apply right_ret].
Qed.
Lemma right_list : forall {A} n k (p : parser A), right p -> right (list_until n k p).
Proof.
  intros A n k p G. unfold list_until. apply right_bind; [apply right_is|intros b]. apply right_bind; [destruct b; [apply right_ret|apply right_comma, G]|intros l].
  apply right_bind; [apply right_need|intros; apply right_ret].
Qed.
Ltac rights := lazymatch goal with
  | |- right_at _ (bind (syntax_error _) _) => apply right_error; [reflexivity|rights]
  | |- right_at _ (match ?b with _ => _ end) => destruct b; rights
  | |- right_at _ _ => apply right_any; rights
  | |- right (bind cur_kind _) => apply right_kind_bind; intros; rights
  | |- right (bind _ _) => apply right_bind; [rights|intros; rights]
  | |- right (ret _) => apply right_ret
  | |- right no_fuel => apply right_fuel
  | |- right (fun _ => Crash) => intros ? ?; exact I
  | |- right (is _) => apply right_is
  | |- right next => apply right_next
  | |- right (syntax_error XExpression) => apply right_expression
  | |- right (need _) => apply right_need
  | |- right (matches _) => apply right_matches
  | |- right (comma_sep _ _) => apply right_comma; rights
  | |- right (many _ _ _) => apply right_many; rights
  | |- right (list_until _ _ _) => apply right_list; rights
  | |- right (match ?b with _ => _ end) => destruct b; rights
  | |- _ => auto
  end.
Lemma right_type_list : forall n p, right p -> right (type_list n p).
Proof. intros. unfold type_list. rights. Qed.
Lemma right_type : forall n, right (parse_type n).
Proof. induction n as [|n IH]; cbn [parse_type]; [rights|]. pose proof (right_type_list n _ IH). rights. Qed.
Lemma right_parameter : forall n, right (parse_parameter n).
Proof. intros n. pose proof (right_type n). unfold parse_parameter. rights. Qed.
Lemma right_parameters : forall n, right (parse_parameters n).
Proof. intros n. pose proof (right_parameter n). unfold parse_parameters, paren_list. rights. Qed.
Lemma right_ids : forall n, right (parse_identifiers n).
Proof. intros n. unfold parse_identifiers, paren_list. rights. Qed.
Lemma right_tparams : forall n, right (type_params n).
Proof. intros n. pose proof (right_type_list n _ (right_type n)). unfold type_params. rights. Qed.
Lemma right_call : forall n p l t ts, right p -> right (parse_call n p l t ts).
Proof. intros. unfold parse_call. rights. Qed.
Lemma right_walk : forall n,
  (forall prec, right (parse_expr n prec)) /\ (forall prec l, right (infix_loop n prec l)) /\ (forall l t, right (parse_infix n l t)) /\
  (forall a i b, right (parse_fn n a i b)) /\ right (parse_block n) /\ right (parse_statement n) /\ right (parse_else n) /\ right (parse_case n).
Proof.
  induction n as [|n (E & L & X & F & B & S & El & C)]; [repeat split; intros; apply right_fuel|].
  pose proof (right_type n) as Ty. pose proof (right_type_list n _ Ty) as Tl. pose proof (right_parameters n) as Ps. pose proof (right_ids n) as Is.
  pose proof (fun l t ts => right_call n _ l t ts (E 0)) as Ca.
  refine (conj _ (conj _ (conj _ (conj _ (conj _ (conj _ (conj _ _))))))); intros; cbn [parse_expr infix_loop parse_infix parse_fn parse_block parse_statement parse_else parse_case].
  - apply right_bind; [rights|]. intros t. cbv zeta. destruct (tk_kind t); rights.
  - rights.
  - destruct (tk_kind t); cbn [is_binary]; rights.
  - rights. all: destruct b; rights.
  - rights.
  - apply right_kind_bind. intros k. destruct k; cbn [is_expr_start]; rights.
  - rights.
  - rights.
Qed.
Lemma right_decl : forall attr_name n, right (parse_decl attr_name n).
Proof.
  intros attr_name n. pose proof (proj1 (proj2 (proj2 (proj2 (right_walk n))))) as F. pose proof (right_tparams n). pose proof (right_parameter n). pose proof (right_parameters n).
  unfold parse_decl, parse_attributes, parse_struct, parse_enum, parse_cons. rights.
Qed.
(** A message does not name a token that would have been right. *)
Theorem errors_are_right : forall attr_name fuel ts root ns es, parse attr_name fuel ts root = Some (ns, es) ->
  forall t x, In (t, x) es -> would_do x (tk_kind t) = false.
Proof.
  intros attr_name fuel ts root ns es H. assert (G : forall n root s, rightly s -> parse_loop attr_name n fuel root s = Some (ns, es) -> Forall (fun e => would_do (snd e) (tk_kind (fst e)) = false) es).
  { clear. induction n as [|n IH]; intros root s S H; cbn [parse_loop] in H; [discriminate|].
    pose proof (right_is [KEOF] s S) as K. destruct (is [KEOF] s) as [[|] s1| | |]; try discriminate.
    - pose proof (right_need KEOF s1 K) as K2. destruct (need KEOF s1) as [t s2|s2| |]; try discriminate; injection H as <- <-; apply Forall_rev, K2.
    - pose proof (right_decl attr_name fuel s1 K) as K2. destruct (parse_decl attr_name fuel s1) as [[x|] s2|s2| |]; try discriminate; eauto.
      injection H as <- <-. apply Forall_rev, K2. }
  intros t x I. specialize (G fuel root (State ts [] false) (Forall_nil _) H). rewrite Forall_forall in G. exact (G (t, x) I).
Qed.
