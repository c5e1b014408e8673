(** What is parsed without an error was written. *)
From Coq Require Import ZArith List Bool Arith Lia.
From Verif Require Import LexModel ParseModel ParseSpec ParseTotal ParseShow ParseExpr ParseProg.
Import ListNotations.
Open Scope nat_scope.

(* -------------------------------------------------------------------- errors stay *)

Definition mono {A} (p : parser A) : Prop := forall s, match p s with Ok _ s1 | Stop s1 => errs s1 = [] -> errs s = [] | _ => True end.
Lemma mono_bind {A B} (p : parser A) (q : A -> parser B) : mono p -> (forall a, mono (q a)) -> mono (bind p q).
Proof.
  intros H K s. unfold bind. specialize (H s). destruct (p s) as [a s1|s1| |]; auto. specialize (K a s1). destruct (q a s1); auto.
Qed.
Lemma mono_ret {A} (a : A) : mono (ret a).
Proof. intros s. exact (fun H => H). Qed.
Lemma mono_fuel {A} : mono (@no_fuel A).
Proof. intros s. exact I. Qed.
Lemma mono_kind : mono cur_kind.
Proof. intros s. unfold cur_kind. destruct (rest s); auto. Qed.
Lemma mono_is ks : mono (is ks).
Proof. apply mono_bind; [apply mono_kind|]. intros; apply mono_ret. Qed.
Lemma mono_next : mono next.
Proof. intros s. unfold next. destruct (rest s) as [|t [|]]; auto. Qed.
Lemma mono_error x : mono (syntax_error x).
Proof. intros s. unfold syntax_error. destruct (discard s); [auto|]. destruct (rest s); [exact I|discriminate]. Qed.
Lemma skip_mono k : forall ts es d, match skip_to k ts es d with Ok _ s1 | Stop s1 => errs s1 = [] -> es = [] | _ => True end.
Proof.
  induction ts as [|t r IH]; intros es d; [exact I|]. cbn [skip_to]. destruct (kind_eqb (tk_kind t) k); [destruct r; cbn; auto|].
  destruct r as [|t1 r1]; [destruct d; cbn; [auto|discriminate]|]. specialize (IH (if d then es else (t, XKind k) :: es) true). destruct (skip_to k (t1 :: r1) _ true); auto; destruct d; auto; intros E; specialize (IH E); discriminate.
Qed.
Lemma mono_need k : mono (need k).
Proof. intros s. apply skip_mono. Qed.
Lemma mono_matches k : mono (matches k).
Proof. apply mono_bind; [apply mono_is|]. intros []; [|apply mono_ret]. apply mono_bind; [apply mono_next|]. intros t s. cbn. auto. Qed.
Lemma mono_comma {A} n (p : parser A) : mono p -> mono (comma_sep n p).
Proof.
  intros H. induction n as [|n IH]; [apply mono_fuel|]. cbn. apply mono_bind; [exact H|]. intros x. apply mono_bind; [apply mono_matches|]. intros []; [|apply mono_ret].
  apply mono_bind; [exact IH|]. intros; apply mono_ret.
Qed.
Lemma mono_many {A} n ks (p : parser A) : mono p -> mono (many n ks p).
Proof.
  intros H. induction n as [|n IH]; [apply mono_fuel|]. cbn. apply mono_bind; [apply mono_is|]. intros []; [apply mono_ret|]. apply mono_bind; [exact H|]. intros x.
  apply mono_bind; [exact IH|]. intros; apply mono_ret.
Qed.
Lemma mono_list {A} n k (p : parser A) : mono p -> mono (list_until n k p).
Proof.
  intros H. apply mono_bind; [apply mono_is|]. intros b. apply mono_bind; [destruct b; [apply mono_ret|now apply mono_comma]|]. intros l. apply mono_bind; [apply mono_need|]. intros; apply mono_ret.
Qed.
Create HintDb mono.
#[export] Hint Resolve mono_ret mono_fuel mono_kind mono_is mono_next mono_error mono_need mono_matches mono_comma mono_many mono_list : mono.
Ltac mono := intros; repeat (cbv beta iota zeta; intros; lazymatch goal with
  | |- mono (match match ?b with _ => _ end with _ => _ end) => destruct b
  | |- mono (bind _ _) => apply mono_bind; [|intros ?]
  | |- mono (list_until _ _ _) => apply mono_list
  | |- mono (comma_sep _ _) => apply mono_comma
  | |- mono (many _ _ _) => apply mono_many
  | |- mono (fun _ => Crash) => intros ?; exact I
  | |- mono (match ?b with _ => _ end) => destruct b
  | |- _ => solve [auto with mono nocore]
  end).
Lemma mono_type n : mono (parse_type n).
Proof. induction n as [|n IH]; [apply mono_fuel|]. cbn [parse_type]. unfold type_list. mono. Qed.
#[export] Hint Resolve mono_type : mono.
Lemma mono_tl n : mono (type_list n (parse_type n)).
Proof. unfold type_list. mono. Qed.
Lemma mono_param n : mono (parse_parameter n).
Proof. unfold parse_parameter. mono. Qed.
#[export] Hint Resolve mono_tl mono_param : mono.
Lemma mono_params n : mono (parse_parameters n).
Proof. unfold parse_parameters, paren_list. mono. Qed.
Lemma mono_ids n : mono (parse_identifiers n).
Proof. unfold parse_identifiers, paren_list. mono. Qed.
Lemma mono_tparams n : mono (type_params n).
Proof. unfold type_params. mono. Qed.
#[export] Hint Resolve mono_params mono_ids mono_tparams : mono.
Definition monos (n : nat) : Prop :=
  (forall p, mono (parse_expr n p)) /\ (forall p l, mono (infix_loop n p l)) /\ (forall l t, mono (parse_infix n l t)) /\
  (forall a id an, mono (parse_fn n a id an)) /\ mono (parse_block n) /\ mono (parse_statement n) /\ mono (parse_else n) /\ mono (parse_case n).
Lemma all_mono n : monos n.
Proof.
  induction n as [|n (Ie & Il & Ii & If & Ib & Is & Iel & Ic)]; [repeat split; intros; apply mono_fuel|].
  split; [|split; [|split; [|split; [|split; [|split; [|split]]]]]].
  - intros p. cbn [parse_expr]. mono.
  - intros p l. cbn [infix_loop]. mono.
  - intros l t. cbn [parse_infix]. unfold parse_call. mono.
  - intros a id an. cbn [parse_fn]. mono.
  - cbn [parse_block]. mono.
  - cbn [parse_statement]. mono.
  - cbn [parse_else]. mono.
  - cbn [parse_case]. mono.
Qed.
Lemma mono_expr n p : mono (parse_expr n p). Proof. apply (all_mono n). Qed.
Lemma mono_loop n p l : mono (infix_loop n p l). Proof. apply (all_mono n). Qed.
Lemma mono_infix n l t : mono (parse_infix n l t). Proof. apply (all_mono n). Qed.
Lemma mono_fn n a id an : mono (parse_fn n a id an). Proof. apply (all_mono n). Qed.
Lemma mono_block n : mono (parse_block n). Proof. apply (all_mono n). Qed.
Lemma mono_statement n : mono (parse_statement n). Proof. apply (all_mono n). Qed.
Lemma mono_else n : mono (parse_else n). Proof. apply (all_mono n). Qed.
Lemma mono_case n : mono (parse_case n). Proof. apply (all_mono n). Qed.
Lemma mono_call n m p l t ts : mono (parse_call n (parse_expr m p) l t ts). Proof. unfold parse_call. apply mono_bind; [apply mono_list, mono_expr|]. intros; apply mono_ret. Qed.
#[export] Hint Resolve mono_call mono_expr mono_loop mono_infix mono_fn mono_block mono_statement mono_else mono_case : mono.

(* ---------------------------------------------------------------- runs without errors *)

Fixpoint lastk (k : kind) (w : list token) : kind := match w with [] => k | t :: w => lastk (tk_kind t) w end.
Lemma lastk_app k w1 w2 : lastk k (w1 ++ w2) = lastk (lastk k w1) w2.
Proof. revert k. induction w1 as [|t w1 IH]; intros k; [reflexivity|]. apply IH. Qed.
Definition ends (r : list token) : Prop := exists w e, r = w ++ [e] /\ tk_kind e = KEOF.
Lemma ends_live r : ends r -> r <> [].
Proof. intros (w & e & -> & _) E. now apply app_eq_nil in E. Qed.
Lemma ends_tail t r : ends (t :: r) -> r <> [] -> ends r.
Proof. intros (w & e & E & He) H. destruct w as [|u w]; [injection E as _ E; congruence|]. injection E as _ E. exists w, e. now split. Qed.
(** [p] from [r] after a token of kind [k0]: if it ends without an error, then [Q] of its
    value, the tokens taken and those left; if the tokens run out without an error, then
    after one that wants an expression. *)
Definition W {A} (k0 : kind) (p : parser A) (r : list token) (Q : A -> list token -> list token -> Prop) : Prop :=
  ends r -> match p (at_ r) with
  | Ok a s => errs s = [] -> exists w r1, s = at_ r1 /\ r = w ++ r1 /\ ends r1 /\ Q a w r1
  | Stop s => errs s = [] -> exists w u, r = w ++ [u] /\ wants (lastk k0 w) = true
  | _ => True
  end.
Lemma W_bind {A B} k0 (p : parser A) (q : A -> parser B) r Q : (forall a, mono (q a)) ->
  W k0 p r (fun a w r1 => W (lastk k0 w) (q a) r1 (fun b w2 r2 => Q b (w ++ w2) r2)) -> W k0 (bind p q) r Q.
Proof.
  intros M H He. specialize (H He). unfold bind. destruct (p (at_ r)) as [a s1|s1| |]; auto. pose proof (M a s1) as Ma.
  destruct (q a s1) as [b s2|s2| |] eqn:Eq; auto; intros E; specialize (Ma E); destruct (H Ma) as (w & r1 & -> & -> & He1 & K); specialize (K He1); rewrite Eq in K; specialize (K E).
  - destruct K as (w2 & r2 & -> & -> & He2 & K). exists (w ++ w2), r2. now rewrite app_assoc.
  - destruct K as (w2 & u & -> & K). exists (w ++ w2), u. rewrite app_assoc, lastk_app. now split.
Qed.
Lemma W_cons {A} k0 (p : parser A) r (Q Q' : A -> list token -> list token -> Prop) : (forall a w r1, Q a w r1 -> Q' a w r1) -> W k0 p r Q -> W k0 p r Q'.
Proof.
  intros H K He. specialize (K He). destruct (p (at_ r)) as [a s| | |]; auto. intros E. destruct (K E) as (w & r1 & H1 & H2 & H3 & H4). exists w, r1. auto.
Qed.
Lemma W_ret {A} k0 (a : A) r (Q : A -> list token -> list token -> Prop) : Q a [] r -> W k0 (ret a) r Q.
Proof. intros H He _. exists [], r. auto. Qed.
Lemma W_fuel {A} k0 r (Q : A -> list token -> list token -> Prop) : W k0 no_fuel r Q.
Proof. intros He. exact I. Qed.
Lemma W_kind {B} k0 (q : kind -> parser B) r Q : (forall a, mono (q a)) -> W k0 (q (hdk r)) r Q -> W k0 (bind cur_kind q) r Q.
Proof. intros M H. apply W_bind; [exact M|]. intros He. pose proof (ends_live r He). unfold cur_kind, at_. destruct r as [|t r]; [congruence|]. cbn. intros _. exists [], (t :: r). auto. Qed.
Lemma W_is {B} k0 ks (q : bool -> parser B) r Q : (forall a, mono (q a)) -> W k0 (q (in_kinds (hdk r) ks)) r Q -> W k0 (bind (is ks) q) r Q.
Proof.
  intros M H. apply W_bind; [exact M|]. intros He. pose proof (ends_live r He). unfold is, bind, cur_kind, at_, ret. destruct r as [|t r]; [congruence|]. cbn. intros _. exists [], (t :: r). auto.
Qed.
Lemma W_next {B} k0 (q : token -> parser B) r Q : (forall a, mono (q a)) -> wants k0 = true \/ hdk r <> KEOF ->
  (forall t r1, r = t :: r1 -> W (tk_kind t) (q t) r1 (fun b w => Q b (t :: w))) -> W k0 (bind next q) r Q.
Proof.
  intros M H K. apply W_bind; [exact M|]. intros He. unfold next, at_. cbn [rest]. destruct r as [|t [|t1 r]].
  - now apply ends_live in He.
  - intros _. destruct H as [H|H]; [exists [], t; now split|]. exfalso. apply H. destruct He as ([|u w] & e & E & Ek); [injection E as <-; exact Ek|injection E as _ E; now destruct w].
  - cbn. intros _. exists [t], (t1 :: r). split; [reflexivity|]. split; [reflexivity|]. split; [apply (ends_tail t); [exact He|discriminate]|]. now apply K.
Qed.
Lemma W_need {B} k0 k (q : token -> parser B) r Q : (forall a, mono (q a)) -> k <> KEOF ->
  (forall t r1, r = t :: r1 -> tk_kind t = k -> W k (q t) r1 (fun b w => Q b (t :: w))) -> W k0 (bind (need k) q) r Q.
Proof.
  intros M Hk K. apply W_bind; [exact M|]. intros He. unfold need, at_. cbn [rest errs discard]. destruct r as [|t r]; [now apply ends_live in He|]. cbn [skip_to].
  destruct (kind_eqb (tk_kind t) k) eqn:E.
  - apply kind_eqb_eq in E. destruct r as [|t1 r].
    + exfalso. destruct He as ([|u w] & e & E2 & Ek); [injection E2 as <-; congruence|injection E2 as _ E2; now destruct w].
    + intros _. exists [t], (t1 :: r). split; [reflexivity|]. split; [reflexivity|]. split; [apply (ends_tail t); [exact He|discriminate]|]. cbn [lastk]. rewrite E. now apply K.
  - destruct r as [|t1 r]; [discriminate|]. pose proof (skip_mono k (t1 :: r) [(t, XKind k)] true) as S. destruct (skip_to k (t1 :: r) [(t, XKind k)] true); auto; intros E2; specialize (S E2); discriminate.
Qed.
Lemma W_matches {B} k0 k (q : bool -> parser B) r Q : (forall a, mono (q a)) -> k <> KEOF ->
  (forall t r1, r = t :: r1 -> tk_kind t = k -> W k (q true) r1 (fun b w => Q b (t :: w))) -> W k0 (q false) r Q -> W k0 (bind (matches k) q) r Q.
Proof.
  intros M Hk K1 K2. apply W_bind; [exact M|]. intros He. unfold matches, is, bind, cur_kind, ret, next, at_. cbn [rest]. destruct r as [|t r]; [now apply ends_live in He|]. cbn [existsb orb].
  rewrite orb_false_r. destruct (kind_eqb (tk_kind t) k) eqn:E; cbn [rest].
  - apply kind_eqb_eq in E. destruct r as [|t1 r].
    + exfalso. destruct He as ([|u w] & e & E2 & Ek); [injection E2 as <-; congruence|injection E2 as _ E2; now destruct w].
    + intros _. exists [t], (t1 :: r). split; [reflexivity|]. split; [reflexivity|]. split; [apply (ends_tail t); [exact He|discriminate]|]. cbn [lastk]. rewrite E. now apply K1.
  - intros _. exists [], (t :: r). auto.
Qed.
Lemma W_error {B} k0 x (q : unit -> parser B) r Q : (forall a, mono (q a)) -> W k0 (bind (syntax_error x) q) r Q.
Proof.
  intros M He. unfold bind, syntax_error, at_. cbn [rest discard errs]. destruct r as [|t r]; [now apply ends_live in He|]. pose proof (M tt (State (t :: r) [(t, x)] true)) as Mt. cbn [errs] in Mt.
  destruct (q tt _); auto; intros E; specialize (Mt E); discriminate.
Qed.
Lemma W_then {A B} k0 (p : parser A) (q : A -> parser B) r R Q : (forall a, mono (q a)) -> W k0 p r (fun a w _ => R a w) ->
  (forall a w r1, R a w -> W (lastk k0 w) (q a) r1 (fun b w2 => Q b (w ++ w2))) -> W k0 (bind p q) r Q.
Proof. intros M H K. apply W_bind; [exact M|]. revert H. apply W_cons. intros a w r1 HR. now apply K. Qed.

Lemma look_of t k : tk_kind t = k -> look t = (k, match k with KIdentifier | KString | KInteger => tk_val t | _ => [] end).
Proof. intros <-. reflexivity. Qed.
Ltac looks := cbn [map app]; rewrite ?map_app; cbn [map app]; unfold strip; repeat match goal with
  H : tk_kind ?t = ?k |- context [look ?t] => rewrite (look_of t k H); cbn iota end.

(** Lists. *)
Section Lists.
Context {A : Type} (p : parser node) (sh : A -> list word) (nd : A -> node) (ok : kind -> list token -> Prop).
Hypothesis Hm : mono p.
Definition back : node -> list token -> Prop := fun a w => exists x, map look w = sh x /\ erase a = nd x.
Hypothesis Hp : forall k0 r, ok k0 r -> W k0 p r (fun a w _ => back a w).
Hypothesis Hc : forall r, ok KComma r.
Lemma W_comma : forall n k0 r, ok k0 r -> W k0 (comma_sep n p) r (fun l w _ => exists xs, xs <> [] /\ map look w = commas (map sh xs) /\ map erase l = map nd xs).
Proof.
  induction n as [|n IH]; intros k0 r Hk; [apply W_fuel|]. cbn [comma_sep]. eapply W_then; [mono|now apply Hp|]. intros a w r1 (x & Hx1 & Hx2). apply W_matches; [mono|discriminate| |].
  - intros t r2 -> Ht. eapply W_then; [mono|now apply IH|]. intros l w2 r3 (xs & H0 & H1 & H2). apply W_ret. exists (x :: xs). split; [discriminate|].
    split; [|cbn; now rewrite H2, Hx2]. rewrite app_nil_r. looks. rewrite Hx1, H1. destruct xs; [congruence|reflexivity].
  - apply W_ret. exists [x]. split; [discriminate|]. rewrite app_nil_r. split; [exact Hx1|]. cbn. now rewrite Hx2.
Qed.
Lemma W_list n close k0 r : ok k0 r -> close <> KEOF -> (forall t, tk_kind t = close -> look t = sym close) ->
  W k0 (list_until n close p) r (fun l w _ => exists xs, map look w = commas (map sh xs) ++ [sym close] /\ map erase l = map nd xs).
Proof.
  intros Hk H1 H2. unfold list_until. apply W_is; [mono|]. eapply W_then with (R := fun l w => exists xs, map look w = commas (map sh xs) /\ map erase l = map nd xs); [mono| |].
  - destruct (in_kinds _ _); [apply W_ret; exists []; now split|]. eapply W_cons; [|now apply W_comma]. intros l w r1 (xs & _ & E1 & E2). eauto.
  - intros l w r1 (xs & E1 & E2). apply W_need; [mono|exact H1|]. intros t r2 -> Ht. apply W_ret. exists xs. split; [|exact E2]. rewrite map_app, E1. cbn. now rewrite H2.
Qed.
Hypothesis Hall : forall k0 r, ok k0 r.
Lemma W_many stop : forall n k0 r, W k0 (many n stop p) r (fun l w _ => exists xs, map look w = flat_map sh xs /\ map erase l = map nd xs).
Proof.
  induction n as [|n IH]; intros k0 r; [apply W_fuel|]. cbn [many]. apply W_is; [mono|]. destruct (in_kinds _ _); [apply W_ret; exists []; now split|].
  eapply W_then; [mono|apply Hp, Hall|]. intros a w r1 (x & Hx1 & Hx2). eapply W_then; [mono|apply IH|]. intros l w2 r2 (xs & E1 & E2). apply W_ret. exists (x :: xs).
  rewrite app_nil_r, map_app, Hx1, E1. split; [reflexivity|]. cbn. now rewrite Hx2, E2.
Qed.
End Lists.

(** Types and parameters. *)
Ltac fin := repeat split; looks; rewrite ?app_nil_r; try reflexivity.
Lemma W_type : forall n k0 r, W k0 (parse_type n) r (fun a w _ => back show_ty node_ty a w).
Proof.
  induction n as [|n IH]; intros k0 r; [apply W_fuel|]. cbn [parse_type]. apply W_kind; [mono|].
  assert (Hl : forall close k0 r, close <> KEOF -> (forall t, tk_kind t = close -> look t = sym close) -> W k0 (list_until n close (parse_type n)) r
    (fun l w _ => exists xs, map look w = commas (map show_ty xs) ++ [sym close] /\ map erase l = map node_ty xs)).
  { intros close k1 r1 H1 H2. apply (W_list (parse_type n) show_ty node_ty (fun _ _ => True)); auto with mono. }
  destruct (hdk r) eqn:Ek; try (apply W_error; mono).
  - apply W_next; [mono|right; congruence|]. intros t r1 ->. cbn [hdk] in Ek. apply W_need; [mono|discriminate|]. intros t1 r2 -> H1.
    eapply W_then; [mono|apply IH|]. intros a w r3 (x & E1 & E2). apply W_ret. exists (TyArr x). fin; [now rewrite E1|]. cbn. unfold strip. rewrite (look_of t _ Ek), E2. reflexivity.
  - apply W_next; [mono|right; congruence|]. intros t r1 ->. cbn [hdk] in Ek. apply W_is; [mono|].
    eapply W_then with (R := fun o w => exists args, map look w = opt show_tys args /\ option_map erase o = option_map node_tys args); [mono| |].
    + destruct (in_kinds _ _); [|apply W_ret; exists None; now split]. unfold type_list. apply W_bind; [mono|]. apply W_need; [mono|discriminate|]. intros t1 r2 -> H1.
      eapply W_then; [mono|apply Hl; [discriminate|intros u Hu; now rewrite (look_of u _ Hu)]|]. intros l w r3 (xs & E1 & E2). apply W_ret. apply W_ret. exists (Some xs). split.
      * rewrite !app_nil_r. cbn [map opt]. rewrite E1, (look_of t1 _ H1). reflexivity.
      * cbn. unfold strip. now rewrite (look_of t1 _ H1), E2.
    + intros o w r2 (args & E1 & E2). apply W_ret. exists (TyName (tk_val t) args). rewrite app_nil_r. cbn [map]. rewrite (look_of t _ Ek), E1. split; [now destruct args|].
      cbn. unfold strip. rewrite (look_of t _ Ek), E2. now destruct args.
  - apply W_next; [mono|right; congruence|]. intros t r1 ->. cbn [hdk] in Ek. apply W_need; [mono|discriminate|]. intros t1 r2 -> H1.
    eapply W_then; [mono|apply Hl; [discriminate|intros u Hu; now rewrite (look_of u _ Hu)]|]. intros l w r3 (xs & E1 & E2). apply W_is; [mono|].
    eapply W_then with (R := fun o w => exists x, map look w = opt show_ty x /\ option_map erase o = option_map node_ty x); [mono| |].
    + destruct (in_kinds _ _); [|apply W_ret; exists None; now split]. eapply W_then; [mono|apply IH|]. intros a w2 r4 (x & F1 & F2). apply W_ret. exists (Some x).
      rewrite app_nil_r. split; [exact F1|]. cbn. now rewrite F2.
    + intros o w2 r4 (x & F1 & F2). apply W_ret. exists (TyFn xs x). rewrite app_nil_r. cbn [map]. rewrite (look_of t _ Ek), (look_of t1 _ H1), map_app, E1, F1, <- app_assoc. split; [now destruct x|].
      cbn. unfold strip. rewrite (look_of t _ Ek), E2, F2. now destruct x.
Qed.
Lemma W_types n close k0 r : close <> KEOF -> (forall t, tk_kind t = close -> look t = sym close) -> W k0 (list_until n close (parse_type n)) r
  (fun l w _ => exists xs, map look w = commas (map show_ty xs) ++ [sym close] /\ map erase l = map node_ty xs).
Proof. intros H1 H2. apply (W_list (parse_type n) show_ty node_ty (fun _ _ => True)); auto with mono. intros; apply W_type. Qed.
Lemma W_tyl n k0 r : W k0 (type_list n (parse_type n)) r (fun x w _ => exists ts, map look w = show_tys ts /\ map erase (fst x) = map node_ty ts /\ strip (snd x) = bare (sym KLGmet)).
Proof.
  unfold type_list. apply W_need; [mono|discriminate|]. intros t r1 -> Ht. eapply W_then; [mono|apply W_types; [discriminate|intros u Hu; now rewrite (look_of u _ Hu)]|].
  intros l w r2 (xs & E1 & E2). apply W_ret. exists xs. rewrite app_nil_r. cbn [map fst snd]. rewrite (look_of t _ Ht), E1. repeat split; auto. unfold strip. now rewrite (look_of t _ Ht).
Qed.
Lemma W_opt_ty (b : bool) n k0 r : W k0 (if b then x <- parse_type n ;; ret (Some x) else ret None) r (fun o w _ => exists x, map look w = opt show_ty x /\ option_map erase o = option_map node_ty x).
Proof.
  destruct b; [|apply W_ret; exists None; now split]. eapply W_then; [mono|apply W_type|]. intros a w2 r4 (x & F1 & F2). apply W_ret. exists (Some x). rewrite app_nil_r. split; [exact F1|]. cbn. now rewrite F2.
Qed.
Lemma W_opt_tys (b : bool) n k0 r : W k0 (if b then x <- type_list n (parse_type n) ;; ret (Some (Node no_attrs OpTypeList (snd x) None None [] (fst x))) else ret None) r
  (fun o w _ => exists x, map look w = opt show_tys x /\ option_map erase o = option_map node_tys x).
Proof.
  destruct b; [|apply W_ret; exists None; now split]. eapply W_then; [mono|apply W_tyl|]. intros a w2 r4 (x & F1 & F2 & F3). apply W_ret. exists (Some x). rewrite app_nil_r. split; [exact F1|]. cbn. now rewrite F2, F3.
Qed.
Lemma W_param n k0 r : W k0 (parse_parameter n) r (fun a w _ => back show_param node_param a w).
Proof.
  unfold parse_parameter. apply W_need; [mono|discriminate|]. intros t r1 -> Ht. apply W_need; [mono|discriminate|]. intros t1 r2 -> Ht1. eapply W_then; [mono|apply W_type|]. intros a w r3 (x & E1 & E2).
  apply W_ret. exists (tk_val t, x). rewrite app_nil_r. cbn [map]. rewrite (look_of t _ Ht), (look_of t1 _ Ht1), E1. split; [reflexivity|]. cbn. unfold strip. now rewrite (look_of t _ Ht), E2.
Qed.
Lemma W_params n k0 r : W k0 (parse_parameters n) r (fun l w _ => exists ps, map look w = show_params ps /\ map erase l = map node_param ps).
Proof.
  unfold parse_parameters, paren_list. apply W_need; [mono|discriminate|]. intros t r1 -> Ht. eapply W_cons; [|apply (W_list (parse_parameter n) show_param node_param (fun _ _ => True)); auto with mono; [intros; apply W_param|discriminate|intros u Hu; now rewrite (look_of u _ Hu)]].
  intros l w r2 (xs & E1 & E2). exists xs. cbn [map]. rewrite (look_of t _ Ht), E1. now split.
Qed.
Lemma W_ids n k0 r : W k0 (parse_identifiers n) r (fun l w _ => exists ids, map look w = sym KLParen :: commas (map (fun i => [(KIdentifier, i)]) ids) ++ [sym KRParen] /\ map erase l = map (fun i => mk OpIdentifier (KIdentifier, i)) ids).
Proof.
  unfold parse_identifiers, paren_list. apply W_need; [mono|discriminate|]. intros t r1 -> Ht.
  eapply W_cons; [|apply (W_list (t <- need KIdentifier ;; ret (leaf OpIdentifier t)) (fun i => [(KIdentifier, i)]) (fun i => mk OpIdentifier (KIdentifier, i)) (fun _ _ => True));
    auto; [mono| |discriminate|intros u Hu; now rewrite (look_of u _ Hu)]].
  - intros l w r2 (xs & E1 & E2). exists xs. cbn [map]. rewrite (look_of t _ Ht), E1. now split.
  - intros k1 r2 _. apply W_need; [mono|discriminate|]. intros u r3 -> Hu. apply W_ret. exists (tk_val u). cbn. unfold strip. now rewrite (look_of u _ Hu).
Qed.

(* ------------------------------------------------------------ expressions and statements *)

Definition Be (n : nat) : Prop := forall p k0 r, wants k0 = true \/ hdk r <> KEOF -> W k0 (parse_expr n p) r (fun a w _ => back show node_of a w).
Definition Bl (n : nat) : Prop := forall p left e0 k0 r, erase left = node_of e0 -> W k0 (infix_loop n p left) r (fun a w _ => exists e, show e = show e0 ++ map look w /\ erase a = node_of e).
Definition Bi (n : nat) : Prop := forall left e0 t r, erase left = node_of e0 -> W (tk_kind t) (parse_infix n left t) r (fun a w _ => exists e, show e = show e0 ++ look t :: map look w /\ erase a = node_of e).
Definition fn_words (x : list word) tps ps o (b : option body) : list word := x ++ opt show_tys tps ++ show_params ps ++ opt show_ty o ++ opt show_body b.
Definition fn_tree attrs (t : token) tps ps o (b : option body) : node :=
  Node attrs (match b with Some b => block_op b | None => OpExternFn end) t (option_map node_ty o) (option_map node_tys tps) (match b with Some b => nodes_body b | None => [] end) (map node_param ps).
Definition Bf (n : nat) : Prop := forall attrs id (anon : bool) k0 r, W k0 (parse_fn n attrs id anon) r (fun a w _ => exists x tps ps o b,
  map look w = fn_words (if anon then [] else [(KIdentifier, x)]) tps ps o b /\ (anon = true -> b <> None) /\
  erase a = fn_tree attrs (if anon then strip id else bare (KIdentifier, x)) tps ps o b).
Definition Bb (n : nat) : Prop := forall k0 r, W k0 (parse_block n) r (fun l w _ => exists ss, map look w = show_block ss /\ map erase l = map node_stmt ss).
Definition Bs (n : nat) : Prop := forall k0 r, W k0 (parse_statement n) r (fun a w _ => back show_stmt node_stmt a w).
Definition Bel (n : nat) : Prop := forall k0 r, W k0 (parse_else n) r (fun o w _ => exists b, map look w = show_branch b /\ option_map erase o = node_branch b).
Definition Bc (n : nat) : Prop := forall k0 r, W k0 (parse_case n) r (fun a w _ => back show_case node_case a w).
Definition binaries : list binary := [BDot; BMul; BDiv; BAdd; BSub; BShl; BShr; BGt; BGte; BLt; BLte; BEq; BAnd; BXor; BOr; BLand; BLor].
Lemma binary_kind k : is_binary k = true -> exists o, k = bin_kind o.
Proof.
  intros H. assert (E : existsb (fun o => kind_eqb k (bin_kind o)) binaries = true) by (destruct k; try discriminate H; reflexivity).
  apply existsb_exists in E. destruct E as (o & _ & E). apply kind_eqb_eq in E. now exists o.
Qed.
Lemma wants_bin o : wants (bin_kind o) = true.
Proof. destruct o; reflexivity. Qed.
Lemma look_plain t k : match k with KIdentifier | KString | KInteger => false | _ => true end = true -> tk_kind t = k -> look t = sym k.
Proof. intros H E. rewrite (look_of t k E). destruct k; try discriminate H; reflexivity. Qed.
Lemma plain_bin o : match bin_kind o with KIdentifier | KString | KInteger => false | _ => true end = true.
Proof. destruct o; reflexivity. Qed.
Ltac lk := repeat match goal with H : tk_kind ?t = ?k |- context [look ?t] => first [rewrite (look_plain t k eq_refl H) | rewrite (look_of t k H); cbn iota] end.
Ltac app := cbn [map app]; repeat (rewrite ?map_app, ?app_nil_r, <- ?app_assoc; cbn [map app]).

Section Step.
Variable n : nat.
Hypothesis He : Be n.
Hypothesis Hl : Bl n.
Hypothesis Hi : Bi n.
Hypothesis Hf : Bf n.
Hypothesis Hb : Bb n.
Hypothesis Hs : Bs n.
Hypothesis Hel : Bel n.
Hypothesis Hc : Bc n.
Lemma W_args m close k0 r : wants k0 = true -> close <> KEOF -> (forall t, tk_kind t = close -> look t = sym close) -> W k0 (list_until m close (parse_expr n 0)) r
  (fun l w _ => exists xs, map look w = commas (map show xs) ++ [sym close] /\ map erase l = map node_of xs).
Proof.
  intros H0 H1 H2. apply (W_list (parse_expr n 0) show node_of (fun k0 r => wants k0 = true \/ hdk r <> KEOF)); auto with mono.
Qed.
Lemma step_expr : Be (S n).
Proof.
  intros p k0 r Hk. cbn [parse_expr]. apply W_next; [mono|exact Hk|]. intros t r1 ->.
  assert (K : forall q, mono q -> W (tk_kind t) q r1 (fun a w _ => exists e, show e = look t :: map look w /\ erase a = node_of e) ->
    W (tk_kind t) (left <- q ;; infix_loop n p left) r1 (fun b w _ => back show node_of b (t :: w))).
  { intros q M H. eapply W_then; [mono|exact H|]. intros a w r2 (e & E1 & E2). eapply W_cons; [|apply Hl; exact E2]. intros b w2 r3 (e2 & F1 & F2). exists e2. split; [|exact F2]. app. now rewrite F1, E1. }
  destruct (tk_kind t) eqn:Ek; try (apply W_error; mono); apply K; try mono.
  - eapply W_then; [mono|apply He; now left|]. intros a w r2 (e & E1 & E2). apply W_need; [mono|discriminate|]. intros t1 r3 -> H1. apply W_ret. exists (Paren e).
    split; [|exact E2]. app. lk. now rewrite E1.
  - eapply W_then; [mono|apply W_args; [reflexivity|discriminate|intros u Hu; now rewrite (look_of u _ Hu)]|]. intros l w r2 (xs & E1 & E2). apply W_ret. exists (Arr xs).
    split; [|cbn; unfold strip; lk; now rewrite E2]. app. lk. now rewrite E1.
  - apply W_ret. exists (Id (tk_val t)). cbn. unfold strip. lk. now split.
  - apply W_ret. exists (Lit (LStr (tk_val t))). cbn. unfold strip. lk. now split.
  - apply W_ret. exists (Lit (LInt (tk_val t))). cbn. unfold strip. lk. now split.
  - eapply W_then; [mono|apply He; now left|]. intros a w r2 (e & E1 & E2). apply W_ret. exists (Pre UNeg e). split; [|cbn; unfold strip; lk; now rewrite E2]. app. lk. now rewrite E1.
  - eapply W_then; [mono|apply He; now left|]. intros a w r2 (e & E1 & E2). apply W_ret. exists (Pre UBNot e). split; [|cbn; unfold strip; lk; now rewrite E2]. app. lk. now rewrite E1.
  - eapply W_cons; [|apply Hf]. intros a w r2 (x & tps & ps & o & b & E1 & E2 & E3). destruct b as [b|]; [|now destruct E2]. exists (Fn tps ps o b). split; [rewrite E1; lk; reflexivity|].
    rewrite E3. unfold strip. lk. reflexivity.
  - apply W_ret. exists (Lit LTrue). cbn. unfold strip. lk. now split.
  - apply W_ret. exists (Lit LFalse). cbn. unfold strip. lk. now split.
  - eapply W_then; [mono|apply He; now left|]. intros a w r2 (e & E1 & E2). apply W_ret. exists (Pre UNot e). split; [|cbn; unfold strip; lk; now rewrite E2]. app. lk. now rewrite E1.
  - apply W_need; [mono|discriminate|]. intros t1 r2 -> H1. eapply W_then; [mono|apply W_type|]. intros a w r3 (x & E1 & E2). apply W_need; [mono|discriminate|]. intros t2 r4 -> H2. apply W_ret.
    exists (TypeOf x). split; [|exact E2]. app. lk. now rewrite E1.
Qed.
Lemma step_loop : Bl (S n).
Proof.
  intros p left e0 k0 r H0. cbn [infix_loop]. apply W_kind; [mono|]. destruct (negb _) eqn:Ep; [apply W_ret; exists e0; now rewrite app_nil_r|].
  apply W_next; [mono|right; intros E; rewrite E in Ep; cbn in Ep; discriminate Ep|]. intros t r1 ->. eapply W_then; [mono|apply (Hi left e0 t r1 H0)|]. intros a w r2 (e & E1 & E2). eapply W_cons; [|apply Hl; exact E2].
  intros b w2 r3 (e2 & F1 & F2). exists e2. split; [|exact F2]. rewrite F1, E1. app. reflexivity.
Qed.
Lemma step_infix : Bi (S n).
Proof.
  intros left e0 t r H0. destruct (is_binary (tk_kind t)) eqn:Eb.
  { apply binary_kind in Eb. destruct Eb as (o & Ek). rewrite (infix_bin n left t o Ek), Ek. eapply W_then; [mono|apply He; left; apply wants_bin|]. intros a w r2 (e & E1 & E2). apply W_ret. exists (Bin o e0 e).
    app. rewrite (look_plain t _ (plain_bin o) Ek), E1. split; [reflexivity|]. cbn. unfold strip. now rewrite (look_plain t _ (plain_bin o) Ek), E2, H0. }
  assert (Ha : forall k0 r types ts, wants k0 = true -> map erase types = map node_ty ts -> W k0 (parse_call n (parse_expr n 0) left t types) r (fun a w _ => exists xs,
    map look w = commas (map show xs) ++ [sym KRParen] /\ erase a = Node no_attrs OpFuncCall (strip t) (Some (node_of e0)) None (map node_of xs) (map node_ty ts))).
  { intros k0 r1 types ts Hk Ht. unfold parse_call. eapply W_then; [mono|apply W_args; [exact Hk|discriminate|intros u Hu; now rewrite (look_of u _ Hu)]|]. intros l w r2 (xs & E1 & E2). apply W_ret. exists xs.
    rewrite app_nil_r. split; [exact E1|]. cbn. now rewrite H0, E2, Ht. }
  cbn [parse_infix]. destruct (tk_kind t) eqn:Ek; try discriminate Eb; try (intros _; exact I); cbv beta iota.
  - eapply W_cons; [|apply (Ha KLParen r [] []); reflexivity]. intros a w r1 (xs & E1 & E2). exists (Call e0 xs). rewrite E1, E2. unfold strip. lk. now split.
  - eapply W_then; [mono|apply He; now left|]. intros a w r2 (e & E1 & E2). apply W_need; [mono|discriminate|]. intros t1 r3 -> H1. apply W_ret. exists (Index e0 e).
    app. lk. rewrite E1. split; [reflexivity|]. cbn. unfold strip. lk. now rewrite E2, H0.
  - eapply W_then; [mono|apply He; now left|]. intros a w r2 (e & E1 & E2). apply W_need; [mono|discriminate|]. intros t1 r3 -> H1. eapply W_then; [mono|apply He; now left|]. intros b w2 r4 (e2 & F1 & F2).
    apply W_ret. exists (Cond e0 e e2). app. lk. rewrite E1, F1. split; [reflexivity|]. cbn. unfold strip. lk. now rewrite E2, F2, H0.
  - eapply W_then; [mono|apply W_types; [discriminate|intros u Hu; now rewrite (look_of u _ Hu)]|]. intros l w r2 (ts & E1 & E2). apply W_need; [mono|discriminate|]. intros t1 r3 -> H1.
    eapply W_cons; [|apply (Ha KLParen r3 l ts); [reflexivity|exact E2]]. intros a w2 r4 (xs & F1 & F2). exists (TCall e0 ts xs). rewrite F2. unfold strip. app. lk. rewrite E1, F1. app. split; [|reflexivity].
    cbn [show]. unfold show_tys. app. reflexivity.
Qed.
Lemma step_fn : Bf (S n).
Proof.
  intros attrs id anon k0 r. cbn [parse_fn].
  eapply W_then with (R := fun id1 w => exists x, map look w = (if anon then [] else [(KIdentifier, x)]) /\ strip id1 = (if anon then strip id else bare (KIdentifier, x))); [mono| |].
  { destruct anon; [apply W_ret; exists []; now split|]. rewrite <- (app_nil_r r). intros Hr.
    assert (K : W k0 (t <- need KIdentifier ;; ret t) (r ++ []) (fun id1 w _ => exists x, map look w = [(KIdentifier, x)] /\ strip id1 = bare (KIdentifier, x))).
    { apply W_need; [mono|discriminate|]. intros t r1 _ Ht. apply W_ret. exists (tk_val t). cbn. unfold strip. lk. now split. }
    specialize (K Hr). unfold bind, ret in K. destruct (need KIdentifier (at_ (r ++ []))); auto. }
  intros id1 w0 r0 (x & E1 & E2). apply W_kind; [mono|]. eapply W_then; [mono|apply W_opt_tys|]. intros tl w1 r1 (tps & F1 & F2). eapply W_then; [mono|apply W_params|]. intros pl w2 r2 (ps & G1 & G2).
  apply W_is; [mono|]. eapply W_then; [mono|apply W_opt_ty|]. intros o1 w3 r3 (o & H1 & H2). apply W_kind; [mono|].
  assert (Z : W (lastk (lastk (lastk (lastk k0 w0) w1) w2) w3) (ret (Node attrs OpExternFn id1 o1 tl [] pl)) r3 (fun b w4 _ => exists x tps ps o b1,
      map look (w0 ++ w1 ++ w2 ++ w3 ++ w4) = fn_words [(KIdentifier, x)] tps ps o b1 /\ (false = true -> b1 <> None) /\
      erase b = fn_tree attrs (bare (KIdentifier, x)) tps ps o b1) \/ anon = true).
  { destruct anon; [now right|left]. apply W_ret. exists x, tps, ps, o, None. split; [app; rewrite E1, F1, G1, H1; unfold fn_words; app; reflexivity|]. split; [discriminate|]. cbn. now rewrite E2, F2, G2, H2. }
  destruct (hdk r3) eqn:Ek; cbv beta iota; try (destruct anon; [apply W_error; mono|destruct Z as [Z|Z]; [exact Z|discriminate Z]]); clear Z.
  - eapply W_then; [mono|apply Hb|]. intros l w4 r4 (ss & I1 & I2). apply W_ret. exists x, tps, ps, o, (Some (Block ss)). split; [app; rewrite E1, F1, G1, H1, I1; unfold fn_words; app; reflexivity|]. split; [discriminate|].
    cbn. now rewrite E2, F2, G2, H2, I2.
  - apply W_next; [mono|right; congruence|]. intros t r4 ->. cbn [hdk] in Ek. rewrite Ek. eapply W_then; [mono|apply He; now left|]. intros a w4 r5 (e & I1 & I2). apply W_ret.
    exists x, tps, ps, o, (Some (Expr e)). split; [app; lk; rewrite E1, F1, G1, H1, I1; unfold fn_words; app; reflexivity|]. split; [discriminate|]. cbn. now rewrite E2, F2, G2, H2, I2.
Qed.
Lemma W_stmts stop k0 r : W k0 (many n stop (parse_statement n)) r (fun l w _ => exists xs, map look w = flat_map show_stmt xs /\ map erase l = map node_stmt xs).
Proof. apply (W_many (parse_statement n) show_stmt node_stmt (fun _ _ => True)); auto with mono. Qed.
Lemma step_block : Bb (S n).
Proof.
  intros k0 r. cbn [parse_block]. apply W_need; [mono|discriminate|]. intros t r1 -> Ht. eapply W_then; [mono|apply W_stmts|]. intros l w r2 (ss & E1 & E2). apply W_need; [mono|discriminate|].
  intros t2 r3 -> H2. apply W_ret. exists ss. split; [|exact E2]. unfold show_block. app. lk. now rewrite E1.
Qed.
Lemma step_case : Bc (S n).
Proof.
  intros k0 r. cbn [parse_case]. apply W_need; [mono|discriminate|]. intros t r1 -> Ht. apply W_need; [mono|discriminate|]. intros t1 r2 -> H1. eapply W_then; [mono|apply W_ids|]. intros l w r3 (ids & E1 & E2).
  apply W_need; [mono|discriminate|]. intros t2 r4 -> H2. eapply W_then; [mono|apply W_stmts|]. intros l2 w2 r5 (ss & F1 & F2). apply W_ret. exists (tk_val t1, ids, ss).
  split; [unfold show_case, show_case_head; cbn [fst snd]; app; lk; rewrite E1, F1; app; reflexivity|]. cbn. unfold strip. lk. now rewrite E2, F2.
Qed.
Lemma step_else : Bel (S n).
Proof.
  intros k0 r. cbn [parse_else]. apply W_is; [mono|]. destruct (in_kinds (hdk r) [KElseIf]).
  - apply W_need; [mono|discriminate|]. intros t r1 -> Ht. eapply W_then; [mono|apply He; now left|]. intros a w r2 (e & E1 & E2). eapply W_then; [mono|apply Hb|]. intros l w2 r3 (ss & F1 & F2).
    eapply W_then; [mono|apply Hel|]. intros o w3 r4 (b & G1 & G2). apply W_ret. exists (ElseIf e ss b). app. lk. rewrite E1, F1, G1. unfold show_block. app. split; [reflexivity|]. rewrite node_elseif. cbn. unfold strip. lk. now rewrite E2, F2, G2.
  - apply W_is; [mono|]. destruct (in_kinds (hdk r) [KElse]); [|apply W_ret; exists NoElse; now split]. apply W_need; [mono|discriminate|]. intros t r1 -> Ht. eapply W_then; [mono|apply Hb|]. intros l w2 r3 (ss & F1 & F2).
    apply W_ret. exists (Else ss). app. lk. rewrite F1. split; [reflexivity|]. rewrite node_else. cbn. unfold strip. lk. now rewrite F2.
Qed.
Lemma step_assign k0 r : hdk r <> KEOF -> W k0 (e <- parse_expr n 0 ;; k1 <- cur_kind ;;
        match k1 with
        | KAs => t <- need KAs ;; r <- parse_expr n 0 ;; ret (Node no_attrs OpAs t (Some e) (Some r) [] [])
        | KDas => t <- need KDas ;; r <- parse_expr n 0 ;; ret (Node no_attrs OpDas t (Some e) (Some r) [] [])
        | _ => ret e
        end) r (fun a w _ => back show_stmt node_stmt a w).
Proof.
  intros Hk. eapply W_then; [mono|apply He; now right|]. intros a w r2 (e & E1 & E2). apply W_kind; [mono|]. destruct (hdk r2) eqn:E; cbv beta iota; try (apply W_ret; exists (Do e); rewrite app_nil_r; now split).
  - apply W_need; [mono|discriminate|]. intros t r3 -> Ht. eapply W_then; [mono|apply He; now left|]. intros b w2 r4 (e2 & F1 & F2). apply W_ret. exists (Declare e e2). app. lk. rewrite E1, F1. split; [reflexivity|].
    rewrite node_declare. cbn. unfold strip. lk. now rewrite E2, F2.
  - apply W_need; [mono|discriminate|]. intros t r3 -> Ht. eapply W_then; [mono|apply He; now left|]. intros b w2 r4 (e2 & F1 & F2). apply W_ret. exists (Assign e e2). app. lk. rewrite E1, F1. split; [reflexivity|].
    rewrite node_assign. cbn. unfold strip. lk. now rewrite E2, F2.
Qed.
Lemma step_statement : Bs (S n).
Proof.
  intros k0 r. cbn [parse_statement]. apply W_kind; [mono|].
  assert (Z : is_expr_start (hdk r) = true -> hdk r <> KEOF) by (intros H E; rewrite E in H; discriminate H).
  destruct (hdk r) eqn:Ek; cbv beta iota; try (cbn [is_expr_start]; cbv beta iota; first [apply W_error; mono | apply step_assign; congruence]).
  - apply W_need; [mono|discriminate|]. intros t r1 -> Ht. apply W_kind; [mono|]. destruct (is_expr_start (hdk r1)) eqn:Es.
    + apply W_bind; [mono|]. eapply W_then; [mono|apply He; right; intros E; rewrite E in Es; discriminate Es|]. intros a w r2 (e & E1 & E2). apply W_ret. apply W_ret. exists (Return (Some e)). app. lk. rewrite E1.
      split; [reflexivity|]. rewrite node_return. cbn. unfold strip. lk. now rewrite E2.
    + apply W_bind; [mono|]. apply W_ret. apply W_ret. exists (Return None). cbn. unfold strip. lk. now split.
  - apply W_need; [mono|discriminate|]. intros t r1 -> Ht. eapply W_then; [mono|apply He; now left|]. intros a w r2 (e & E1 & E2). eapply W_then; [mono|apply Hb|]. intros l w2 r3 (ss & F1 & F2).
    eapply W_then; [mono|apply Hel|]. intros o w3 r4 (b & G1 & G2). apply W_ret. exists (If e ss b). app. lk. rewrite E1, F1, G1. unfold show_block. app. split; [reflexivity|]. rewrite node_if. cbn. unfold strip. lk. now rewrite E2, F2, G2.
  - apply W_need; [mono|discriminate|]. intros t r1 -> Ht. eapply W_then; [mono|apply He; now left|]. intros a w r2 (e & E1 & E2). eapply W_then; [mono|apply Hb|]. intros l w2 r3 (ss & F1 & F2).
    apply W_ret. exists (While e ss). app. lk. rewrite E1, F1. split; [reflexivity|]. rewrite node_while. cbn. unfold strip. lk. now rewrite E2, F2.
  - apply W_need; [mono|discriminate|]. intros t r1 -> Ht. apply W_need; [mono|discriminate|]. intros t1 r2 -> H1. apply W_need; [mono|discriminate|]. intros t2 r3 -> H2.
    eapply W_then; [mono|apply He; now left|]. intros a w r4 (e & E1 & E2). apply W_is; [mono|].
    eapply W_then with (R := fun x w => exists to, map look w = match to with Some e2 => sym KDotDot :: show e2 | None => [] end /\
      erase x = match to with Some e2 => Node no_attrs OpRange (bare (sym KDotDot)) (Some (node_of e)) (Some (node_of e2)) [] [] | None => node_of e end); [mono| |].
    + destruct (in_kinds (hdk r4) [KDotDot]) eqn:Ed; [|apply W_ret; exists None; now split]. assert (Hd : hdk r4 = KDotDot) by (cbn in Ed; rewrite orb_false_r in Ed; now apply kind_eqb_eq in Ed).
      apply W_next; [mono|right; congruence|]. intros d r5 ->. cbn [hdk] in Hd. rewrite Hd. eapply W_then; [mono|apply He; now left|]. intros a2 w2 r6 (e2 & F1 & F2). apply W_ret. exists (Some e2).
      app. lk. rewrite F1. split; [reflexivity|]. cbn. unfold strip. lk. now rewrite E2, F2.
    + intros x w2 r5 (to & F1 & F2). eapply W_then; [mono|apply Hb|]. intros l w3 r6 (ss & G1 & G2). apply W_ret. exists (For (tk_val t1) e to ss). app. lk. rewrite E1, F1, G1. split; [reflexivity|].
      rewrite node_for. cbn. unfold strip. lk. rewrite F2, G2. now destruct to.
  - apply W_need; [mono|discriminate|]. intros t r1 -> Ht. eapply W_then; [mono|apply He; now left|]. intros a w r2 (e & E1 & E2). apply W_need; [mono|discriminate|]. intros t1 r3 -> H1.
    eapply W_then; [mono|apply (W_many (parse_case n) show_case node_case (fun _ _ => True)); auto with mono|]. intros l w2 r4 (cs & F1 & F2). apply W_need; [mono|discriminate|]. intros t2 r5 -> H2.
    apply W_ret. exists (Match e cs). app. lk. rewrite E1, F1. split; [reflexivity|]. rewrite node_match. cbn. unfold strip. lk. now rewrite E2, F2.
Qed.
End Step.
Lemma all_back : forall n, Be n /\ Bl n /\ Bi n /\ Bf n /\ Bb n /\ Bs n /\ Bel n /\ Bc n.
Proof.
  induction n as [|n (He & Hl & Hi & Hf & Hb & Hs & Hel & Hc)]; [repeat split; repeat intro; exact I|]. split; [|split; [|split; [|split; [|split; [|split; [|split]]]]]].
  - now apply step_expr.
  - now apply step_loop.
  - now apply step_infix.
  - now apply step_fn.
  - now apply step_block.
  - now apply step_statement.
  - now apply step_else.
  - now apply step_case.
Qed.

(* ------------------------------------------------------------------------ declarations *)

Section Decls.
Variable attr_name : list Z -> option bool.
Lemma mono_attrs n : mono (parse_attributes attr_name n).
Proof. unfold parse_attributes. mono. Qed.
Lemma mono_cons n id : mono (parse_cons n id).
Proof. unfold parse_cons. mono. Qed.
Hint Resolve mono_attrs mono_cons : mono.
Lemma mono_struct n a : mono (parse_struct n a).
Proof. unfold parse_struct. mono. Qed.
Lemma mono_enum n a : mono (parse_enum n a).
Proof. unfold parse_enum. mono. Qed.
Hint Resolve mono_struct mono_enum : mono.
Lemma mono_decl n : mono (parse_decl attr_name n).
Proof. unfold parse_decl. mono. Qed.

Lemma W_id_list : forall n k0 r, W k0 (comma_sep n (need KIdentifier)) r (fun l w _ => l <> [] /\ map look w = commas (map (fun t => [(KIdentifier, tk_val t)]) l)).
Proof.
  induction n as [|n IH]; intros k0 r; [apply W_fuel|]. cbn [comma_sep]. apply W_need; [mono|discriminate|]. intros t r1 -> Ht. apply W_matches; [mono|discriminate| |].
  - intros t1 r2 -> H1. eapply W_then; [mono|apply IH|]. intros l w r3 (E0 & E1). apply W_ret. split; [discriminate|]. app. lk. rewrite E1. destruct l; [congruence|reflexivity].
  - apply W_ret. split; [discriminate|]. cbn [map commas]. lk. reflexivity.
Qed.
Lemma W_attrs n k0 r : W k0 (parse_attributes attr_name n) r (fun a w _ => exists l, map look w = show_attrs l /\ a = attrs_of attr_name l).
Proof.
  unfold parse_attributes. apply W_is; [mono|]. destruct (in_kinds _ _); [|apply W_ret; exists []; now split]. apply W_need; [mono|discriminate|]. intros t r1 -> Ht. apply W_need; [mono|discriminate|]. intros t1 r2 -> H1.
  apply W_is; [mono|]. destruct (in_kinds (hdk r2) [KLBrack]) eqn:Ed.
  - assert (Hd : hdk r2 = KLBrack) by (cbn in Ed; rewrite orb_false_r in Ed; now apply kind_eqb_eq in Ed). apply W_bind; [mono|]. apply W_ret. apply W_need; [mono|discriminate|]. intros t2 r3 -> H2. cbn in Hd. congruence.
  - eapply W_then; [mono|apply W_id_list|]. intros l w r3 (E0 & E1). apply W_need; [mono|discriminate|]. intros t2 r4 -> H2. apply W_ret. exists (map tk_val l). split.
    + app. lk. rewrite E1. unfold show_attrs. rewrite map_map. destruct l; [congruence|reflexivity].
    + pose proof (attrs_fold attr_name (map tk_val l) no_attrs) as F. cbn [no_attrs fst snd orb] in F. rewrite <- surjective_pairing in F. rewrite <- F.
      clear. generalize no_attrs. induction l as [|x l IH]; intros a; [reflexivity|]. cbn. apply IH.
Qed.
Lemma W_tparams n k0 r : W k0 (type_params n) r (fun l w _ => exists tps, map look w = opt show_tys tps /\ map erase l = tys tps).
Proof.
  unfold type_params. apply W_is; [mono|]. destruct (in_kinds _ _); [|apply W_ret; exists None; now split]. eapply W_then; [mono|apply W_tyl|]. intros a w r1 (ts & E1 & E2 & _). apply W_ret. exists (Some ts).
  rewrite app_nil_r. now split.
Qed.
Lemma W_decl n k0 r : W k0 (parse_decl attr_name n) r (fun o w _ => exists d x, o = Some x /\ map look w = show_decl d /\ erase x = node_decl attr_name d).
Proof.
  unfold parse_decl. eapply W_then; [mono|apply W_attrs|]. intros attrs w r1 (l & A1 & A2). apply W_kind; [mono|]. destruct (hdk r1) eqn:Ek; try (apply W_error; mono).
  - apply W_need; [mono|discriminate|]. intros t r2 -> Ht. eapply W_then; [mono|apply all_back|]. intros x w2 r3 (f & tps & ps & o & b & E1 & _ & E3). apply W_ret. exists (DFn l f tps ps o b), x.
    split; [reflexivity|]. split; [app; lk; rewrite A1, E1; reflexivity|]. rewrite E3, A2. now destruct b.
  - apply W_bind; [mono|]. unfold parse_struct. apply W_need; [mono|discriminate|]. intros t r2 -> Ht. apply W_need; [mono|discriminate|]. intros t1 r3 -> H1. eapply W_then; [mono|apply W_tparams|].
    intros tl w2 r4 (tps & E1 & E2). apply W_need; [mono|discriminate|]. intros t2 r5 -> H2. eapply W_then; [mono|apply (W_many (parse_parameter n) show_param node_param (fun _ _ => True)); auto with mono; intros; apply W_param|].
    intros fl w3 r6 (fs & F1 & F2). apply W_need; [mono|discriminate|]. intros t3 r7 -> H3. apply W_ret. apply W_ret. eexists (DStruct l (tk_val t1) tps fs), _. split; [reflexivity|].
    split; [app; lk; rewrite A1, E1, F1; reflexivity|]. cbn. unfold strip. lk. now rewrite E2, F2, A2.
  - apply W_bind; [mono|]. unfold parse_enum. apply W_need; [mono|discriminate|]. intros t r2 -> Ht. apply W_need; [mono|discriminate|]. intros t1 r3 -> H1. eapply W_then; [mono|apply W_tparams|].
    intros tl w2 r4 (tps & E1 & E2). apply W_need; [mono|discriminate|]. intros t2 r5 -> H2.
    eapply W_then; [mono|apply (W_many (parse_cons n t1) (fun c => (KIdentifier, fst c) :: show_params (snd c))
      (fun c => Node no_attrs OpConsFn (bare (KIdentifier, fst c)) (Some (mk OpNamedType (KIdentifier, tk_val t1))) None [] (map node_param (snd c))) (fun _ _ => True)); auto with mono|].
    { intros k1 r6 _. unfold parse_cons. apply W_need; [mono|discriminate|]. intros t3 r7 -> H3. eapply W_then; [mono|apply W_params|]. intros pl w3 r8 (ps & F1 & F2). apply W_ret. exists (tk_val t3, ps).
      app. lk. rewrite F1. split; [reflexivity|]. cbn. unfold strip. lk. now rewrite F2. }
    intros fl w3 r6 (cs & F1 & F2). apply W_need; [mono|discriminate|]. intros t3 r7 -> H3. apply W_ret. apply W_ret. eexists (DEnum l (tk_val t1) tps cs), _. split; [reflexivity|].
    split; [app; lk; rewrite A1, E1, F1; reflexivity|]. cbn [erase node_decl option_map map]. unfold strip. lk. now rewrite E2, F2, A2.
Qed.
Lemma loop_back fuel : forall n root k0 r ns, ends r -> parse_loop attr_name n fuel root (at_ r) = Some (ns, []) ->
  (exists w u, r = w ++ [u] /\ wants (lastk k0 w) = true) \/
  exists p w eof r1, r = w ++ eof :: r1 /\ tk_kind eof = KEOF /\ map look w = flat_map show_decl p /\ map erase ns = map erase root ++ map (node_decl attr_name) p.
Proof.
  induction n as [|n IH]; intros root k0 r ns Hr H; [discriminate|]. cbn [parse_loop] in H. pose proof (ends_live r Hr) as Hl. destruct r as [|t r]; [congruence|]. clear Hl.
  unfold is, bind, cur_kind, ret, at_ in H. cbn [rest existsb] in H. rewrite orb_false_r in H. destruct (kind_eqb (tk_kind t) KEOF) eqn:E.
  - right. apply kind_eqb_eq in E. exists [], [], t, r. split; [reflexivity|]. split; [exact E|]. split; [reflexivity|]. cbn [map]. rewrite app_nil_r.
    destruct (need KEOF _) as [a s|s| |]; try discriminate H; injection H as <- _; reflexivity.
  - pose proof (W_decl fuel k0 (t :: r) Hr) as D. fold (at_ (t :: r)) in H. destruct (parse_decl attr_name fuel (at_ (t :: r))) as [o s|s| |]; try discriminate H.
    + assert (Es : errs s = []).
      { assert (M : forall n root s, parse_loop attr_name n fuel root s = Some (ns, []) -> errs s = []).
        { clear. induction n as [|n IH]; intros root s H; [discriminate|]. cbn [parse_loop] in H. pose proof (mono_is [KEOF] s) as M1. destruct (is [KEOF] s) as [[] s1| | |]; try discriminate H.
          - pose proof (mono_need KEOF s1) as M2. destruct (need KEOF s1) as [a s2|s2| |]; try discriminate H; injection H as _ H; apply M1, M2; now rewrite <- (rev_involutive (errs s2)), H.
          - pose proof (mono_decl fuel s1) as M2. destruct (parse_decl attr_name fuel s1) as [[x|] s2|s2| |]; try discriminate H; [apply IH in H; now apply M1, M2|apply IH in H; now apply M1, M2|].
            injection H as _ H; apply M1, M2; now rewrite <- (rev_involutive (errs s2)), H. }
        destruct o; now apply M in H. }
      destruct (D Es) as (w & r1 & -> & Ew & Hr1 & d & x & -> & D1 & D2). rewrite Ew in *. destruct (IH _ (lastk k0 w) _ _ Hr1 H) as [(w2 & u & -> & K)|(p & w2 & eof & r2 & -> & K1 & K2 & K3)].
      * left. exists (w ++ w2), u. rewrite lastk_app, app_assoc. now split.
      * right. exists (d :: p), (w ++ w2), eof, r2. rewrite <- app_assoc. split; [reflexivity|]. split; [exact K1|]. split; [rewrite map_app, D1, K2; reflexivity|]. rewrite K3, map_app, <- app_assoc. cbn. now rewrite D2.
    + left. injection H as _ H. assert (Es : errs s = []) by now rewrite <- (rev_involutive (errs s)), H. destruct (D Es) as (w & u & K). now exists w, u.
Qed.
Lemma no_inner (w1 w2 : list token) (e1 e2 : token) r1 : w1 ++ [e1] = w2 ++ e2 :: r1 -> (forall t, In t w1 -> tk_kind t <> KEOF) -> tk_kind e2 = KEOF -> w1 = w2 /\ e1 = e2 /\ r1 = [].
Proof.
  revert w2. induction w1 as [|x w1 IH]; intros w2 E H He.
  - destruct w2 as [|y w2]; [injection E as -> <-; auto|]. injection E as _ E. now destruct w2.
  - destruct w2 as [|y w2]; [injection E as -> _; exfalso; apply (H e2); [now left|exact He]|]. injection E as -> E. destruct (IH w2 E) as (-> & -> & ->); auto. intros t Ht. apply H. now right.
Qed.
Lemma program_back fuel w0 eof ns : tk_kind eof = KEOF -> (forall t, In t w0 -> tk_kind t <> KEOF) -> wants (lastk KEOF w0) = false ->
  parse attr_name fuel (w0 ++ [eof]) [] = Some (ns, []) -> exists p, map look (w0 ++ [eof]) = show_program p /\ map erase ns = map (node_decl attr_name) p.
Proof.
  intros He H0 Hw H. destruct (loop_back fuel fuel [] KEOF (w0 ++ [eof]) ns) as [(w & u & E & K)|(p & w & e & r1 & E & K1 & K2 & K3)]; [now exists w0, eof|exact H| |].
  - apply app_inj_tail in E. destruct E as [-> _]. congruence.
  - destruct (no_inner _ _ _ _ _ E H0 K1) as (-> & -> & ->). exists p. split; [|exact K3]. unfold show_program. rewrite map_app, K2. cbn [map]. now rewrite (look_of e _ He).
Qed.
End Decls.
