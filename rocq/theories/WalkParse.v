(** The trees of the parser have the shapes that walks need. *)
From Coq Require Import ZArith List Bool Arith Lia.
From Verif Require Import LexModel ParseModel WalkModel WalkProofs.
Import ListNotations.
Open Scope nat_scope.

Definition yields {A} (p : parser A) (Q : A -> Prop) : Prop := forall s a s', p s = Ok a s' -> Q a.
Lemma y_ret : forall {A} (a : A) (Q : A -> Prop), Q a -> yields (ret a) Q.
Proof. intros A a Q H s b s' E. injection E as <- _. exact H. Qed.
Lemma y_bind : forall {A B} (p : parser A) (q : A -> parser B) (P : A -> Prop) (Q : B -> Prop),
  yields p P -> (forall a, P a -> yields (q a) Q) -> yields (bind p q) Q.
Proof. intros A B p q P Q Hp Hq s b s' E. unfold bind in E. destruct (p s) as [a s1| | |] eqn:E1; try discriminate. exact (Hq a (Hp _ _ _ E1) _ _ _ E). Qed.
Lemma y_any : forall {A} (p : parser A), yields p (fun _ => True).
Proof. intros A p s a s' _. exact I. Qed.
Lemma y_none : forall {A} (Q : A -> Prop), yields no_fuel Q.
Proof. intros A Q s a s' E; discriminate. Qed.
Lemma y_crash : forall {A} (Q : A -> Prop), yields (fun _ => Crash) Q.
Proof. intros A Q s a s' E; discriminate. Qed.
Lemma y_comma : forall {A} n (p : parser A) (Q : A -> Prop), yields p Q -> yields (comma_sep n p) (Forall Q).
Proof.
  induction n as [|n IH]; intros p Q H; cbn; [apply y_none|]. eapply y_bind; [exact H|]. intros x X. eapply y_bind; [apply y_any|]. intros [|] _.
  - eapply y_bind; [apply IH; exact H|]. intros l L. apply y_ret. constructor; auto.
  - apply y_ret. repeat constructor; auto.
Qed.
Lemma y_until : forall {A} n k (p : parser A) (Q : A -> Prop), yields p Q -> yields (list_until n k p) (Forall Q).
Proof.
  intros A n k p Q H. unfold list_until. eapply y_bind; [apply y_any|]. intros [|] _.
  - eapply y_bind; [apply (y_ret [] (Forall Q)); constructor|]. intros l L. eapply y_bind; [apply y_any|]. intros _ _. apply y_ret. exact L.
  - eapply y_bind; [apply y_comma; exact H|]. intros l L. eapply y_bind; [apply y_any|]. intros _ _. apply y_ret. exact L.
Qed.
Lemma y_many : forall {A} n ks (p : parser A) (Q : A -> Prop), yields p Q -> yields (many n ks p) (Forall Q).
Proof.
  induction n as [|n IH]; intros ks p Q H; cbn; [apply y_none|]. eapply y_bind; [apply y_any|]. intros [|] _; [apply y_ret; constructor|].
  eapply y_bind; [exact H|]. intros x X. eapply y_bind; [apply IH; exact H|]. intros l L. apply y_ret. constructor; auto.
Qed.

Definition opt_shaped (o : option node) : Prop := match o with Some m => shaped m | None => True end.
Lemma shape_of : forall n, fits n = true -> opt_shaped (n_left n) -> opt_shaped (n_right n) -> Forall shaped (n_stmts n) -> Forall shaped (n_params n) -> shaped n.
Proof.
  intros n F L R S P. apply shape; [exact F|]. intros s m I. apply kids_children in I; [|exact F]. rewrite Forall_forall in S, P.
  destruct I as [m E|m E|i m E|i m E _ _].
  - rewrite E in L. exact L.
  - rewrite E in R. exact R.
  - apply S. eapply nth_error_In; eauto.
  - apply P. eapply nth_error_In; eauto.
Qed.
Ltac shp := apply shape_of; cbn [fits n_left n_right n_stmts n_params leaf opt_shaped none some nil andb fst]; repeat first [assumption | exact I | reflexivity | apply Forall_nil | apply Forall_cons | apply shape_of].
Ltac skip := eapply y_bind; [apply y_any|intros ? _].

Lemma y_types : forall n, yields (parse_type n) shaped -> yields (type_list n (parse_type n)) (fun x => Forall shaped (fst x)).
Proof. intros n IH. unfold type_list. skip. eapply y_bind; [apply y_until; exact IH|]. intros l L. apply y_ret. exact L. Qed.
Lemma y_opt : forall (b : bool) p, yields p shaped -> yields (if b then x <- p ;; ret (Some x) else ret None) opt_shaped.
Proof. intros [|] p H; [eapply y_bind; [exact H|]; intros x X; apply y_ret; exact X|apply y_ret; exact I]. Qed.
Lemma y_type : forall n, yields (parse_type n) shaped.
Proof.
  induction n as [|n IH]; cbn [parse_type]; [apply y_none|]. skip. destruct a.
  all: lazymatch goal with
  | |- yields (bind next (fun _ => bind (need KLParen) _)) _ =>
      skip; skip; eapply y_bind; [apply y_until; exact IH|]; intros l L; skip;
      eapply y_bind; [apply y_opt; exact IH|]; intros r R; apply y_ret; shp
  | |- yields (bind next (fun _ => bind (need KRBrack) _)) _ => skip; skip; eapply y_bind; [exact IH|]; intros x X; apply y_ret; shp
  | |- yields (bind next (fun _ => bind (is _) _)) _ =>
      skip; eapply y_bind; [apply y_any|]; intros b _; eapply y_bind with (P := opt_shaped);
      [destruct b; [eapply y_bind; [apply y_types; exact IH|]; intros x X; apply y_ret; shp|apply y_ret; exact I]
      |intros r R; apply y_ret; shp]
  | |- _ => skip; skip; apply y_ret; shp
  end.
Qed.
Lemma y_parameter : forall n, yields (parse_parameter n) shaped.
Proof. intros n. unfold parse_parameter. skip. skip. eapply y_bind; [apply y_type|]. intros x X. apply y_ret. shp. Qed.
Lemma y_paren : forall n p, yields p shaped -> yields (paren_list n p) (Forall shaped).
Proof. intros n p H. unfold paren_list. skip. apply y_until. exact H. Qed.
Lemma y_ids : forall n, yields (parse_identifiers n) (Forall shaped).
Proof. intros n. apply y_paren. skip. apply y_ret. shp. Qed.
Lemma y_type_params : forall n, yields (type_params n) (Forall shaped).
Proof.
  intros n. unfold type_params. skip. destruct a; [|apply y_ret; constructor]. eapply y_bind; [apply y_types, y_type|]. intros x X. apply y_ret. exact X.
Qed.

Definition all_yield (n : nat) : Prop :=
  (forall prec, yields (parse_expr n prec) shaped) /\
  (forall prec left, shaped left -> yields (infix_loop n prec left) shaped) /\
  (forall left t, shaped left -> yields (parse_infix n left t) shaped) /\
  (forall attrs id anon, yields (parse_fn n attrs id anon) shaped) /\
  yields (parse_block n) (Forall shaped) /\
  yields (parse_statement n) shaped /\
  yields (parse_else n) opt_shaped /\
  yields (parse_case n) shaped.
Lemma y_call : forall n p left t types, yields p shaped -> shaped left -> Forall shaped types -> yields (parse_call n p left t types) shaped.
Proof. intros n p left t types H L T. unfold parse_call. eapply y_bind; [apply y_until; exact H|]. intros l F. apply y_ret. shp. Qed.
Ltac sub H := eapply y_bind; [apply H; auto|let x := fresh "x" in let X := fresh "X" in intros x X].
Lemma yield_all : forall n, all_yield n.
Proof.
  induction n as [|n (E & LP & IX & FN & BL & ST & EL & CA)]; [refine (conj _ (conj _ (conj _ (conj _ (conj _ (conj _ (conj _ _))))))); intros; apply y_none|]. refine (conj _ (conj _ (conj _ (conj _ (conj _ (conj _ (conj _ _))))))).
  - intros prec. cbn [parse_expr]. skip.
    assert (K : forall p, yields p shaped -> yields (left <- p ;; infix_loop n prec left) shaped).
    { intros p H. eapply y_bind; [exact H|]. intros x X. apply LP. exact X. }
    destruct (tk_kind a) eqn:Q; try (skip; skip; apply y_ret; shp); apply K; try (apply y_ret; shp).
    all: try (apply FN).
    all: try (sub E; apply y_ret; shp; fail).
    all: try (sub E; skip; apply y_ret; exact X).
    all: try (skip; eapply y_bind; [apply y_type|intros x X]; skip; apply y_ret; exact X).
    all: try (eapply y_bind; [apply y_until, E|intros x X]; apply y_ret; shp).
  - intros prec left L. cbn [infix_loop]. skip. destruct (negb _); [apply y_ret; exact L|]. skip. eapply y_bind; [apply IX; exact L|]. intros x X. apply LP. exact X.
  - intros left t L. cbn [parse_infix].
    destruct (tk_kind t); cbn [is_binary]; try apply y_crash; try (sub E; apply y_ret; shp; fail).
    all: try (apply y_call; [apply E|exact L|constructor]).
    all: try (sub E; skip; apply y_ret; shp; fail).
    all: try (sub E; skip; sub E; apply y_ret; shp; fail).
    all: try (eapply y_bind; [apply y_until, y_type|]; intros ts T; skip; apply y_call; [apply E|exact L|exact T]).
  - intros attrs id anon. cbn [parse_fn]. skip. skip. eapply y_bind with (P := opt_shaped).
    { destruct (kind_eqb _ _); [|apply y_ret; exact I]. eapply y_bind; [apply y_types, y_type|]. intros x X. apply y_ret. shp. }
    intros tl TL. eapply y_bind; [apply y_paren, y_parameter|]. intros ps PS. skip. eapply y_bind; [apply y_opt, y_type|]. intros r R. skip.
    destruct a2; lazymatch goal with
    | |- yields (if _ then _ else _) _ => destruct anon; [skip; skip; apply y_ret; shp|apply y_ret; shp]
    | |- yields (bind (parse_block _) _) _ => sub BL; apply y_ret; shp
    | |- _ => skip; sub E; apply y_ret; shp
    end.
  - cbn [parse_block]. skip. eapply y_bind; [apply y_many, ST|]. intros l L. skip. apply y_ret. exact L.
  - cbn [parse_statement]. skip. 
    assert (D : forall b : bool, yields (if b then e <- parse_expr n 0 ;; k1 <- cur_kind ;;
        match k1 with
        | KAs => t <- need KAs ;; r <- parse_expr n 0 ;; ret (Node no_attrs OpAs t (Some e) (Some r) [] [])
        | KDas => t <- need KDas ;; r <- parse_expr n 0 ;; ret (Node no_attrs OpDas t (Some e) (Some r) [] [])
        | _ => ret e
        end else syntax_error XStatement ;; t <- next ;; ret (leaf OpError t)) shaped).
    { intros [|]; [|skip; skip; apply y_ret; shp]. sub E. skip. destruct a0; try (apply y_ret; exact X). all: skip; sub E; apply y_ret; shp. }
    destruct a; try (apply D).
    all: lazymatch goal with
    | |- yields (bind (need KReturn) _) _ => skip; skip; eapply y_bind; [apply y_opt, E|]; intros r R; apply y_ret; shp
    | |- yields (bind (need KWhile) _) _ => skip; sub E; sub BL; apply y_ret; shp
    | |- yields (bind (need KFor) _) _ => skip; skip; skip; sub E; eapply y_bind; [apply y_any|intros b _];
        eapply y_bind with (P := shaped); [destruct b; [skip; sub E; apply y_ret; shp|apply y_ret; exact X]|]; intros r R; sub BL; apply y_ret; shp
    | |- yields (bind (need KIf) _) _ => skip; sub E; sub BL; sub EL; apply y_ret; shp
    | |- yields (bind (need KMatch) _) _ => skip; sub E; skip; eapply y_bind; [apply y_many, CA|]; intros l L; skip; apply y_ret; shp
    end.
  - cbn [parse_else]. eapply y_bind; [apply y_any|intros b _]. destruct b.
    + skip. sub E. sub BL. sub EL. apply y_ret. cbn. shp.
    + eapply y_bind; [apply y_any|intros b _]. destruct b; [|apply y_ret; exact I]. skip. sub BL. apply y_ret. cbn. shp.
  - cbn [parse_case]. skip. skip. eapply y_bind; [apply y_ids|]. intros ps PS. skip. eapply y_bind; [apply y_many, ST|]. intros l L. apply y_ret. shp.
Qed.

Section Names.
Variable attr_name : list Z -> option bool.
Lemma y_decl : forall n, yields (parse_decl attr_name n) opt_shaped.
Proof.
  intros n. unfold parse_decl. skip. skip. destruct (yield_all n) as (_ & _ & _ & FN & _).
  destruct a0; try (skip; skip; apply y_ret; exact I).
  all: lazymatch goal with
  | |- yields (bind (need KFn) _) _ => skip; sub FN; apply y_ret; exact X
  | |- yields (bind (parse_struct _ _) _) _ => eapply y_bind with (P := shaped); [|intros x X; apply y_ret; exact X];
      unfold parse_struct; skip; skip; eapply y_bind; [apply y_type_params|]; intros ts T; skip; eapply y_bind; [apply y_many, y_parameter|];
      intros l L; skip; apply y_ret; shp
  | |- yields (bind (parse_enum _ _) _) _ => eapply y_bind with (P := shaped); [|intros x X; apply y_ret; exact X];
      unfold parse_enum; skip; eapply y_bind; [apply y_any|intros id _]; eapply y_bind; [apply y_type_params|]; intros ts T; skip;
      eapply y_bind; [apply y_many with (Q := shaped); unfold parse_cons; skip; eapply y_bind; [apply y_paren, y_parameter|]; intros ps PS; apply y_ret; shp|];
      intros l L; skip; apply y_ret; shp
  end.
Qed.
Lemma parse_shaped : forall m n roots s res es, Forall shaped roots -> parse_loop attr_name m n roots s = Some (res, es) -> Forall shaped res.
Proof.
  induction m as [|m IH]; intros n roots s res es F E; cbn in E; [discriminate|].
  destruct (is [KEOF] s) as [[|] s1| | |]; try discriminate.
  - destruct (need KEOF s1); try discriminate; injection E as <- _; exact F.
  - destruct (parse_decl attr_name n s1) as [[x|] s2| | |] eqn:D; try discriminate.
    + eapply IH; [|exact E]. apply Forall_app; split; [exact F|]. constructor; [|constructor]. exact (y_decl n _ _ _ D).
    + eapply IH; [exact F|exact E].
    + injection E as <- _; exact F.
Qed.
End Names.
