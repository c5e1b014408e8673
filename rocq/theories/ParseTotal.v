(** The parser ends, and looks at no token outside the sequence. *)
From Coq Require Import ZArith List Bool Arith Lia.
From Verif Require Import LexModel ParseModel.
Import ListNotations.
Open Scope nat_scope.

Definition wp {A} (f st cr : Prop) (r : result A) (Q : A -> state -> Prop) : Prop :=
  match r with Ok a s => Q a s | Stop _ => st | Crash => cr | NoFuel => f end.
Lemma wp_bind {A B} f st cr (p : parser A) (q : A -> parser B) s Q :
  wp f st cr (p s) (fun a s1 => wp f st cr (q a s1) Q) -> wp f st cr (bind p q s) Q.
Proof. unfold bind. destruct (p s); cbn; auto. Qed.
Lemma wp_mono {A} f st cr (r : result A) (Q Q' : A -> state -> Prop) : (forall a s, Q a s -> Q' a s) -> wp f st cr r Q -> wp f st cr r Q'.
Proof. destruct r; cbn; auto. Qed.

Lemma kind_eqb_eq a b : kind_eqb a b = true <-> a = b.
Proof. unfold kind_eqb. destruct (kind_eq_dec a b); split; congruence. Qed.
Lemma kind_eqb_refl a : kind_eqb a a = true.
Proof. now apply kind_eqb_eq. Qed.

(* --------------------------------------------------------------------------- totality *)

Definition live (s : state) : Prop := rest s <> [].
Definition len (s : state) : nat := List.length (rest s).
(** [p] ends with at most [L - d] tokens left. *)
Definition T {A} (d L : nat) (p : parser A) (s : state) : Prop :=
  wp False True False (p s) (fun _ s1 => live s1 /\ len s1 + d <= L).
Lemma T_bind {A B} d1 d L (p : parser A) (q : A -> parser B) s : T d1 (len s) p s ->
  (forall a s1, live s1 -> len s1 + d1 <= len s -> T d L (q a) s1) -> T d L (bind p q) s.
Proof. intros H K. unfold T in *. apply wp_bind. revert H. apply wp_mono. intros a s1 [H1 H2]. now apply K. Qed.
Lemma T_weaken {A} d L d' L' (p : parser A) s : T d L p s -> d' + L <= d + L' -> T d' L' p s.
Proof. intros H K. revert H. apply wp_mono. intros a s1 [H1 H2]. split; [exact H1|lia]. Qed.
Lemma T_ret {A} d L (a : A) s : live s -> len s + d <= L -> T d L (ret a) s.
Proof. intros H K. split; assumption. Qed.
Lemma T_if {A} (b : bool) d L (p q : parser A) s : (b = true -> T d L p s) -> (b = false -> T d L q s) -> T d L (if b then p else q) s.
Proof. destruct b; auto. Qed.

Lemma T_kind s : live s -> T 0 (len s) cur_kind s.
Proof. unfold live, T, cur_kind. destruct s as [[|t r] es d]; cbn; [congruence|]. intros _. split; [discriminate|lia]. Qed.
Lemma T_is ks s : live s -> T 0 (len s) (is ks) s.
Proof. intros H. eapply T_bind; [now apply T_kind|]. intros k s1 H1 L. apply T_ret; [exact H1|lia]. Qed.
Lemma T_next s : T 1 (len s) next s.
Proof. unfold T, next, live, len. destruct s as [[|t [|t1 r]] es d]; cbn; try exact I. split; [discriminate|lia]. Qed.
Lemma T_error x s : live s -> T 0 (len s) (syntax_error x) s.
Proof.
  unfold T, syntax_error, live, len. destruct s as [[|t r] es []]; cbn; try congruence; intros _; (split; [discriminate|lia]).
Qed.
Lemma T_need k s : live s -> T 1 (len s) (need k) s.
Proof.
  unfold T, need, live, len. destruct s as [ts es d]. cbn. intros H. revert es d.
  induction ts as [|t r IH]; intros es d; [congruence|]. cbn. destruct (kind_eqb (tk_kind t) k).
  - destruct r; cbn; [exact I|]. split; [discriminate|lia].
  - destruct r as [|t1 r]; cbn; [exact I|]. specialize (IH ltac:(discriminate)).
    specialize (IH (if d then es else (t, XKind k) :: es) true).
    revert IH. apply wp_mono. intros a s1 [A B]. cbn in B. split; [exact A|lia].
Qed.
Lemma T_matches k s : live s -> T 0 (len s) (matches k) s.
Proof.
  intros H. eapply T_bind; [now apply T_is|]. intros b s1 H1 L. destruct b; [|apply T_ret; [exact H1|lia]].
  eapply T_bind; [apply T_next|]. intros t s2 H2 L2. split; [exact H2|]. unfold len in *. cbn. lia.
Qed.
Lemma T_comma {A} (p : parser A) : forall n s, live s -> len s <= n -> (forall s1, live s1 -> len s1 <= len s -> T 1 (len s1) p s1) ->
  T 1 (len s) (comma_sep n p) s.
Proof.
  induction n as [|n IH]; intros s H L K; [unfold live, len in *; destruct (rest s); [congruence|cbn in L; lia]|]. cbn [comma_sep].
  eapply T_bind; [apply K; auto|]. intros a s1 H1 L1. eapply T_bind; [now apply T_matches|]. intros b s2 H2 L2. destruct b.
  - eapply T_bind; [apply IH; [exact H2|lia|intros s3 H3 L3; apply K; [exact H3|lia]]|]. intros l s3 H3 L3. apply T_ret; [exact H3|lia].
  - apply T_ret; [exact H2|lia].
Qed.
Lemma T_list {A} (p : parser A) n k s : live s -> len s <= n -> (forall s1, live s1 -> len s1 <= len s -> T 1 (len s1) p s1) ->
  T 1 (len s) (list_until n k p) s.
Proof.
  intros H L K. eapply T_bind; [now apply T_is|]. intros b s1 H1 L1. eapply (T_bind 0).
  - destruct b; [apply T_ret; [exact H1|lia]|]. eapply T_weaken; [apply T_comma; [exact H1|lia|intros s2 H2 L2; apply K; [exact H2|lia]]|lia].
  - intros l s2 H2 L2. eapply T_bind; [now apply T_need|]. intros t s3 H3 L3. apply T_ret; [exact H3|lia].
Qed.
Lemma T_many {A} (p : parser A) ks : forall n s, live s -> len s < n -> (forall s1, live s1 -> len s1 <= len s -> T 1 (len s1) p s1) ->
  T 0 (len s) (many n ks p) s.
Proof.
  induction n as [|n IH]; intros s H L K; [lia|]. cbn [many]. eapply T_bind; [now apply T_is|]. intros b s1 H1 L1.
  destruct b; [apply T_ret; [exact H1|lia]|]. eapply T_bind; [apply K; [exact H1|lia]|]. intros a s2 H2 L2.
  eapply T_bind; [apply IH; [exact H2|lia|intros s3 H3 L3; apply K; [exact H3|lia]]|]. intros l s3 H3 L3. apply T_ret; [exact H3|lia].
Qed.

(** Through a function step by step; [base] handles the calls. *)
Ltac steps_with base := repeat (cbv beta zeta; cbn [fst snd]; lazymatch goal with
  | |- T _ _ (bind _ _) _ => first [eapply T_bind; [base tt|intros ? ? ? ?] | eapply (T_bind 0); [|intros ? ? ? ?]]
  | |- T _ _ (ret _) _ => apply T_ret; [assumption|lia]
  | |- T _ _ (if ?b then _ else _) _ => apply T_if; intros ?
  | |- T _ _ (match ?b with _ => _ end) _ => destruct b
  | |- T _ _ _ _ => eapply T_weaken; [base tt|lia]
  end).
Ltac prim := first [apply T_next | apply T_kind; assumption | apply T_is; assumption | apply T_need; assumption
  | apply T_error; assumption | apply T_matches; assumption].

Lemma T_tl n pt s : live s -> len s <= n -> (forall s1, live s1 -> len s1 <= len s -> T 1 (len s1) pt s1) -> T 1 (len s) (type_list n pt) s.
Proof.
  intros H L K. unfold type_list. eapply T_bind; [now apply T_need|]. intros t s1 H1 L1.
  eapply T_bind; [apply T_list; [exact H1|lia|intros s2 H2 L2; apply K; [exact H2|lia]]|]. intros l s2 H2 L2. apply T_ret; [exact H2|lia].
Qed.
Lemma T_type : forall n s, live s -> 4 * len s + 1 <= n -> T 1 (len s) (parse_type n) s.
Proof.
  induction n as [|n IH]; intros s H L; [lia|]. cbn [parse_type].
  Ltac type_base IH := first [prim | apply IH; [assumption|lia]
    | apply T_list; [assumption|lia|intros; apply IH; [assumption|lia]]
    | apply T_tl; [assumption|lia|intros; apply IH; [assumption|lia]]].
  steps_with ltac:(fun _ => type_base IH).
Qed.
Ltac base_type := first [prim | apply T_type; [assumption|lia] | apply T_list; [assumption|lia|intros; apply T_type; [assumption|lia]]].
Lemma T_type_list n s : live s -> 4 * len s + 1 <= n -> T 1 (len s) (type_list n (parse_type n)) s.
Proof. intros H L. apply T_tl; [assumption|lia|]. intros. apply T_type; [assumption|lia]. Qed.
Lemma T_param n s : live s -> 4 * len s + 1 <= n -> T 1 (len s) (parse_parameter n) s.
Proof. intros H L. unfold parse_parameter. steps_with ltac:(fun _ => base_type). Qed.
Lemma T_params n s : live s -> 4 * len s + 1 <= n -> T 2 (len s) (parse_parameters n) s.
Proof.
  intros H L. unfold parse_parameters, paren_list. eapply T_bind; [apply T_need; assumption|]. intros t s1 H1 L1.
  eapply T_weaken; [apply T_list; [assumption|lia|intros; apply T_param; [assumption|lia]]|lia].
Qed.
Lemma T_ids n s : live s -> len s <= n -> T 2 (len s) (parse_identifiers n) s.
Proof.
  intros H L. unfold parse_identifiers, paren_list. eapply T_bind; [apply T_need; assumption|]. intros t s1 H1 L1.
  eapply T_weaken; [apply T_list; [assumption|lia|]|lia]. intros s2 H2 L2. steps_with ltac:(fun _ => prim).
Qed.
Lemma T_tparams n s : live s -> 4 * len s + 1 <= n -> T 0 (len s) (type_params n) s.
Proof. intros H L. unfold type_params. steps_with ltac:(fun _ => first [prim | apply T_type_list; [assumption|lia]]). Qed.
Lemma T_call n pe left t types s : live s -> len s <= n -> (forall s1, live s1 -> len s1 <= len s -> T 1 (len s1) pe s1) ->
  T 1 (len s) (parse_call n pe left t types) s.
Proof. intros H L K. unfold parse_call. eapply T_bind; [apply T_list; assumption|]. intros l s1 H1 L1. apply T_ret; [exact H1|lia]. Qed.

(** Everything that depends on expressions. *)
Definition fine (n : nat) : Prop :=
  (forall p s, live s -> 4 * len s + 1 <= n -> T 1 (len s) (parse_expr n p) s) /\
  (forall p l s, live s -> 4 * len s + 1 <= n -> T 0 (len s) (infix_loop n p l) s) /\
  (forall l t s, is_infix (tk_kind t) = true -> live s -> 4 * len s + 2 <= n -> T 1 (len s) (parse_infix n l t) s) /\
  (forall at_ id an s, live s -> 4 * len s + 2 <= n -> T 1 (len s) (parse_fn n at_ id an) s) /\
  (forall s, live s -> 4 * len s + 1 <= n -> T 1 (len s) (parse_block n) s) /\
  (forall s, live s -> 4 * len s + 2 <= n -> T 1 (len s) (parse_statement n) s) /\
  (forall s, live s -> 4 * len s + 1 <= n -> T 0 (len s) (parse_else n) s) /\
  (forall s, live s -> 4 * len s + 1 <= n -> T 1 (len s) (parse_case n) s).
Lemma all_fine n : fine n.
Proof.
  induction n as [|n (Ie & Il & Ii & If & Ib & Is & Iel & Ic)].
  { repeat split; intros; lia. }
  Ltac base Ie Il Ii If Ib Is Iel Ic := first [prim
    | apply T_type; [assumption|lia] | apply T_type_list; [assumption|lia] | apply T_params; [assumption|lia] | apply T_ids; [assumption|lia]
    | apply Ie; [assumption|lia] | apply Il; [assumption|lia] | apply If; [assumption|lia] | apply Ib; [assumption|lia]
    | apply Is; [assumption|lia] | apply Iel; [assumption|lia] | apply Ic; [assumption|lia]
    | apply T_list; [assumption|lia|intros; first [apply Ie; [assumption|lia] | apply T_type; [assumption|lia]]]
    | apply T_call; [assumption|lia|intros; apply Ie; [assumption|lia]]
    | apply T_many; [assumption|lia|intros; first [apply Is; [assumption|lia] | apply Ic; [assumption|lia]]]].
  split; [|split; [|split; [|split; [|split; [|split; [|split]]]]]].
  - intros p s H L. cbn [parse_expr]. eapply T_bind; [apply T_next|]. intros t s1 H1 L1.
    destruct (tk_kind t); steps_with ltac:(fun _ => base Ie Il Ii If Ib Is Iel Ic).
  - intros p l s H L. cbn [infix_loop]. unfold bind at 1, cur_kind. destruct s as [[|t r] es d]; [now destruct H|]. cbn [rest].
    set (s := State (t :: r) es d) in *.
    assert (K : forall s0, s0 = s -> T 0 (len s0) (if negb (p <? next_precedence (tk_kind t)) then ret l else
      t0 <- next ;; left1 <- parse_infix n l t0 ;; infix_loop n p left1) s0); [|exact (K s eq_refl)].
    intros s0 E0. apply T_if; intros B; [apply T_ret; [now subst|lia]|]. rewrite E0 in *. clear E0 s0.
    apply negb_false_iff, Nat.ltb_lt in B. unfold next_precedence in B. destruct (is_infix (tk_kind t)) eqn:Hi; [|lia].
    assert (N : T 1 (len s) (fun s => match next s with Ok t1 s1 => if kind_eqb (tk_kind t1) (tk_kind t) then Ok t1 s1 else Crash | x => x end) s).
    { unfold T, s, next. cbn. destruct r; cbn; [exact I|]. rewrite kind_eqb_refl. cbn. split; [discriminate|unfold len; cbn; lia]. }
    unfold T. apply wp_bind. revert N. unfold T. destruct (next s) as [t1 s1| | |]; cbn; try tauto.
    destruct (kind_eqb (tk_kind t1) (tk_kind t)) eqn:E; [|cbn; tauto]. cbn. intros [H1 L1]. apply kind_eqb_eq in E. rewrite <- E in Hi.
    change (len s1 + 1 <= len s) in L1.
    change (T 0 (len s) (left1 <- parse_infix n l t1 ;; infix_loop n p left1) s1). clearbody s.
    eapply T_bind; [apply Ii; [exact Hi|exact H1|lia]|]. intros x s2 H2 L2. eapply T_weaken; [apply Il; [exact H2|lia]|lia].
  - intros l t s Hi H L. cbn [parse_infix]. destruct (tk_kind t); try discriminate Hi;
      cbn [is_binary]; steps_with ltac:(fun _ => base Ie Il Ii If Ib Is Iel Ic).
  - intros a0 id an s H L. cbn [parse_fn]. steps_with ltac:(fun _ => base Ie Il Ii If Ib Is Iel Ic).
  - intros s H L. cbn [parse_block]. steps_with ltac:(fun _ => base Ie Il Ii If Ib Is Iel Ic).
  - intros s H L. cbn [parse_statement]. steps_with ltac:(fun _ => base Ie Il Ii If Ib Is Iel Ic).
  - intros s H L. cbn [parse_else]. steps_with ltac:(fun _ => base Ie Il Ii If Ib Is Iel Ic).
  - intros s H L. cbn [parse_case]. steps_with ltac:(fun _ => base Ie Il Ii If Ib Is Iel Ic).
Qed.

Section Names.
Variable attr_name : list Z -> option bool.
Lemma T_attributes n s : live s -> len s <= n -> T 0 (len s) (parse_attributes attr_name n) s.
Proof.
  intros H L. unfold parse_attributes.
  steps_with ltac:(fun _ => first [prim | apply T_comma; [assumption|lia|intros; apply T_need; assumption]]).
Qed.
Lemma T_enum n a s : live s -> 4 * len s + 1 <= n -> T 1 (len s) (parse_enum n a) s.
Proof.
  intros H L. unfold parse_enum. steps_with ltac:(fun _ => first [prim | apply T_tparams; [assumption|lia]
    | apply T_many; [assumption|lia|intros; unfold parse_cons; steps_with ltac:(fun _ => first [prim | apply T_params; [assumption|lia]])]]).
Qed.
Lemma T_struct n a s : live s -> 4 * len s + 1 <= n -> T 1 (len s) (parse_struct n a) s.
Proof.
  intros H L. unfold parse_struct. steps_with ltac:(fun _ => first [prim | apply T_tparams; [assumption|lia]
    | apply T_many; [assumption|lia|intros; apply T_param; [assumption|lia]]]).
Qed.
Lemma T_decl n s : live s -> 4 * len s + 1 <= n -> T 1 (len s) (parse_decl attr_name n) s.
Proof.
  intros H L. unfold parse_decl. destruct (all_fine n) as (_ & _ & _ & Hf & _).
  steps_with ltac:(fun _ => first [prim | apply T_attributes; [assumption|lia] | apply Hf; [assumption|lia]
    | apply T_struct; [assumption|lia] | apply T_enum; [assumption|lia]]).
Qed.
Lemma T_loop : forall n fuel root s, live s -> len s <= n -> 4 * len s + 1 <= fuel -> parse_loop attr_name n fuel root s <> None.
Proof.
  induction n as [|n IH]; intros fuel root s H L F; [unfold live, len in *; destruct (rest s); [congruence|cbn in L; lia]|].
  cbn [parse_loop]. destruct s as [[|t r] es d]; [now destruct H|]. unfold is at 1, bind, cur_kind, ret. cbn [rest].
  set (s := State (t :: r) es d) in *. clearbody s. destruct (existsb (kind_eqb (tk_kind t)) [KEOF]).
  - pose proof (T_need KEOF s H) as K. unfold T in K. destruct (need KEOF s); try contradiction; discriminate.
  - pose proof (T_decl fuel s H ltac:(lia)) as K. unfold T in K.
    destruct (parse_decl attr_name fuel s) as [[x|] s2| | |]; try contradiction; try discriminate; destruct K as [H2 L2]; (apply IH; [exact H2|lia|lia]).
Qed.
End Names.

(* ------------------------------------------------------------- more fuel is no different *)

Definition le_res {A} (x y : result A) : Prop := x = NoFuel \/ x = y.
Definition le_parser {A} (p q : parser A) : Prop := forall s, le_res (p s) (q s).
Lemma le_refl {A} (p : parser A) : le_parser p p.
Proof. intros s. now right. Qed.
Lemma le_fuel {A} (p : parser A) : le_parser no_fuel p.
Proof. intros s. now left. Qed.
Lemma le_bind {A B} (p p' : parser A) (q q' : A -> parser B) : le_parser p p' -> (forall a, le_parser (q a) (q' a)) ->
  le_parser (bind p q) (bind p' q').
Proof.
  intros H K s. unfold bind. destruct (H s) as [E|E]; rewrite E; [now left|]. destruct (p' s) as [a s1| | |]; try (now right). apply K.
Qed.
Lemma le_comma {A} n m (p q : parser A) : n <= m -> le_parser p q -> le_parser (comma_sep n p) (comma_sep m q).
Proof.
  revert m. induction n as [|n IH]; intros m L H; [apply le_fuel|]. destruct m as [|m]; [lia|]. cbn. apply le_bind; [exact H|]. intros x.
  apply le_bind; [apply le_refl|]. intros []; [|apply le_refl]. apply le_bind; [apply IH; [lia|exact H]|]. intros; apply le_refl.
Qed.
Lemma le_many {A} n m ks (p q : parser A) : n <= m -> le_parser p q -> le_parser (many n ks p) (many m ks q).
Proof.
  revert m. induction n as [|n IH]; intros m L H; [apply le_fuel|]. destruct m as [|m]; [lia|]. cbn. apply le_bind; [apply le_refl|].
  intros []; [apply le_refl|]. apply le_bind; [exact H|]. intros x. apply le_bind; [apply IH; [lia|exact H]|]. intros; apply le_refl.
Qed.
Lemma le_list {A} n m k (p q : parser A) : n <= m -> le_parser p q -> le_parser (list_until n k p) (list_until m k q).
Proof.
  intros L H. unfold list_until. apply le_bind; [apply le_refl|]. intros []; (apply le_bind; [|intros; apply le_refl]); [apply le_refl|now apply le_comma].
Qed.
Ltac le_steps base := repeat (cbv beta zeta; lazymatch goal with
  | |- le_parser (bind _ _) (bind _ _) => apply le_bind; [|intros ?]
  | |- le_parser (list_until _ _ _) _ => apply le_list; [lia|]
  | |- le_parser (comma_sep _ _) _ => apply le_comma; [lia|]
  | |- le_parser (many _ _ _) _ => apply le_many; [lia|]
  | |- _ => first [apply le_refl | base tt | match goal with |- le_parser (match ?b with _ => _ end) _ => destruct b end]
  end).
Lemma le_type n m : n <= m -> le_parser (parse_type n) (parse_type m).
Proof.
  revert m. induction n as [|n IH]; intros m L; [apply le_fuel|]. destruct m as [|m]; [lia|]. cbn [parse_type]. unfold type_list.
  le_steps ltac:(fun _ => apply IH; lia).
Qed.
Definition more (n m : nat) : Prop :=
  (forall p, le_parser (parse_expr n p) (parse_expr m p)) /\
  (forall p l, le_parser (infix_loop n p l) (infix_loop m p l)) /\
  (forall l t, le_parser (parse_infix n l t) (parse_infix m l t)) /\
  (forall at_ id an, le_parser (parse_fn n at_ id an) (parse_fn m at_ id an)) /\
  (le_parser (parse_block n) (parse_block m)) /\
  (le_parser (parse_statement n) (parse_statement m)) /\
  (le_parser (parse_else n) (parse_else m)) /\
  (le_parser (parse_case n) (parse_case m)).
Lemma all_more n : forall m, n <= m -> more n m.
Proof.
  induction n as [|n IH]; intros m L; [repeat split; intros; apply le_fuel|]. destruct m as [|m]; [lia|].
  destruct (IH m ltac:(lia)) as (Ie & Il & Ii & If & Ib & Is & Iel & Ic). clear IH.
  Ltac mbase Ie Il Ii If Ib Is Iel Ic := first [apply Ie | apply Il | apply Ii | apply If | apply Ib | apply Is | apply Iel | apply Ic | apply le_type; lia].
  split; [|split; [|split; [|split; [|split; [|split; [|split]]]]]].
  - intros p. cbn [parse_expr]. apply le_bind; [apply le_refl|]. intros t. destruct (tk_kind t); le_steps ltac:(fun _ => mbase Ie Il Ii If Ib Is Iel Ic).
  - intros p l. cbn [infix_loop]. le_steps ltac:(fun _ => mbase Ie Il Ii If Ib Is Iel Ic).
  - intros l t. cbn [parse_infix]. unfold parse_call. le_steps ltac:(fun _ => mbase Ie Il Ii If Ib Is Iel Ic).
  - intros a0 id an. cbn [parse_fn]. unfold parse_parameters, paren_list, parse_parameter, type_list. le_steps ltac:(fun _ => mbase Ie Il Ii If Ib Is Iel Ic).
  - cbn [parse_block]. le_steps ltac:(fun _ => mbase Ie Il Ii If Ib Is Iel Ic).
  - cbn [parse_statement]. le_steps ltac:(fun _ => mbase Ie Il Ii If Ib Is Iel Ic).
  - cbn [parse_else]. le_steps ltac:(fun _ => mbase Ie Il Ii If Ib Is Iel Ic).
  - cbn [parse_case]. unfold parse_identifiers, paren_list. le_steps ltac:(fun _ => mbase Ie Il Ii If Ib Is Iel Ic).
Qed.
Section Names2.
Variable attr_name : list Z -> option bool.
Lemma more_decl n m : n <= m -> le_parser (parse_decl attr_name n) (parse_decl attr_name m).
Proof.
  intros L. destruct (all_more n m L) as (_ & _ & _ & If & _). unfold parse_decl, parse_attributes, parse_struct, parse_enum, parse_cons, type_params,
    parse_parameters, paren_list, parse_parameter, type_list. le_steps ltac:(fun _ => first [apply If | apply le_type; lia]).
Qed.
Lemma more_loop n m fuel fuel' : n <= m -> fuel <= fuel' -> forall root s r, parse_loop attr_name n fuel root s = Some r -> parse_loop attr_name m fuel' root s = Some r.
Proof.
  revert m. induction n as [|n IH]; intros m L F root s r H; [discriminate|]. destruct m as [|m]; [lia|]. cbn [parse_loop] in *.
  destruct (is [KEOF] s) as [[] s1| | |]; try discriminate; [exact H|]. destruct (more_decl fuel fuel' F s1) as [E|E]; rewrite E in H; [discriminate|].
  destruct (parse_decl attr_name fuel' s1) as [[x|] s2| | |]; try discriminate; try exact H; apply IH; try lia; exact H.
Qed.
(** The parser's result: the same for all fuel from some amount on. *)
Lemma parse_total ts root : ts <> [] -> exists r, forall fuel, 4 * List.length ts + 1 <= fuel -> parse attr_name fuel ts root = Some r.
Proof.
  intros H. set (n := 4 * List.length ts + 1). pose proof (T_loop attr_name n n root (State ts [] false) H) as K.
  unfold len in K. cbn [rest] in K. specialize (K ltac:(lia) ltac:(lia)).
  destruct (parse_loop attr_name n n root (State ts [] false)) as [r|] eqn:E; [|congruence]. exists r. intros fuel L. eapply more_loop; [exact L|exact L|exact E].
Qed.
End Names2.
