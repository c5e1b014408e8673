(** The pass with foldConstants: proofs for C56. *)
From Coq Require Import ZArith List Bool Arith Lia FinFun.
From Verif Require Import LexModel ParseModel LitModel WalkModel WalkSpec WalkProofs.
Import ListNotations.
Open Scope nat_scope.

Lemma Forall2_impl : forall {A B} (P Q : A -> B -> Prop) l m, (forall a b, P a b -> Q a b) -> Forall2 P l m -> Forall2 Q l m.
Proof. intros A B P Q l m H F; induction F; constructor; auto. Qed.
Definition must (m : option node) : option (option node * list (list Z)) := match m with Some m => cat2 Some (fold_walk m) | None => None end.
Definition maybe (m : option node) : option (option node * list (list Z)) := match m with Some m => cat2 Some (fold_walk m) | None => Some (None, []) end.
Definition body (a : attributes) (o : op) (t : token) (l r : option node) (ss ps : list node) : option (node * list (list Z)) :=
    match fold_neg (Node a o t l r ss ps) with
    | None => None
    | Some n1 =>
      if is_lit n1 then Some (n1, overflow n1) else
      match o with
      | OpBlockFn | OpExprFn | OpExternFn | OpConsFn | OpFuncType =>
          match maybe r, fold_walk_all ps, fold_walk_all ss, maybe l with
          | Some (r1, e1), Some (ps1, e2), Some (ss1, e3), Some (l1, e4) => Some (Node a o t l1 r1 ss1 ps1, e1 ++ e2 ++ e3 ++ e4)
          | _, _, _, _ => None
          end
      | OpStruct | OpEnum | OpElse => match fold_walk_all ss with Some (ss1, e) => Some (Node a o t l r ss1 ps, e) | None => None end
      | OpTypeList => match fold_walk_all ps with Some (ps1, e) => Some (Node a o t l r ss ps1, e) | None => None end
      | OpFuncCall =>
          match maybe l, fold_walk_all ps, fold_walk_all ss with
          | Some (l1, e1), Some (ps1, e2), Some (ss1, e3) => Some (Node a o t l1 r ss1 ps1, e1 ++ e2 ++ e3)
          | _, _, _ => None
          end
      | OpWhile | OpMatch | OpTernary =>
          match must l, fold_walk_all ss with Some (l1, e1), Some (ss1, e2) => Some (Node a o t l1 r ss1 ps, e1 ++ e2) | _, _ => None end
      | OpCase => match fold_walk_all ps, fold_walk_all ss with Some (ps1, e1), Some (ss1, e2) => Some (Node a o t l r ss1 ps1, e1 ++ e2) | _, _ => None end
      | OpIf | OpElseIf =>
          match must l, fold_walk_all ss, maybe r with
          | Some (l1, e1), Some (ss1, e2), Some (r1, e3) => Some (Node a o t l1 r1 ss1 ps, e1 ++ e2 ++ e3)
          | _, _, _ => None
          end
      | OpFor =>
          match must r, must l, fold_walk_all ss with
          | Some (r1, e1), Some (l1, e2), Some (ss1, e3) => Some (Node a o t l1 r1 ss1 ps, e1 ++ e2 ++ e3)
          | _, _, _ => None
          end
      | OpLit | OpError => Some (Node a o t l r ss ps, [])
      | OpIdentifier | OpReturn | OpNamedType => match maybe l with Some (l1, e) => Some (Node a o t l1 r ss ps, e) | None => None end
      | OpNot | OpNeg | OpBNot | OpArrayType => match must l with Some (l1, e) => Some (Node a o t l1 r ss ps, e) | None => None end
      | OpAs | OpDas | OpAdd | OpSub | OpMul | OpDiv | OpAnd | OpOr | OpBAnd
      | OpBOr | OpBXor | OpEq | OpGt | OpGte | OpLt | OpLte | OpBLeft | OpBRight
      | OpDot | OpArray | OpRange =>
          match must l, must r with Some (l1, e1), Some (r1, e2) => Some (Node a o t l1 r1 ss ps, e1 ++ e2) | _, _ => None end
      | OpArrayLit => match maybe l, fold_walk_all ss with Some (l1, e1), Some (ss1, e2) => Some (Node a o t l1 r ss1 ps, e1 ++ e2) | _, _ => None end
      end
    end.
Lemma fold_eq : forall a o t l r ss ps, fold_walk (Node a o t l r ss ps) = body a o t l r ss ps.
Proof. reflexivity. Qed.

(** What the walk makes of parts. *)
Definition part (k k' : step * node) (e : list (list Z)) : Prop :=
  fst k' = fst k /\ folded (snd k) (snd k') /\ shaped (snd k') /\ reported (reach (snd k')) e.
Inductive parts : list (step * node) -> list (step * node) -> list (list Z) -> Prop :=
| parts_nil : parts [] [] []
| parts_cons k k' e ks ks' es : part k k' e -> parts ks ks' es -> parts (k :: ks) (k' :: ks') (e ++ es).
Lemma parts_app : forall a a' e, parts a a' e -> forall b b' f, parts b b' f -> parts (a ++ b) (a' ++ b') (e ++ f).
Proof. induction 1; intros b b' f P; cbn; auto. rewrite <- app_assoc. constructor; auto. Qed.

Definition good (m : node) : Prop := exists m' e, fold_walk m = Some (m', e) /\ folded m m' /\ shaped m' /\ reported (reach m') e.
Lemma opt_part : forall s l, (forall x m, In (x, m) (opt_kid s l) -> good m) ->
  exists l1 e, maybe l = Some (l1, e) /\ (some l = true -> must l = Some (l1, e) /\ some l1 = true) /\ (none l = true -> l1 = l) /\ 
    opt_rel folded l l1 /\ parts (opt_kid s l) (opt_kid s l1) e.
Proof.
  intros s [m|] H; cbn.
  - destruct (H s m) as (m' & e & E & F & Sh & R); [cbn; auto|]. rewrite E. cbn. exists (Some m'), e. split; auto. split; auto. split; [discriminate|].
    split; [constructor; auto|]. rewrite <- (app_nil_r e). constructor; [|constructor]. exact (conj eq_refl (conj F (conj Sh R))).
  - exists None, []. split; auto. split; [discriminate|]. split; auto. split; constructor.
Qed.
Lemma list_part : forall s l i, (forall x m, In (x, m) (indexed s i l) -> good m) ->
  exists l1 e, fold_walk_all l = Some (l1, e) /\ (nil l = true -> l1 = l) /\ Forall2 folded l l1 /\ parts (indexed s i l) (indexed s i l1) e.
Proof.
  intros s; induction l as [|m l IH]; intros i H; cbn.
  - exists [], []. split; auto. split; auto. split; constructor.
  - destruct (H (s i) m) as (m' & e & E & F & Sh & R); [cbn; auto|]. destruct (IH (S i)) as (l1 & es & E1 & _ & F1 & P1); [intros x k I; apply (H x); cbn; auto|].
    rewrite E, E1. exists (m' :: l1), (e ++ es). split; auto. split; [discriminate|]. split; constructor; auto. exact (conj eq_refl (conj F (conj Sh R))).
Qed.

(** Reports of parts together. *)
Lemma parts_found : forall ks ks' es, parts ks ks' es -> NoDup (map fst ks') -> 
  reported (fun p m => exists s k q, In (s, k) ks' /\ p = q ++ [s] /\ reach k q m) es.
Proof.
  induction 1 as [|k [s k'] e ks ks' es (_ & _ & _ & (l & N & I & T)) P IH]; intros D; cbn in *.
  - exists []. split; [constructor|]. split; [|constructor]. intros p; split; [intros []|intros (m & (s & k & q & [] & _) & _)].
  - inversion D as [|? ? N1 D1]; subst. destruct (IH D1) as (l' & N' & I' & T').
    exists (map (fun q => q ++ [s]) l ++ l'). split; [|split].
    + apply nodup_app; auto.
      * apply Injective_map_NoDup; auto. intros a b E. eapply same_end; exact E.
      * intros x Ix Jx. apply in_map_iff in Ix as (q & <- & Iq). apply I' in Jx as (m & (s' & k1 & q' & I1 & E & _) & _).
        apply app_inj_tail in E as [_ <-]. apply N1. change s with (fst (s, k1)). apply in_map; auto.
    + intros p. rewrite in_app_iff, I', in_map_iff. split.
      * intros [(q & <- & Iq)|(m & (s' & k1 & q & I1 & -> & R) & B)].
        -- apply I in Iq as (m & R & B). exists m. split; auto. exists s, k', q. auto.
        -- exists m. split; auto. exists s', k1, q. auto.
      * intros (m & (s' & k1 & q & [E|I1] & -> & R) & B).
        -- injection E as <- <-. left. exists q. split; auto. apply I. eauto.
        -- right. exists m. split; auto. exists s', k1, q. auto.
    + apply Forall2_app.
      * clear -T. induction T as [|q v l e (m & R & V) T IHT]; cbn; constructor; auto. exists m. split; auto. exists s, k', q. auto.
      * eapply Forall2_impl; [|exact T']. cbn. intros p v (m & (s' & k1 & q & I1 & R) & V). exists m. split; auto. exists s', k1, q. auto.
Qed.
Lemma reported_ext : forall (f g : place -> node -> Prop) es, (forall p m, f p m -> g p m) -> (forall p m, too_big m -> g p m -> f p m) -> reported f es -> reported g es.
Proof.
  intros f g es A B (l & N & I & T). exists l. split; auto. split.
  - intros p. rewrite I. split; intros (m & F & M); exists m; auto.
  - eapply Forall2_impl; [|exact T]. cbn. intros p v (m & F & V). eauto.
Qed.

Lemma lit_case : forall a t v, (v = tk_val t) -> tk_kind t = KInteger -> shaped (Node a OpLit t None None [] []) /\ reported (reach (Node a OpLit t None None [] [])) (check_overflow v).
Proof.
  intros a t v -> K. split; [constructor; [reflexivity|intros s m []]|].
  assert (U : forall p m, reach (Node a OpLit t None None [] []) p m <-> p = [] /\ m = Node a OpLit t None None [] []).
  { intros p m. rewrite reach_inv. split; [|auto]. intros [?|(s & k & q & _ & C & _)]; auto. inversion C; cbn in *; try discriminate; destruct i; discriminate. }
  unfold check_overflow. destruct (parse_int (tk_val t)) eqn:P.
  - exists []. split; [constructor|]. split; [|constructor]. intros p; split; [intros []|]. intros (m & R & (_ & B)). apply U in R as [-> ->]. cbn in B. eapply B; eauto.
  - exists [[]]. split; [repeat constructor; intros []|]. split.
    + intros p; cbn. split.
      * intros [<-|[]]. exists (Node a OpLit t None None [] []). split; [constructor|]. split; [split; auto|]. intros z; cbn. rewrite P; discriminate.
      * intros (m & R & _). apply U in R as [-> _]; auto.
    + repeat constructor. exists (Node a OpLit t None None [] []). split; [constructor|auto].
  - exists [[]]. split; [repeat constructor; intros []|]. split.
    + intros p; cbn. split.
      * intros [<-|[]]. exists (Node a OpLit t None None [] []). split; [constructor|]. split; [split; auto|]. intros z; cbn. rewrite P; discriminate.
      * intros (m & R & _). apply U in R as [-> _]; auto.
    + repeat constructor. exists (Node a OpLit t None None [] []). split; [constructor|auto].
Qed.

Lemma is_int_lit : forall n, is_int n = true <-> int_lit n.
Proof.
  intros [a o t l r ss ps]. unfold is_int, int_lit. cbn. split.
  - destruct o; try discriminate. destruct (tk_kind t); try discriminate; auto.
  - intros [-> ->]. reflexivity.
Qed.

Lemma parts_shaped : forall ks ks' es, parts ks ks' es -> forall s m, In (s, m) ks' -> shaped m.
Proof. induction 1 as [|k k' e ks ks' es (_ & _ & Sh & _) P IH]; intros s m I; [destruct I|]. destruct I as [E|I]; [rewrite E in Sh; exact Sh|eauto]. Qed.

Lemma fold_parts : forall a o t l r ss ps, fits (Node a o t l r ss ps) = true -> (o = OpNeg -> forall m, l = Some m -> ~ int_lit m) -> o <> OpLit ->
  (forall s m, In (s, m) (kids (Node a o t l r ss ps)) -> good m) ->
  exists l1 r1 ss1 ps1 es, fold_walk (Node a o t l r ss ps) = Some (Node a o t l1 r1 ss1 ps1, es) /\ fits (Node a o t l1 r1 ss1 ps1) = true /\
    opt_rel folded l l1 /\ opt_rel folded r r1 /\ Forall2 folded ss ss1 /\ ((o = OpStruct \/ o = OpEnum) /\ ps1 = ps \/ Forall2 folded ps ps1) /\
    parts (kids (Node a o t l r ss ps)) (kids (Node a o t l1 r1 ss1 ps1)) es.
Proof.
  intros a o t l r ss ps F NN NL H.
  assert (FN : fold_neg (Node a o t l r ss ps) = Some (Node a o t l r ss ps)).
  { unfold fold_neg. destruct o; auto. destruct l as [m|]; [|cbn in F; discriminate]. destruct (is_int m) eqn:E; auto. apply is_int_lit in E. destruct (NN eq_refl m eq_refl E). }
  assert (L : (forall s m, In (s, m) (opt_kid Left l) -> good m) -> exists l1 e, maybe l = Some (l1, e) /\ (some l = true -> must l = Some (l1, e) /\ some l1 = true) /\ (none l = true -> l1 = l) /\ 
    opt_rel folded l l1 /\ parts (opt_kid Left l) (opt_kid Left l1) e) by (apply opt_part).
  assert (R : (forall s m, In (s, m) (opt_kid Right r) -> good m) -> exists l1 e, maybe r = Some (l1, e) /\ (some r = true -> must r = Some (l1, e) /\ some l1 = true) /\ (none r = true -> l1 = r) /\ 
    opt_rel folded r l1 /\ parts (opt_kid Right r) (opt_kid Right l1) e) by (apply opt_part).
  assert (S : (forall s m, In (s, m) (indexed Stmt 0 ss) -> good m) -> exists l1 e, fold_walk_all ss = Some (l1, e) /\ (nil ss = true -> l1 = ss) /\ Forall2 folded ss l1 /\ parts (indexed Stmt 0 ss) (indexed Stmt 0 l1) e) by (apply list_part).
  assert (P : (forall s m, In (s, m) (indexed Param 0 ps) -> good m) -> exists l1 e, fold_walk_all ps = Some (l1, e) /\ (nil ps = true -> l1 = ps) /\ Forall2 folded ps l1 /\ parts (indexed Param 0 ps) (indexed Param 0 l1) e) by (apply list_part).
  destruct o; try (destruct (NL eq_refl)); cbn [fits] in F;
    cbn [kids] in H; rewrite fold_eq; unfold body; rewrite FN; cbn [is_lit n_op];
    repeat match goal with H : (_ && _) = true |- _ => apply andb_true_iff in H as [? ?] end;
    repeat match goal with H : none ?x = true |- _ => destruct x; [discriminate H|clear H] | H : nil ?x = true |- _ => destruct x; [clear H|discriminate H] end;
    try (destruct L as (l1 & e1 & ML & UL & VL & OL & PL); [intros s m I; first [destruct I; fail|apply (H s); rewrite ?in_app_iff; tauto]|]);
    try (destruct R as (r1 & e2 & MR & UR & VR & OR & PR); [intros s m I; first [destruct I; fail|apply (H s); rewrite ?in_app_iff; tauto]|]);
    try (destruct S as (ss1 & e3 & MS & VS & OS & PS); [intros s m I; first [destruct I; fail|apply (H s); rewrite ?in_app_iff; tauto]|]);
    try (destruct P as (ps1 & e4 & MP & VP & OP & PP); [intros s m I; first [destruct I; fail|apply (H s); rewrite ?in_app_iff; tauto]|]).
  all: repeat match goal with H : some ?x = true -> _, K : some ?x = true |- _ => destruct (H K) as [? ?]; clear H end.
  all: repeat match goal with H : must ?x = Some _ |- context [must ?x] => rewrite H | H : maybe ?x = Some _ |- context [maybe ?x] => rewrite H 
    | H : fold_walk_all ?x = Some _ |- context [fold_walk_all ?x] => rewrite H end.
  all: repeat match goal with H : none None = true -> _ |- _ => specialize (H eq_refl); subst | H : nil [] = true -> _ |- _ => specialize (H eq_refl); subst end.
  all: eexists _, _, _, _, _; split; [reflexivity|].
  all: split; [cbn [fits]; repeat match goal with H : some _ = true |- _ => rewrite H end; reflexivity|].
  all: cbn [kids].
  all: repeat match goal with |- _ /\ _ => split end; auto.
  all: try constructor.
  all: repeat apply parts_app; auto.
Qed.

Lemma fold_good : forall n, shaped n -> good n.
Proof.
  intros n H; induction H as [n F IH] using shaped_induct. destruct n as [a o t l r ss ps].
  assert (D : (o = OpNeg /\ exists m, l = Some m /\ int_lit m) \/ (o = OpNeg -> forall m, l = Some m -> ~ int_lit m)).
  { destruct o; try (right; discriminate). destruct l as [m|]; [|right; discriminate]. destruct (is_int m) eqn:E.
    - left. split; auto. exists m. split; auto. apply is_int_lit; auto.
    - right. intros _ m' [= <-] L. apply is_int_lit in L. congruence. }
  destruct D as [[-> (m & -> & L)]|D].
  - cbn in F. destruct r; [discriminate|]. destruct ss; [|discriminate]. destruct ps; [|discriminate].
    assert (E : is_int m = true) by (apply is_int_lit; auto). destruct L as [LO LK].
    destruct (lit_case a (with_val (n_token m) (45%Z :: tk_val (n_token m))) _ eq_refl LK) as [Sh R].
    eexists _, _. split; [|split; [|split; [exact Sh|exact R]]].
    + rewrite fold_eq; unfold body; cbn [fold_neg is_lit n_op]. rewrite E. cbn [is_lit n_op]. unfold overflow, is_int. cbn [n_op n_token]. cbn [with_val tk_kind]. rewrite LK. reflexivity.
    + constructor; [split; auto|]. repeat split.
  - destruct (n_op (Node a o t l r ss ps)) eqn:O; cbn in O; subst o.
    all: try (destruct (fold_parts a _ t l r ss ps F D) as (l1 & r1 & ss1 & ps1 & es & E & F1 & RL & RR & RS & RP & P); [discriminate|intros s m I; exact (proj2 (IH s m I))|];
      eexists; exists es; split; [exact E|]; split; [constructor; auto|]; split;
      [constructor; [exact F1|eapply parts_shaped; exact P]|];
      eapply reported_ext; [| |apply (parts_found _ _ _ P); apply kids_nodup];
      [intros p m (s & k & q & I & -> & R); apply (kids_children _ F1) in I; eapply reach_below; eauto
      |intros p m [[B _] _] R; apply reach_inv in R as [[-> ->]|(s & k & q & -> & C & R)];
        [cbn in B; discriminate|exists s, k, q; split; [apply (kids_children _ F1); exact C|auto]]]).
    cbn in F. destruct l; [discriminate|]. destruct r; [discriminate|]. destruct ss; [|discriminate]. destruct ps; [|discriminate].
    destruct (tk_kind t) eqn:K.
    all: try (destruct (lit_case a t _ eq_refl K) as [Sh R]; eexists _, _; split; [|split; [|split; [exact Sh|exact R]]];
      [rewrite fold_eq; unfold body; cbn [fold_neg is_lit n_op]; unfold overflow, is_int; cbn [n_op n_token]; rewrite K; reflexivity|constructor; [discriminate|constructor..|right; constructor]]).
    all: exists (Node a OpLit t None None [] []), []; split; [rewrite fold_eq; unfold body; cbn [fold_neg is_lit n_op]; unfold overflow, is_int; cbn [n_op n_token]; rewrite K; reflexivity|];
      split; [constructor; [discriminate|constructor..|right; constructor]|]; split; [constructor; [reflexivity|intros s m []]|];
      exists []; split; [constructor|]; split; [|constructor]; intros p; split; [intros []|];
      intros (m & R & ((_ & B) & _)); apply reach_inv in R as [[-> ->]|(s & k & q & _ & C & _)]; [cbn in B; congruence|];
      inversion C; cbn in *; try discriminate; destruct i; discriminate.
Qed.

Lemma fold_roots : forall roots, Forall shaped roots -> exists roots' es, fold_walk_all roots = Some (roots', es) /\ 
  Forall2 folded roots roots' /\ Forall shaped roots' /\ reported (found roots') es.
Proof.
  intros roots F. destruct (list_part Stmt roots 0) as (l1 & e & E & _ & G & P).
  { intros x m I. apply fold_good. rewrite Forall_forall in F. apply F. apply in_indexed in I as (j & _ & N). eapply nth_error_In; eauto. }
  exists l1, e. split; auto. split; auto. split.
  - apply Forall_forall. intros m I. apply In_nth_error in I as (j & N). eapply (parts_shaped _ _ _ P (Stmt j)). apply in_indexed. exists j; auto.
  - eapply reported_ext; [| |apply (parts_found _ _ _ P)].
    + intros p m (s & k & q & I & -> & R). apply in_indexed in I as (j & -> & N). econstructor; eauto.
    + intros p m _ [i n q m' N R]. exists (Stmt i), n, q. split; auto. apply in_indexed. exists i; auto.
    + apply indexed_nodup. congruence.
Qed.
