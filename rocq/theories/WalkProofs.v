(** Walks: proofs for C56. *)
From Coq Require Import ZArith List Bool Arith Lia.
From Verif Require Import LexModel ParseModel LitModel WalkModel WalkSpec.
Import ListNotations.
Open Scope nat_scope.

(* ------------------------------------------------------------------- shapes of trees *)

Definition none {A} (o : option A) : bool := match o with None => true | _ => false end.
Definition some {A} (o : option A) : bool := match o with None => false | _ => true end.
Definition nil {A} (l : list A) : bool := match l with [] => true | _ => false end.
(** The parts that nodes of a kind have. *)
Definition fits (n : node) : bool :=
  match n with
  | Node _ o _ l r ss ps =>
    match o with
    | OpBlockFn | OpExprFn | OpExternFn | OpConsFn | OpFuncType => true
    | OpStruct | OpEnum => none l && none r
    | OpElse => none l && none r && nil ps
    | OpTypeList => none l && none r && nil ss
    | OpFuncCall => none r
    | OpWhile | OpMatch | OpTernary => some l && none r && nil ps
    | OpCase => none l && none r
    | OpIf | OpElseIf => some l && nil ps
    | OpFor => some l && some r && nil ps
    | OpLit | OpError => none l && none r && nil ss && nil ps
    | OpIdentifier | OpReturn | OpNamedType => none r && nil ss && nil ps
    | OpNot | OpNeg | OpBNot | OpArrayType => some l && none r && nil ss && nil ps
    | OpArrayLit => none r && nil ps
    | _ => some l && some r && nil ss && nil ps
    end
  end.
Definition opt_kid (s : step) (o : option node) : list (step * node) := match o with Some m => [(s, m)] | None => [] end.
Fixpoint indexed (s : nat -> step) (i : nat) (l : list node) : list (step * node) :=
  match l with [] => [] | m :: l' => (s i, m) :: indexed s (S i) l' end.
Definition kids (n : node) : list (step * node) :=
  match n with
  | Node _ o _ l r ss ps =>
    let ls := opt_kid Left l in let rs := opt_kid Right r in let st := indexed Stmt 0 ss in let pa := indexed Param 0 ps in
    match o with
    | OpBlockFn | OpExprFn | OpExternFn | OpConsFn | OpFuncType => rs ++ pa ++ st ++ ls
    | OpStruct | OpEnum | OpElse => st
    | OpTypeList => pa
    | OpFuncCall => ls ++ pa ++ st
    | OpWhile | OpMatch | OpTernary => ls ++ st
    | OpCase => pa ++ st
    | OpIf | OpElseIf => ls ++ st ++ rs
    | OpFor => rs ++ ls ++ st
    | OpLit | OpError => []
    | OpIdentifier | OpReturn | OpNamedType => ls
    | OpNot | OpNeg | OpBNot | OpArrayType => ls
    | OpArrayLit => ls ++ st
    | _ => ls ++ rs
    end
  end.
Inductive shaped (n : node) : Prop :=
| shape : fits n = true -> (forall s m, In (s, m) (kids n) -> shaped m) -> shaped n.
Lemma shaped_induct : forall (Q : node -> Prop), 
  (forall n, fits n = true -> (forall s m, In (s, m) (kids n) -> shaped m /\ Q m) -> Q n) -> forall n, shaped n -> Q n.
Proof. intros Q H. fix IH 2. intros n [F K]. apply H; [exact F|]. intros s m I. split; [exact (K s m I)|apply IH; exact (K s m I)]. Qed.

Lemma in_indexed : forall s l i x m, In (x, m) (indexed s i l) <-> exists j, x = s (i + j) /\ nth_error l j = Some m.
Proof.
  intros s l; induction l as [|a l IH]; intros i x m; cbn.
  - split; [intros []|intros (j & _ & E); destruct j; discriminate].
  - rewrite IH. split.
    + intros [E|(j & -> & E)]; [injection E as <- <-; exists 0; rewrite Nat.add_0_r; auto|exists (S j); rewrite Nat.add_succ_r; auto].
    + intros (j & -> & E). destruct j as [|j]; cbn in E; [injection E as ->; left; rewrite Nat.add_0_r; auto|right; exists j; rewrite Nat.add_succ_r; auto].
Qed.
Lemma in_opt_kid : forall s o x m, In (x, m) (opt_kid s o) <-> x = s /\ o = Some m.
Proof. intros s [a|] x m; cbn; split; [intros [E|[]]; injection E as <- <-; auto|intros [-> E]; injection E as ->; auto|intros []|intros [_ E]; discriminate]. Qed.
Lemma kids_children : forall n, fits n = true -> forall s m, In (s, m) (kids n) <-> child n s m.
Proof.
  intros [a o t l r ss ps] F s m. 
  assert (C : child (Node a o t l r ss ps) s m <-> 
    In (s, m) (opt_kid Left l) \/ In (s, m) (opt_kid Right r) \/ In (s, m) (indexed Stmt 0 ss) \/ (In (s, m) (indexed Param 0 ps) /\ o <> OpStruct /\ o <> OpEnum)).
  { rewrite !in_opt_kid, !in_indexed. cbn [Nat.add]. split.
    - intros C; inversion C; subst; cbn in *; eauto 8.
    - intros [[-> E]|[[-> E]|[(j & -> & E)|((j & -> & E) & ? & ?)]]]; constructor; auto. }
  rewrite C. clear C. destruct o; cbn [fits kids] in *; 
    repeat match goal with H : (_ && _) = true |- _ => apply andb_true_iff in H as [? ?] end;
    repeat match goal with H : none ?x = true |- _ => destruct x; [discriminate H|clear H] | H : nil ?x = true |- _ => destruct x; [clear H|discriminate H] end;
    rewrite ?in_app_iff; cbn [opt_kid indexed In]; intuition (discriminate || congruence).
Qed.
Lemma indexed_nodup : forall s l i, (forall a b, s a = s b -> a = b) -> NoDup (map fst (indexed s i l)).
Proof.
  intros s l; induction l as [|a l IH]; intros i H; cbn; constructor; auto. intros I. apply in_map_iff in I as ([x m] & E & I). cbn in E; subst x.
  apply in_indexed in I as (j & E & _). apply H in E. lia.
Qed.
Lemma nodup_app : forall {A} (l m : list A), NoDup l -> NoDup m -> (forall x, In x l -> ~ In x m) -> NoDup (l ++ m).
Proof.
  intros A; induction l as [|a l IH]; intros m N M D; cbn; auto. inversion N; subst. constructor.
  - intros I; apply in_app_or in I as [I|I]; auto. apply (D a); cbn; auto.
  - apply IH; auto. intros x I; apply D; cbn; auto.
Qed.
Lemma kids_nodup : forall n, NoDup (map fst (kids n)).
Proof.
  intros [a o t l r ss ps].
  assert (L : NoDup (map fst (opt_kid Left l))) by (destruct l; cbn; repeat constructor; intros []).
  assert (R : NoDup (map fst (opt_kid Right r))) by (destruct r; cbn; repeat constructor; intros []).
  assert (T : NoDup (map fst (indexed Stmt 0 ss))) by (apply indexed_nodup; congruence).
  assert (P : NoDup (map fst (indexed Param 0 ps))) by (apply indexed_nodup; congruence).
  assert (XL : forall x, In x (map fst (opt_kid Left l)) -> x = Left) by (intros x I; apply in_map_iff in I as ([y m] & <- & I); apply in_opt_kid in I; cbn; tauto).
  assert (XR : forall x, In x (map fst (opt_kid Right r)) -> x = Right) by (intros x I; apply in_map_iff in I as ([y m] & <- & I); apply in_opt_kid in I; cbn; tauto).
  assert (XT : forall x, In x (map fst (indexed Stmt 0 ss)) -> exists i, x = Stmt i) by (intros x I; apply in_map_iff in I as ([y m] & <- & I); apply in_indexed in I as (j & -> & _); cbn; eauto).
  assert (XP : forall x, In x (map fst (indexed Param 0 ps)) -> exists i, x = Param i) by (intros x I; apply in_map_iff in I as ([y m] & <- & I); apply in_indexed in I as (j & -> & _); cbn; eauto).
  destruct o; cbn [kids]; rewrite ?map_app; repeat apply nodup_app; auto; try apply NoDup_nil; intros x I J; rewrite ?in_app_iff in *;
    repeat match goal with H : _ \/ _ |- _ => destruct H as [H|H] end;
    repeat match goal with H : In _ (map fst _) |- _ => first [apply XL in H|apply XR in H|apply XT in H as [? H]|apply XP in H as [? H]] end; subst; try discriminate.
Qed.

(* ---------------------------------------------------------------------------- the walk *)

Section Walk.
Variables (pre : bool) (go : place -> bool).
Notation walk := (walk pre go).
Fixpoint walk_kids (p : place) (ks : list (step * node)) : option (list event) :=
  match ks with [] => Some [] | (s, m) :: ks' => cat (walk (s :: p) m) (walk_kids p ks') end.
Lemma cat_assoc : forall {A} (a b c : option (list A)), cat a (cat b c) = cat (cat a b) c.
Proof. intros A [a|] [b|] [c|]; cbn; auto. rewrite app_assoc; auto. Qed.
Lemma walk_kids_app : forall p a b, walk_kids p (a ++ b) = cat (walk_kids p a) (walk_kids p b).
Proof.
  intros p; induction a as [|[s m] a IH]; intros b; cbn; [destruct (walk_kids p b); auto|]. rewrite IH, cat_assoc; auto.
Qed.
Lemma walk_eq : forall p n, fits n = true -> walk p n =
  if pre then if go p then cat (Some [Visit p true]) (cat (walk_kids p (kids n)) (Some [Exit])) else Some [Visit p false]
  else cat (walk_kids p (kids n)) (Some [Visit p true]).
Proof.
  intros p [a o t l r ss ps] F.
  assert (A : forall s ms i, (fix all (s : nat -> step) (i : nat) (ms : list node) : option (list event) :=
      match ms with [] => Some [] | m :: ms' => cat (walk (s i :: p) m) (all s (S i) ms') end) s i ms = walk_kids p (indexed s i ms)).
  { intros s ms; induction ms as [|m ms IH]; intros i; cbn; auto. rewrite IH; auto. }
  assert (O : forall s m, match m with Some m => walk (s :: p) m | None => Some [] end = walk_kids p (opt_kid s m)).
  { intros s [m|]; cbn; auto. destruct (walk (s :: p) m); cbn; rewrite ?app_nil_r; auto. }
  assert (M : forall s m, some m = true -> match m with Some m => walk (s :: p) m | None => None end = walk_kids p (opt_kid s m)).
  { intros s [m|] E; [|discriminate]. cbn. destruct (walk (s :: p) m); cbn; rewrite ?app_nil_r; auto. }
  destruct o; cbn [WalkModel.walk kids]; rewrite ?A, ?O, ?walk_kids_app; cbn [fits] in F;
    repeat match goal with H : (_ && _) = true |- _ => apply andb_true_iff in H as [? ?] end; rewrite ?M by assumption; try reflexivity.
Qed.
Lemma walk_all_eq : forall p s ms i, walk_all pre go p s i ms = walk_kids p (indexed s i ms).
Proof. intros p s ms; induction ms as [|m ms IH]; intros i; cbn; auto. rewrite IH; auto. Qed.

(** Places whose way down from a start is open. *)
Definition open (p : place) (q : place) : Prop := pre = false \/ forall a b, q = a ++ b -> a <> [] -> go (b ++ p) = true.
(** What a walk over the part at [p] makes. *)
Record done (p : place) (inside : place -> Prop) (l : list event) : Prop := {
  d_places : forall q, In q (places l) <-> exists a, q = a ++ p /\ inside a /\ open p a;
  d_once : NoDup (places l);
  d_order : forall q s a, In q (places l) -> In (a ++ s :: q) (places l) -> if pre then earlier (places l) q (a ++ s :: q) else earlier (places l) (a ++ s :: q) q
}.
Lemma places_app : forall l m, places (l ++ m) = places l ++ places m.
Proof. intros; apply flat_map_app. Qed.
Lemma earlier_l : forall {A} (l m : list A) a b, earlier l a b -> earlier (l ++ m) a b.
Proof. intros A l m a b (x & y & z & ->). exists x, y, (z ++ m). rewrite <- app_assoc. cbn. rewrite <- app_assoc. reflexivity. Qed.
Lemma earlier_r : forall {A} (l m : list A) a b, earlier m a b -> earlier (l ++ m) a b.
Proof. intros A l m a b (x & y & z & ->). exists (l ++ x), y, z. rewrite <- app_assoc. reflexivity. Qed.
Lemma same_tail : forall {A} (x y p q : list A), x ++ p = y ++ q -> length p = length q -> x = y /\ p = q.
Proof.
  intros A; induction x as [|a x IH]; intros [|b y] p q E L; cbn in E.
  - auto.
  - exfalso. apply (f_equal (@length A)) in E. cbn in E. rewrite app_length in E. lia.
  - exfalso. apply (f_equal (@length A)) in E. cbn in E. rewrite app_length in E. lia.
  - injection E as -> E. destruct (IH _ _ _ E L) as [-> ->]. auto.
Qed.
Lemma same_end : forall {A} (x y p : list A), x ++ p = y ++ p -> x = y.
Proof. intros A x y p E. apply (same_tail _ _ _ _ E). reflexivity. Qed.
Lemma below : forall {A} (x y p : list A) s t, x ++ s :: p = y ++ t :: p -> x = y /\ s = t.
Proof. intros A x y p s t E. destruct (same_tail _ _ _ _ E) as [-> Q]; [reflexivity|]. injection Q as ->. auto. Qed.

(** Walks over several parts. *)
Record dones (p : place) (ks : list (step * node)) (l : list event) : Prop := {
  ds_places : forall q, In q (places l) <-> exists s m a b, In (s, m) ks /\ q = a ++ s :: p /\ reach m a b /\ open (s :: p) a;
  ds_once : NoDup (places l);
  ds_order : forall q s a, In q (places l) -> In (a ++ s :: q) (places l) -> if pre then earlier (places l) q (a ++ s :: q) else earlier (places l) (a ++ s :: q) q
}.
Lemma kids_done : forall p ks, NoDup (map fst ks) ->
  (forall s m, In (s, m) ks -> exists l, walk (s :: p) m = Some l /\ done (s :: p) (fun a => exists b, reach m a b) l) ->
  exists l, walk_kids p ks = Some l /\ dones p ks l.
Proof.
  intros p; induction ks as [|[s m] ks IH]; intros N W; cbn in *.
  - exists []. split; auto. split; [|constructor|intros q s a []]. intros q; split; [intros []|intros (s & m & a & b & [] & _)].
  - inversion N as [|? ? N1 N2]; subst. destruct IH as (l2 & -> & D2); auto. destruct (W s m) as (l1 & -> & D1); auto.
    exists (l1 ++ l2). split; auto. split.
    + intros q. rewrite places_app, in_app_iff, (d_places _ _ _ D1), (ds_places _ _ _ D2). split.
      * intros [(a & -> & (b & R) & O)|(s' & m' & a & b & I & -> & R & O)]; [exists s, m, a, b|exists s', m', a, b]; (split; [cbn; auto|auto]).
      * intros (s' & m' & a & b & [I|I] & -> & R & O); [injection I as <- <-; left; exists a; eauto|right; exists s', m', a, b; auto].
    + rewrite places_app. apply nodup_app; [apply (d_once _ _ _ D1)|apply (ds_once _ _ _ D2)|]. intros q I J.
      apply (d_places _ _ _ D1) in I as (a & -> & _). apply (ds_places _ _ _ D2) in J as (s' & m' & a' & b' & J & E & _).
      apply below in E as [_ ->]. apply N1. apply in_map_iff. exists (s', m'); auto.
    + intros q t a. rewrite places_app, !in_app_iff. 
      assert (X : forall x, In x (places l1) -> exists c, x = c ++ s :: p) by (intros x I; apply (d_places _ _ _ D1) in I as (c & -> & _); eauto).
      assert (Y : forall x, In x (places l2) -> exists c s', x = c ++ s' :: p /\ s' <> s).
      { intros x I. apply (ds_places _ _ _ D2) in I as (s' & m' & c & b & I & -> & _). exists c, s'; split; auto. intros ->. apply N1, in_map_iff. exists (s, m'); auto. }
      intros [I|I] [J|J].
      * pose proof (d_order _ _ _ D1 _ _ _ I J). destruct pre; apply earlier_l; auto.
      * exfalso. destruct (X _ I) as (c & ->). destruct (Y _ J) as (c' & s' & E & Q). rewrite app_comm_cons, app_assoc in E. apply below in E as [_ E]. auto.
      * exfalso. destruct (Y _ I) as (c & s' & -> & Q). destruct (X _ J) as (c' & E). rewrite app_comm_cons, app_assoc in E. apply below in E as [_ E]. auto.
      * pose proof (ds_order _ _ _ D2 _ _ _ I J). destruct pre; apply earlier_r; auto.
Qed.
Lemma reach_below : forall n q m, reach n q m -> forall k s, child k s n -> reach k (q ++ [s]) m.
Proof.
  induction 1 as [|q k' s' m R IH C]; intros k s H; cbn.
  - eapply reach_step; [apply reach_here|exact H].
  - eapply reach_step; [apply IH; exact H|exact C].
Qed.
Lemma reach_inv : forall n q m, reach n q m <-> (q = [] /\ m = n) \/ exists s k q', q = q' ++ [s] /\ child n s k /\ reach k q' m.
Proof.
  intros n q m; split.
  - induction 1 as [|q k s m R IH C]; auto. right. destruct IH as [[-> ->]|(s' & k' & q' & -> & C' & R')].
    + exists s, m, []. split; auto. split; auto. apply reach_here.
    + exists s', k', (s :: q'). split; auto. split; auto. eapply reach_step; eauto.
  - intros [[-> ->]|(s & k & q' & -> & C & R)]; [apply reach_here|eapply reach_below; eauto].
Qed.
Lemma open_below : forall p s a, open p (a ++ [s]) <-> (pre = false \/ go p = true) /\ open (s :: p) a.
Proof.
  intros p s a. unfold open. split.
  - intros [E|E]; [auto|]. split; [right; apply (E (a ++ [s]) []); [rewrite app_nil_r; auto|destruct a; discriminate]|right].
    intros x y -> N. rewrite <- (E x (y ++ [s])); [f_equal; rewrite <- app_assoc; reflexivity|rewrite app_assoc; reflexivity|exact N].
  - intros [[E|E] [F|F]]; auto. right. intros x y Q N. destruct (rev y) as [|z y'] eqn:R.
    + assert (y = []) by (rewrite <- (rev_involutive y), R; reflexivity). subst. exact E.
    + assert (Y : y = rev y' ++ [z]) by (rewrite <- (rev_involutive y), R; reflexivity). subst y. rewrite app_assoc in Q. apply app_inj_tail in Q as [-> <-].
      rewrite <- app_assoc. cbn. apply F with x; auto.
Qed.
Lemma open_here : forall p, open p [].
Proof. intros p. right. intros [|? ?] b E N; [contradiction|discriminate]. Qed.
Lemma around : forall p ks l (inside : place -> Prop), dones p ks l ->
  (forall q, inside q <-> q = [] \/ exists s m a b, q = a ++ [s] /\ In (s, m) ks /\ reach m a b) ->
  exists l', (if pre then if go p then cat (Some [Visit p true]) (cat (Some l) (Some [Exit])) else Some [Visit p false]
    else cat (Some l) (Some [Visit p true])) = Some l' /\ done p inside l'.
Proof.
  intros p ks l inside D INS.
  assert (STRICT : forall q, In q (places l) -> exists a s, q = a ++ s :: p).
  { intros q I. apply (ds_places _ _ _ D) in I as (s & m & a & b & _ & -> & _). eauto. }
  assert (NOT : ~ In p (places l)).
  { intros I. destruct (STRICT _ I) as (a & s & E). apply (f_equal (@length step)) in E. rewrite app_length in E. cbn in E. lia. }
  assert (IN : pre = false \/ go p = true -> forall q, q = p \/ In q (places l) <-> exists a, q = a ++ p /\ inside a /\ open p a).
  { intros G q. rewrite (ds_places _ _ _ D). split.
    - intros [->|(s & m & a & b & I & -> & R & O)].
      + exists []. split; auto. split; [apply INS; auto|apply open_here].
      + exists (a ++ [s]). rewrite <- app_assoc. split; auto. split; [apply INS; right; exists s, m, a, b; auto|].
        apply open_below; auto.
    - intros (a & -> & R & O). apply INS in R as [->|(s & k & q' & b & -> & C & R)]; [auto|]. right.
      apply open_below in O as [_ O]. exists s, k, q', b. rewrite <- app_assoc. auto. }
  assert (SELF : forall a s, ~ (exists a' s', p = a' ++ s' :: a ++ s :: p)).
  { intros a s (a' & s' & E). apply (f_equal (@length step)) in E. rewrite app_length in E. cbn in E. rewrite app_length in E. cbn in E. lia. }
  destruct pre eqn:PRE; cbn.
  - destruct (go p) eqn:G; cbn.
    + exists (Visit p true :: l ++ [Exit]). split; auto. specialize (IN (or_intror eq_refl)).
      assert (E : places (Visit p true :: l ++ [Exit]) = p :: places l) by (cbn; rewrite places_app; cbn; rewrite app_nil_r; auto).
      split; rewrite ?E.
      * intros q. rewrite <- IN. cbn. split; intros [Q|Q]; auto.
      * constructor; auto. apply (ds_once _ _ _ D).
      * intros q s a I J. cbn in I, J. destruct I as [<-|I].
        { destruct J as [J|J]; [exfalso; apply (f_equal (@length step)) in J; rewrite app_length in J; cbn in J; lia|].
          rewrite PRE. destruct (List.in_split _ _ J) as (y & z & Ey). exists [], y, z. rewrite Ey. reflexivity. }
        { destruct J as [J|J].
          - exfalso. destruct (STRICT _ I) as (a' & s' & ->). apply (SELF a' s'). exists a, s. exact J.
          - pose proof (ds_order _ _ _ D _ _ _ I J) as O. rewrite PRE in O |- *. apply (earlier_r [p]). exact O. }
    + exists [Visit p false]. split; auto. split; cbn.
      * intros q. split.
        { intros [<-|[]]. exists []. split; auto. split; [apply INS; auto|apply open_here]. }
        { intros (a & -> & R & O). apply INS in R as [->|(s & k & q' & b & -> & C & R)]; [auto|]. apply open_below in O as [[O|O] _]; congruence. }
      * repeat constructor. intros [].
      * intros q s a [<-|[]] [J|[]]. exfalso; apply (f_equal (@length step)) in J; rewrite app_length in J; cbn in J; lia.
  - exists (l ++ [Visit p true]). split; auto. specialize (IN (or_introl eq_refl)).
    assert (E : places (l ++ [Visit p true]) = places l ++ [p]) by (rewrite places_app; reflexivity).
    split; rewrite ?E.
    + intros q. rewrite <- IN, in_app_iff. cbn. split; [intros [Q|[Q|[]]]; auto|intros [Q|Q]; auto].
    + apply nodup_app; [apply (ds_once _ _ _ D)|repeat constructor; intros []|]. intros q I [<-|[]]. auto.
    + intros q s a I J. apply in_app_or in I, J. destruct I as [I|[<-|[]]].
      * destruct J as [J|[J|[]]].
        { pose proof (ds_order _ _ _ D _ _ _ I J) as O. rewrite PRE in O |- *. apply earlier_l. exact O. }
        { exfalso. destruct (STRICT _ I) as (a' & s' & ->). apply (SELF a' s'). exists a, s. exact J. }
      * destruct J as [J|[J|[]]]; [|exfalso; apply (f_equal (@length step)) in J; rewrite app_length in J; cbn in J; lia].
        rewrite PRE. destruct (List.in_split _ _ J) as (y & z & Ey). exists y, z, []. rewrite Ey, <- app_assoc. reflexivity.
Qed.
Lemma done_all : forall n, shaped n -> forall p, exists l, walk p n = Some l /\ done p (fun a => exists b, reach n a b) l.
Proof.
  intros n H; induction H as [n F IH] using shaped_induct. intros p. rewrite (walk_eq _ _ F).
  destruct (kids_done p (kids n) (kids_nodup n)) as (l & -> & D); [intros s m I; apply IH with s; exact I|].
  apply (around _ _ _ _ D). intros q. split.
  - intros [b R]. apply reach_inv in R as [[-> ->]|(s & k & q' & -> & C & R)]; [auto|]. right. exists s, k, q', b. split; auto. split; auto. apply kids_children; auto.
  - intros [->|(s & m & a & b & -> & I & R)]; [exists n; apply reach_here|]. exists b. apply reach_inv. right. exists s, m, a. split; auto. split; auto. apply kids_children; auto.
Qed.
Lemma in_roots : forall roots q, there roots q <-> q = [] \/ exists s m a b, q = a ++ [s] /\ In (s, m) (indexed Stmt 0 roots) /\ reach m a b.
Proof.
  intros roots q; split.
  - intros [|i n p m N R]; auto. right. exists (Stmt i), n, p, m. split; auto. split; auto. apply in_indexed. exists i; auto.
  - intros [->|(s & m & a & b & -> & I & R)]; [constructor|]. apply in_indexed in I as (i & -> & N). econstructor; eauto.
Qed.
Lemma root_done : forall roots, Forall shaped roots -> exists l, walk_root pre go roots = Some l /\ done [] (there roots) l.
Proof.
  intros roots F. unfold walk_root. rewrite walk_all_eq. rewrite Forall_forall in F.
  destruct (kids_done [] (indexed Stmt 0 roots)) as (l & -> & D).
  - apply indexed_nodup. congruence.
  - intros s m I. apply done_all. apply F. apply in_indexed in I as (i & _ & N). eapply nth_error_In; eauto.
  - apply (around _ _ _ _ D). apply in_roots.
Qed.

Hypothesis before : pre = true.
Lemma nested_kids : forall p ks, (forall s m, In (s, m) ks -> forall l rest, walk (s :: p) m = Some l -> nested go (above (s :: p)) rest -> nested go (above (s :: p)) (l ++ rest)) ->
  forall l rest, walk_kids p ks = Some l -> nested go (p :: above p) rest -> nested go (p :: above p) (l ++ rest).
Proof.
  intros p; induction ks as [|[s m] ks IH]; intros H l rest E N; cbn in E; [injection E as <-; exact N|].
  destruct (walk (s :: p) m) as [l1|] eqn:W; [|discriminate]. destruct (walk_kids p ks) as [l2|] eqn:K; [|discriminate]. injection E as <-.
  rewrite <- app_assoc. apply (H s m) with (l := l1); [cbn; auto|exact W|]. cbn. apply IH; auto. intros s' m' I. apply H. cbn; auto.
Qed.
Lemma nested_around : forall p (ks : option (list event)) l rest, 
  (forall l rest, ks = Some l -> nested go (p :: above p) rest -> nested go (p :: above p) (l ++ rest)) ->
  (if pre then if go p then cat (Some [Visit p true]) (cat ks (Some [Exit])) else Some [Visit p false]
    else cat ks (Some [Visit p true])) = Some l -> nested go (above p) rest -> nested go (above p) (l ++ rest).
Proof.
  intros p ks l rest K E N. rewrite before in E. destruct (go p) eqn:G.
  - destruct ks as [l1|]; [|discriminate]. cbn in E. injection E as <-. cbn. rewrite <- G. constructor; auto. rewrite G.
    rewrite <- app_assoc. apply K; auto. cbn. constructor. exact N.
  - injection E as <-. cbn. rewrite <- G. constructor; auto. rewrite G. exact N.
Qed.
Lemma nested_all : forall n, shaped n -> forall p l rest, walk p n = Some l -> nested go (above p) rest -> nested go (above p) (l ++ rest).
Proof.
  intros n H; induction H as [n F IH] using shaped_induct. intros p l rest E N. rewrite (walk_eq _ _ F) in E.
  eapply nested_around; [|exact E|exact N]. intros l1 rest1 K. apply nested_kids with (ks := kids n); auto. intros s m I. apply IH with s; auto.
Qed.
Lemma root_nested : forall roots l, Forall shaped roots -> walk_root pre go roots = Some l -> nested go [] l.
Proof.
  intros roots l F E. unfold walk_root in E. rewrite walk_all_eq in E. rewrite <- (app_nil_r l).
  apply (nested_around [] (walk_kids [] (indexed Stmt 0 roots)) l []); [|exact E|constructor]. intros l1 rest K. rewrite Forall_forall in F.
  apply nested_kids with (ks := indexed Stmt 0 roots); auto. intros s m I. apply nested_all. apply F.
  apply in_indexed in I as (i & _ & N). eapply nth_error_In; eauto.
Qed.
End Walk.
