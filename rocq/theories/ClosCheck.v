(** The walk for free variables finds them, although it leaves nodes on its stack. *)
From Coq Require Import ZArith List Bool Arith Lia.
From Verif Require Import ParseModel ClosModel ClosSpec.
Import ListNotations.
Open Scope nat_scope.

Lemma sym_eqb_eq a b : sym_eqb a b = true <-> a = b.
Proof. unfold sym_eqb. destruct (sym_eq_dec a b); split; congruence. Qed.
Lemma mem_in x l : mem x l = true <-> In x l.
Proof. unfold mem. rewrite existsb_exists. split; [intros (y & H & E); apply sym_eqb_eq in E; now subst|]. intros H. exists x. split; [exact H|now apply sym_eqb_eq]. Qed.
Lemma o2l_map {A B} (f : A -> B) o : o2l (option_map f o) = map f (o2l o).
Proof. now destruct o. Qed.
Lemma pick_map {A B} (f : A -> B) o l r ss ps : pick o (option_map f l) (option_map f r) (map f ss) (map f ps) = map f (pick o l r ss ps).
Proof. destruct o; cbn; rewrite ?map_app, ?o2l_map; reflexivity. Qed.
Section Ind.
Variable P : tree -> Prop.
Hypothesis H : forall o y l r ss ps sc, (forall k, In k (o2l l ++ o2l r ++ ss ++ ps) -> P k) -> P (Tree o y l r ss ps sc).
Fixpoint tree_ind' (t : tree) : P t.
Proof.
  destruct t as [o y l r ss ps sc]. apply H. intros k Hk. apply in_app_or in Hk. destruct Hk as [Hk|Hk].
  - destruct l as [l|]; [|destruct Hk]. destruct Hk as [<-|[]]. apply tree_ind'.
  - apply in_app_or in Hk. destruct Hk as [Hk|Hk].
    + destruct r as [r|]; [|destruct Hk]. destruct Hk as [<-|[]]. apply tree_ind'.
    + apply in_app_or in Hk. destruct Hk as [Hk|Hk].
      * revert Hk. induction ss as [|x ss IH]; [intros []|]; intros [<-|Hk]; [apply tree_ind'|now apply IH].
      * revert Hk. induction ps as [|x ps IH]; [intros []|]; intros [<-|Hk]; [apply tree_ind'|now apply IH].
Defined.
End Ind.
Lemma pick_incl {A} o (l r : option A) ss ps k : In k (pick o l r ss ps) -> In k (o2l l ++ o2l r ++ ss ++ ps).
Proof. rewrite !in_app_iff. destruct o; cbn [pick]; rewrite ?in_app_iff; cbn; tauto. Qed.
Lemma kids_ind (P : tree -> Prop) : (forall t, (forall k, In k (kids t) -> P k) -> P t) -> forall t, P t.
Proof. intros H. apply tree_ind'. intros o y l r ss ps sc IH. apply H. intros k Hk. apply IH. now apply pick_incl in Hk. Qed.

Definition walk_kids (t : tree) (c : checker) : option checker := match run_all (map (check false) (kids t)) c with Some c1 => exit_node c1 | None => None end.
Lemma check_eq root t c : check root t c =
  let c1 := push (t_op t) c in
  if opens (t_op t) then walk_kids t (enter (t_scope t) c1)
  else if is_id (t_op t) && is_free c1 (t_sym t) then walk_kids t (note (t_sym t) c1)
  else if skips t then Some (match t_left t with Some l => if is_free c1 (t_sym l) then note (t_sym l) c1 else c1 | None => c1 end)
  else if is_fn (t_op t) && negb root then Some c1 else walk_kids t c1.
Proof.
  destruct t as [o y l r ss ps sc]. cbn [check t_op t_scope t_sym t_left skips]. rewrite pick_map. unfold walk_kids. cbn [kids].
  destruct (opens o); [reflexivity|]. destruct (is_id o && is_free (push o c) y); [reflexivity|].
  destruct o; try reflexivity; destruct l as [[[] ? ? ? ? ? ?]|]; reflexivity.
Qed.

(** What is on the stack and in scope after a walk, above what was there before. *)
Definition n_open (st : list op) : nat := List.length (filter opens st).
Definition grown (t : tree) (c c1 : checker) : Prop :=
  exists st scs, c_stack c1 = st ++ c_stack c /\ c_scopes c1 = scs ++ c_scopes c /\ n_open st = List.length scs /\
    (forall s, In s scs -> exists m cs, below m cs t /\ opens (t_op m) = true /\ s = t_scope m) /\ incl (c_free c) (c_free c1).
(** Found: [x] mentioned below scopes that do not declare it, nor do those outside. *)
Definition found (t : tree) (c : checker) (x : sym) : Prop :=
  s_global x = false /\ s_lit x = false /\ (forall s, In s (c_scopes c) -> ~ In x s) /\
  exists m cs, plain_below m cs t /\ mentions m x /\ forall s, In s cs -> ~ In x s.
Definition sound (t : tree) (c c1 : checker) : Prop := forall x, In x (c_free c1) -> In x (c_free c) \/ found t c x.
Definition complete (t : tree) (c c1 : checker) : Prop := forall x, plainly_uses t x -> s_global x = false -> s_lit x = false ->
  (forall s, In s (c_scopes c) -> ~ In x s) -> (forall m cs, below m cs t -> opens (t_op m) = true -> ~ In x (t_scope m)) -> In x (c_free c1).
Definition no_fn_in (t : tree) : Prop := forall m cs, below m cs t -> is_fn (t_op m) = false.

Lemma is_free_spec c x : is_free c (Some x) = true <-> s_global x = false /\ s_lit x = false /\ forall s, In s (c_scopes c) -> ~ In x s.
Proof.
  unfold is_free. rewrite !andb_true_iff, !negb_true_iff. split.
  - intros [[H1 H2] H3]. repeat split; auto. intros s Hs Hx. assert (existsb (mem x) (c_scopes c) = true) by (apply existsb_exists; exists s; split; [exact Hs|now apply mem_in]). congruence.
  - intros (H1 & H2 & H3). repeat split; auto. destruct (existsb (mem x) (c_scopes c)) eqn:E; [|reflexivity]. apply existsb_exists in E. destruct E as (s & Hs & E). apply mem_in in E. now destruct (H3 s Hs).
Qed.
Lemma note_free x c y : In y (c_free (note (Some x) c)) <-> In y (c_free c) \/ y = x.
Proof. cbn. destruct (mem x (c_free c)) eqn:E; [apply mem_in in E|]; cbn; intuition congruence. Qed.
Lemma kid_below t k m cs : In k (kids t) -> below m cs k -> exists cs1, below m cs1 t.
Proof. intros. eexists. eapply below_kid; eauto. Qed.

(** All kids in turn. *)
Lemma walk_list t l : incl l (kids t) -> (forall k, In k l -> forall c, exists c1, check false k c = Some c1 /\ grown k c c1 /\ sound k c c1 /\ complete k c c1) ->
  forall c, exists c1, run_all (map (check false) l) c = Some c1 /\
    (exists st scs, c_stack c1 = st ++ c_stack c /\ c_scopes c1 = scs ++ c_scopes c /\ n_open st = List.length scs /\
      (forall s, In s scs -> exists m cs, below m cs t /\ opens (t_op m) = true /\ s = t_scope m) /\ incl (c_free c) (c_free c1)) /\
    (forall x, In x (c_free c1) -> In x (c_free c) \/ exists k, In k l /\ found k c x) /\
    (forall x, (exists k, In k l /\ plainly_uses k x) -> s_global x = false -> s_lit x = false -> (forall s, In s (c_scopes c) -> ~ In x s) ->
      (forall m cs, below m cs t -> opens (t_op m) = true -> ~ In x (t_scope m)) -> In x (c_free c1)).
Proof.
  induction l as [|k l IH]; intros Hl Hk c.
  - exists c. split; [reflexivity|]. split; [exists [], []; repeat split; auto; [intros s []|apply incl_refl]|]. split; [auto|]. intros x (k & [] & _).
  - destruct (Hk k (or_introl eq_refl) c) as (c1 & E1 & (st1 & scs1 & A1 & A2 & A3 & A4 & A5) & S1 & C1).
    destruct (IH (fun y Hy => Hl y (or_intror Hy)) (fun y Hy => Hk y (or_intror Hy)) c1) as (c2 & E2 & (st2 & scs2 & B1 & B2 & B3 & B4 & B5) & S2 & C2).
    assert (Hkt : In k (kids t)) by (apply Hl; now left).
    exists c2. cbn [map run_all]. rewrite E1. split; [exact E2|]. split; [|split].
    + exists (st2 ++ st1), (scs2 ++ scs1). rewrite B1, B2, A1, A2, !app_assoc. unfold n_open in *. rewrite filter_app, !app_length, A3, B3. repeat split; auto.
      * intros s Hs. apply in_app_or in Hs. destruct Hs as [Hs|Hs]; [auto|]. destruct (A4 s Hs) as (m & cs & D1 & D2). destruct (kid_below t k m cs Hkt D1) as (cs1 & D3). eauto.
      * eapply incl_tran; eauto.
    + intros x Hx. destruct (S2 x Hx) as [H|(k2 & H1 & H2)].
      * destruct (S1 x H) as [H1|H1]; [auto|]. right. exists k. split; [now left|exact H1].
      * right. exists k2. split; [now right|]. destruct H2 as (F1 & F2 & F3 & F4). split; [exact F1|]. split; [exact F2|]. split; [|exact F4]. intros s Hs. apply F3. rewrite A2. apply in_or_app. now right.
    + intros x (k2 & [<-|H2] & H3) G1 G2 G3 G4.
      * apply B5. apply C1; auto. intros m cs Hm. destruct (kid_below t k m cs Hkt Hm) as (cs1 & D). eauto.
      * apply C2; auto; [now exists k2|]. intros s Hs. rewrite A2 in Hs. apply in_app_or in Hs. destruct Hs as [Hs|Hs]; [|auto]. destruct (A4 s Hs) as (m & cs & D1 & D2 & ->). destruct (kid_below t k m cs Hkt D1) as (cs1 & D3). eauto.
Qed.
Lemma mentions_plain m x : mentions m x -> skips m = false -> is_ident m x.
Proof. intros [H|[H _]] E; [exact H|congruence]. Qed.
Lemma opens_not_ident m x : opens (t_op m) = true -> is_ident m x -> False.
Proof. intros H (l & r & ss & ps & sc & ->). discriminate. Qed.
Lemma opens_skips m : opens (t_op m) = true -> skips m = false.
Proof. destruct m as [[] ? ? ? ? ? ?]; intros H; try discriminate H; reflexivity. Qed.
(** One node. *)
Lemma check_ok : forall t root c, root = true \/ no_fn_in t -> (forall k, In k (kids t) -> no_fn_in k) ->
  exists c1, check root t c = Some c1 /\ grown t c c1 /\ sound t c c1 /\ complete t c c1.
Proof.
  apply (kids_ind (fun t => forall root c, root = true \/ no_fn_in t -> (forall k, In k (kids t) -> no_fn_in k) -> exists c1, check root t c = Some c1 /\ grown t c c1 /\ sound t c c1 /\ complete t c c1)).
  intros t IH root c Hroot Hno. rewrite check_eq. cbv zeta.
  assert (L : forall c, exists c1, run_all (map (check false) (kids t)) c = Some c1 /\
    (exists st scs, c_stack c1 = st ++ c_stack c /\ c_scopes c1 = scs ++ c_scopes c /\ n_open st = List.length scs /\
      (forall s, In s scs -> exists m cs, below m cs t /\ opens (t_op m) = true /\ s = t_scope m) /\ incl (c_free c) (c_free c1)) /\
    (forall x, In x (c_free c1) -> In x (c_free c) \/ exists k, In k (kids t) /\ found k c x) /\
    (forall x, (exists k, In k (kids t) /\ plainly_uses k x) -> s_global x = false -> s_lit x = false -> (forall s, In s (c_scopes c) -> ~ In x s) ->
      (forall m cs, below m cs t -> opens (t_op m) = true -> ~ In x (t_scope m)) -> In x (c_free c1))).
  { apply walk_list; [apply incl_refl|]. intros k Hk c0. apply IH; [exact Hk|right; now apply Hno|]. intros k2 Hk2 m cs Hm. destruct (kid_below k k2 m cs Hk2 Hm) as (cs1 & D). now apply (Hno k Hk m cs1). }
  assert (K : forall fr, (forall x, In x fr <-> In x (c_free c) \/ (is_id (t_op t) = true /\ is_free c (Some x) = true /\ t_sym t = Some x)) -> skips t = false ->
    exists c1, walk_kids t (Checker (t_op t :: c_stack c) (own_scope t ++ c_scopes c) fr) = Some c1 /\ grown t c c1 /\ sound t c c1 /\ complete t c c1).
  { intros fr Hfr Hsk. destruct (L (Checker (t_op t :: c_stack c) (own_scope t ++ c_scopes c) fr)) as (c2 & E & (st & scs & A1 & A2 & A3 & A4 & A5) & S & C). unfold walk_kids. rewrite E. cbn [c_stack c_scopes c_free] in *.
    set (st1 := st ++ [t_op t]). set (scs1 := scs ++ own_scope t).
    assert (B1 : c_stack c2 = st1 ++ c_stack c) by (subst st1; rewrite <- app_assoc; exact A1).
    assert (B2 : c_scopes c2 = scs1 ++ c_scopes c) by (subst scs1; rewrite <- app_assoc; exact A2).
    assert (B3 : n_open st1 = List.length scs1).
    { subst st1 scs1. unfold n_open in *. rewrite filter_app, !app_length, A3. f_equal. cbn. unfold own_scope. change declares with opens. now destruct (opens (t_op t)). }
    assert (B4 : forall s, In s scs1 -> exists m cs, below m cs t /\ opens (t_op m) = true /\ s = t_scope m).
    { intros s Hs. apply in_app_or in Hs. destruct Hs as [Hs|Hs]; [auto|]. unfold own_scope in Hs. change declares with opens in Hs. destruct (opens (t_op t)) eqn:Eo; [|destruct Hs]. destruct Hs as [<-|[]]. exists t, (own_scope t). repeat split; auto. constructor. }
    assert (X : exists h st2 scs2, st1 = h :: st2 /\ n_open st2 = List.length scs2 /\ incl scs2 scs1 /\ exit_node c2 = Some (Checker (st2 ++ c_stack c) (scs2 ++ c_scopes c) (c_free c2))).
    { destruct st1 as [|h st2] eqn:Es; [subst st1; now destruct st|]. exists h, st2. unfold exit_node. rewrite B1, B2. cbn [app]. unfold n_open in *. cbn [filter] in B3. destruct (opens h); cbn [List.length] in B3.
      - destruct scs1 as [|s scs2]; [discriminate|]. injection B3 as B3. exists scs2. repeat split; auto. intros x Hx. now right.
      - exists scs1. repeat split; auto. apply incl_refl. }
    destruct X as (h & st2 & scs2 & X1 & X2 & X3 & X4). rewrite X4. eexists. split; [reflexivity|]. split; [|split].
    - exists st2, scs2. cbn [c_stack c_scopes c_free]. repeat split; auto. intros x Hx. apply A5. apply Hfr. now left.
    - intros x Hx. cbn [c_free] in Hx. destruct (S x Hx) as [H|(k & H1 & F1 & F2 & F3 & m & cs & F4 & F5 & F6)].
      + apply Hfr in H. destruct H as [H|(H1 & H2 & H3)]; [now left|right]. apply is_free_spec in H2. destruct H2 as (G1 & G2 & G3). split; [exact G1|]. split; [exact G2|]. split; [exact G3|].
        exists t, (own_scope t). split; [constructor|]. split; [left; destruct t as [[] ? ? ? ? ? ?]; try discriminate H1; cbn in H3; subst; repeat eexists|].
        unfold own_scope. change declares with opens. destruct (opens (t_op t)) eqn:Eo; [destruct (t_op t); discriminate|]. intros s [].
      + right. split; [exact F1|]. split; [exact F2|]. split; [intros s Hs; apply F3, in_or_app; now right|]. exists m, (own_scope t ++ cs). split; [now apply plain_kid with k|]. split; [exact F5|].
        intros s Hs. apply in_app_or in Hs. destruct Hs as [Hs|Hs]; [apply F3, in_or_app; now left|auto].
    - intros x (m & cs & Hm & Hx) G1 G2 G3 G4. cbn [c_free]. inversion Hm; subst.
      + assert (Hi : is_ident t x) by now apply mentions_plain. destruct Hi as (l & r & ss & ps & sc & ->). apply A5, Hfr. right. split; [reflexivity|]. split; [|reflexivity]. apply is_free_spec. auto.
      + apply C; auto; [exists k; split; [assumption|]; now exists m, cs0|]. intros s Hs. apply in_app_or in Hs. destruct Hs as [Hs|Hs]; [|auto]. unfold own_scope in Hs. change declares with opens in Hs.
        destruct (opens (t_op t)) eqn:Eo; [|destruct Hs]. destruct Hs as [<-|[]]. apply (G4 t (own_scope t)); [constructor|exact Eo]. }
  assert (Ef : forall y, is_free (push (t_op t) c) y = is_free c y) by reflexivity.
  destruct (opens (t_op t)) eqn:Eo.
  { destruct (K (c_free c)) as (c1 & K1 & K2); [|now apply opens_skips|].
    - intros x. split; [now left|]. intros [H|(H & _)]; [exact H|]. destruct (t_op t); discriminate.
    - exists c1. unfold own_scope in K1. change declares with opens in K1. rewrite Eo in K1. now split. }
  assert (Es : own_scope t = []) by (unfold own_scope; change declares with opens; now rewrite Eo). rewrite Es in K.
  destruct (is_id (t_op t) && is_free (push (t_op t) c) (t_sym t)) eqn:Ei.
  { apply andb_true_iff in Ei. destruct Ei as [Ei Ei2]. rewrite Ef in Ei2. destruct (t_sym t) as [x|] eqn:Ey; [|discriminate].
    destruct (K (c_free (note (Some x) c))) as (c1 & K1 & K2).
    - intros z. rewrite note_free. split; (intros [H|H]; [now left|]); [subst z; right; auto|]. destruct H as (_ & _ & H). injection H as ->. now right.
    - destruct t as [[] ? ? ? ? ? ?]; try discriminate Ei; reflexivity.
    - exists c1. split; [|exact K2]. rewrite <- K1. reflexivity. }
  assert (Hn : forall x, is_id (t_op t) = true -> t_sym t = Some x -> is_free c (Some x) = false).
  { intros x H1 H2. rewrite H1, H2, Ef in Ei. exact Ei. }
  destruct (skips t) eqn:Esk.
  { destruct t as [o y l r ss ps sc]. cbn [t_left t_op] in *. destruct l as [l|]; [|destruct o; discriminate]. rewrite Ef.
    assert (Hl : exists y1 l1 r1 ss1 ps1 sc1, l = Tree OpIdentifier y1 l1 r1 ss1 ps1 sc1) by (destruct o; try discriminate Esk; destruct l as [[] ? ? ? ? ? ?]; try discriminate Esk; repeat eexists).
    destruct Hl as (y1 & l1 & r1 & ss1 & ps1 & sc1 & ->). cbn [t_sym].
    assert (Hm : forall x, y1 = Some x -> mentions (Tree o y (Some (Tree OpIdentifier y1 l1 r1 ss1 ps1 sc1)) r ss ps sc) x) by (intros x ->; right; split; [exact Esk|]; repeat eexists).
    assert (Hc : forall c1, (forall x, y1 = Some x -> is_free c (Some x) = true -> In x (c_free c1)) -> complete (Tree o y (Some (Tree OpIdentifier y1 l1 r1 ss1 ps1 sc1)) r ss ps sc) c c1).
    { intros c1 Hc x (m & cs & Hm1 & Hx) G1 G2 G3 G4. inversion Hm1; subst; [|congruence]. destruct Hx as [(? & ? & ? & ? & ? & E)|(_ & l & E1 & (? & ? & ? & ? & ? & ->))]; [injection E as -> _; discriminate Esk|].
      cbn in E1. injection E1 as -> _ _ _ _ _. apply Hc; [reflexivity|]. apply is_free_spec. auto. }
    destruct (is_free c y1) eqn:E1.
    - destruct y1 as [x|]; [|discriminate]. exists (note (Some x) (push o c)). split; [reflexivity|]. split; [|split].
      + exists [o], []. cbn. rewrite Eo. repeat split; auto; [intros s []|]. intros z Hz. apply note_free. now left.
      + intros z Hz. apply note_free in Hz. destruct Hz as [Hz| ->]; [now left|right]. apply is_free_spec in E1. destruct E1 as (G1 & G2 & G3). repeat (split; [assumption|]). eexists _, _. split; [constructor|]. split; [now apply Hm|].
        unfold own_scope. change declares with opens. cbn [t_op]. rewrite Eo. intros s [].
      + apply Hc. intros z E _. injection E as ->. apply note_free. now right.
    - exists (push o c). split; [reflexivity|]. split; [|split].
      + exists [o], []. cbn. rewrite Eo. repeat split; auto; [intros s []|apply incl_refl].
      + intros z Hz. now left.
      + apply Hc. intros z -> E. congruence. }
  destruct (is_fn (t_op t) && negb root) eqn:Efn.
  { exfalso. apply andb_true_iff in Efn. destruct Efn as [Efn Er]. destruct Hroot as [->|Hr]; [discriminate|]. rewrite (Hr t (own_scope t)) in Efn; [discriminate|constructor]. }
  destruct (K (c_free c)) as (c1 & K1 & K2); [|reflexivity|now exists c1].
  intros x. split; [now left|]. intros [H|(H1 & H2 & H3)]; [exact H|]. rewrite (Hn x H1 H3) in H2. discriminate.
Qed.
Lemma free_vars_ok fn : no_fns fn -> exists vs, free_vars fn = Some vs /\
  (forall x, In x vs -> s_global x = false /\ s_lit x = false /\ plainly_uses fn x /\ (scoped fn -> ~ own fn x)) /\
  (forall x, plainly_uses fn x -> s_global x = false -> s_lit x = false -> ~ own fn x -> In x vs).
Proof.
  intros Hno. destruct (check_ok fn true (Checker [] [t_scope fn] [])) as (c1 & E & _ & S & C); [now left|intros k Hk m cs Hm; now apply (Hno k m cs)|].
  exists (c_free c1). unfold free_vars. rewrite E. split; [reflexivity|]. split.
  - intros x Hx. destruct (S x Hx) as [[]|(F1 & F2 & F3 & m & cs & F4 & F5 & F6)]. split; [exact F1|]. split; [exact F2|]. split; [now exists m, cs|]. intros Hs Ho.
    assert (B : forall m cs t, plain_below m cs t -> below m cs t).
    { clear. intros m cs t H. induction H; [constructor|]. now apply below_kid with k. }
    assert (Q : exists m2 cs2, below m2 cs2 fn /\ is_ident m2 x /\ forall s, In s cs2 -> ~ In x s).
    { destruct F5 as [F5|(F5 & l & F7 & F8)]; [exists m, cs; auto|]. exists l.
      assert (T : forall m cs t, below m cs t -> forall k, In k (kids m) -> below k (cs ++ own_scope k) t).
      { clear. intros m cs t H. induction H as [t|m cs k t Hk Hb IH]; intros k2 Hk2; [apply below_kid with k2; [exact Hk2|constructor]|]. rewrite <- app_assoc. apply below_kid with k; [exact Hk|now apply IH]. }
      exists (cs ++ own_scope l). split; [apply T with m; [now apply B|]|split; [exact F8|]].
      - destruct m as [[] ? ? ? ? ? ?]; try discriminate F5; cbn in F7; subst; cbn; now left.
      - destruct F8 as (? & ? & ? & ? & ? & ->). unfold own_scope. change declares with opens. cbn. rewrite app_nil_r. exact F6. }
    destruct Q as (m2 & cs2 & Q1 & Q2 & Q3). destruct (Hs m2 cs2 x Q1 Q2 Ho) as [H|(s & H1 & H2)]; [|now apply (Q3 s)]. apply (F3 (t_scope fn)); [now left|exact H].
  - intros x Hx G1 G2 Ho. apply C; auto; cbn.
    + intros s [<-|[]] H. apply Ho. now left.
    + intros m cs Hm Hop H. apply Ho. right. now exists m, cs.
Qed.
